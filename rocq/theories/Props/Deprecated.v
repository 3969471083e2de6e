(** C97: the retired formulas of deprecated/spectral.py. *)
From Coq Require Import ZArith Reals List Lia Lra Arith.
From Coq Require Import ZifyNat.
From Coquelicot Require Import Coquelicot.
From Verif Require Import Model.Num Model.Np Model.Spectral Model.Basis Model.Grids1 Model.Regular Model.Chebyshev Model.Deprecated Spec.Trig Spec.CInt Spec.Poly Proofs.ListLemmas Proofs.Sums
  Proofs.Fourier Proofs.RIntLemmas Proofs.Kernels Proofs.Trig Proofs.Ops Proofs.Mirror Proofs.TableLin Proofs.FourierK Proofs.Cheb1 Proofs.ChebGuard Proofs.Cheb2 Proofs.Cheb3 Proofs.DeprecatedP Proofs.DeprecatedQ Props.Chebyshev.
Import ListNotations.
Local Open Scope R_scope.
Ltac Zify.zify_post_hook ::= Z.div_mod_to_equations.

(** the retired Chebyshev Hodge stars compute, for every array, what the stars of chebyshev.py compute: on the vertices and the dual
    edges (n >= 2 entries), and on the dual vertices and the edges (n - 1 >= 1 entries).  The retired star of the dual edges returns
    complex numbers, all of whose imaginary parts are zero. *)
Theorem C97_same_stars (f : list R) :
  ((2 <= length f)%nat -> dep_H0_cheb f = H0_cheb f /\ dep_H0_cheb_alternate f = H0_cheb f /\
     exists g, H1d_cheb f = Ok g /\ dep_H1d_cheb f = Ok (map RtoC g)) /\
  ((1 <= length f)%nat -> dep_H0d_cheb f = H0d_cheb f) /\
  (forall close g, H1_cheb close f = Ok g -> dep_H1_cheb f = Ok g).
Proof.
  split; [|split].
  - intro L. split; [now apply (dep_H0_same (length f))|]. split; [now apply (dep_H0_alternate_same (length f))|]. now apply (dep_H1d_same (length f)).
  - intro L. apply (dep_H0d_same (S (length f))); lia.
  - intros close g E. destruct f as [|x f']; [discriminate E|]. set (f := x :: f') in *. assert (1 <= length f)%nat as L by (unfold f; cbn; lia). clearbody f.
    destruct (kguard close (2 * length f) 0 (hstep (2 * length f))) eqn:G.
    + exfalso. unfold H1_cheb in E. rewrite (with_h_ok _ _ (2 * length f - 1)) in E by (rewrite length_cplxv, length_mirror1; lia). rewrite length_cplxv, length_mirror1 in E.
      unfold fourier_K_inv in E. rewrite length_F, length_cplxv, length_mirror1 in E. unfold kguard in G. cbv zeta in G. cbv zeta in E. rewrite G in E. discriminate.
    + rewrite (dep_H1_same (S (length f)) ltac:(lia) close f); [exact E| |lia]. replace (S (length f) - 1)%nat with (length f) by lia. exact G.
Qed.
(** they are mutually inverse, for every size: the retired star of the edges has no guard and works where the current one raises
    "Singular operator" *)
Theorem C97_inverse (f : list R) :
  ((1 <= length f)%nat -> bind (dep_H0d_cheb f) dep_H1_cheb = Ok f /\ bind (dep_H1_cheb f) dep_H0d_cheb = Ok f) /\
  ((2 <= length f)%nat -> bind (dep_H0_cheb f) dep_H1d_cheb = Ok (map RtoC f) /\ bind (dep_H1d_cheb f) (fun g => dep_H0_cheb (map Re g)) = Ok f) /\
  ((927 <= length f)%nat -> H1_cheb np_isclose f = Err ValueError /\ exists g, dep_H1_cheb f = Ok g /\ H0d_cheb g = Ok f).
Proof.
  assert ((1 <= length f)%nat -> bind (dep_H1_cheb f) dep_H0d_cheb = Ok f) as B.
  { intro L. set (close := fun u v => if Ceq_dec u v then true else false). pose proof (guard_exact (S (length f)) ltac:(lia) close C26_exact_test) as G.
    rewrite (dep_H1_same (S (length f)) ltac:(lia) close f G ltac:(lia)). destruct (C26_edge_hodge_inverse close f L C26_exact_test) as [E _]. destruct (H1_cheb close f) as [g|e] eqn:Eg; [|discriminate]. cbn [bind] in *.
    assert (length g = length f) as Lg. { pose proof (rlin_H1_cheb close (length f) L) as (p & Lp & Ep). { replace (S (length f) - 1)%nat with (length f) in G by lia. exact G. } rewrite Ep in Eg by auto. injection Eg as <-. exact (Lin.lin_len _ _ _ _ Lp eq_refl). }
    rewrite (dep_H0d_same (S (length f))) by lia. exact E. }
  split; [|split].
  - intro L. split; [apply (dep_H1_H0d (S (length f))); lia|auto].
  - intro L. split.
    + rewrite (dep_H0_same (length f)) by auto. pose proof (H1d_H0 (length f) L f eq_refl) as E. destruct (H0_cheb f) as [g|e] eqn:Eg; [|discriminate]. cbn [bind] in *.
      assert (length g = length f) as Lg. { rewrite (H0_val (length f) L f eq_refl) in Eg. injection Eg as <-. apply length_tab. }
      destruct (dep_H1d_same (length f) L g Lg) as (g' & E1 & E2). rewrite E in E1. injection E1 as <-. exact E2.
    + destruct (dep_H1d_same (length f) L f eq_refl) as (g & E1 & E2). rewrite E2. cbn [bind]. change (map Re (cplxv g)) with (realv (cplxv g)). rewrite realv_cplxv.
      pose proof (H0_H1d (length f) L f eq_refl) as E. rewrite E1 in E. cbn [bind] in E. rewrite (dep_H0_same (length f) L); auto.
      destruct (Qf_ex (length f) L f eq_refl) as (q & Hq & Eq). rewrite (H1d_val (length f) L f eq_refl q Hq Eq) in E1. injection E1 as <-. apply length_tab.
  - intro L. split; [now apply C26_isclose_threshold|]. specialize (B ltac:(lia)). destruct (dep_H1_cheb f) as [g|e] eqn:Eg; [|discriminate]. exists g. split; auto. cbn [bind] in B.
    destruct g as [|y g']; [cbn in B; discriminate|]. rewrite <- (dep_H0d_same (S (length (y :: g')))); [exact B|cbn; lia|cbn; lia].
Qed.
(** H_exp, H_sin and H_sin_dual integrate, over the cells [x_j - h/2, x_j + h/2] around the points x_j = j*h, h = 2*pi/N, the
    trigonometric polynomial through the values, times exp(i t), sin t, sin(t + h/2): for every array of complex numbers *)
Definition cells_of (a : list C) (w : R -> C) (p : R -> C) (b : list C) : Prop :=
  let N := length a in let h := 2 * PI / INR N in length b = N /\
  forall j, (j < N)%nat -> is_CRInt (fun t => Cmult (p t) (w t)) (INR j * h - h / 2) (INR j * h + h / 2) (nth j b (RtoC 0)).
Theorem C97_weighted_integrals (a : list C) (p : R -> C) : (1 <= length a)%nat -> ctrig_interpolant (length a) p -> csamples a p ->
  (exists b, H_exp a = Ok b /\ cells_of a (fun t => (cos t, sin t)) p b) /\
  (exists b, H_sin a = Ok b /\ cells_of a (fun t => RtoC (sin t)) p b) /\
  (exists b, H_sin_dual a = Ok b /\ cells_of a (fun t => RtoC (sin (t + PI / INR (length a)))) p b).
Proof.
  intros L Hp Sp. pose proof (ctrig_coeffs a p ltac:(lia) Hp Sp) as E. split; [|split].
  - destruct (H_exp_val a ltac:(lia)) as (b & Eb & Lb & K). exists b. split; [exact Eb|]. split; [exact Lb|]. intros j Hj. specialize (K j Hj). revert K. apply is_CRInt_ext. intro t. now rewrite E.
  - destruct (H_sin_val a ltac:(lia)) as (b & Eb & Lb & K). exists b. split; [exact Eb|]. split; [exact Lb|]. intros j Hj. specialize (K j Hj). revert K. apply is_CRInt_ext. intro t. now rewrite E.
  - destruct (H_sin_dual_val a ltac:(lia)) as (b & Eb & Lb & K). exists b. split; [exact Eb|]. split; [exact Lb|]. intros j Hj. specialize (K j Hj). revert K. apply is_CRInt_ext. intro t. rewrite E. unfold isin. do 3 f_equal. f_equal. unfold hstep. field. apply not_0_INR. lia.
Qed.
(** I_sin(a, b, v) is not the integral of v times the sine: it multiplies the integral of v over [x_j + a, x_j + b] with sin x_j *)
Theorem C97_I_sin (u w : R) (a : list C) (p : R -> C) : (1 <= length a)%nat -> ctrig_interpolant (length a) p -> csamples a p ->
  let N := length a in exists b, I_sin u w a = Ok b /\ length b = N /\
  forall j, (j < N)%nat -> let x := INR j * (2 * PI / INR N) in exists c, is_CRInt p (x + u) (x + w) c /\ nth j b (RtoC 0) = Cmult c (RtoC (sin x)).
Proof.
  intros L Hp Sp N. pose proof (ctrig_coeffs a p ltac:(lia) Hp Sp) as E. destruct (I_sin_val u w a ltac:(lia)) as (b & c & Eb & Lb & K). exists b. split; [exact Eb|]. split; [exact Lb|].
  intros j Hj x. exists (c j). destruct (K j Hj) as [K1 K2]. split; [|exact K2]. revert K1. apply is_CRInt_ext. intro t. now rewrite E.
Qed.
(** the docstrings call the three transforms singular: H_sin is, for every N (a non-zero array is sent to zero); H_exp is not, for any
    N >= 2 (different arrays have different images), and for N = 1 it is *)
Theorem C97_H_sin_singular (N : nat) : (1 <= N)%nat -> exists a, length a = N /\ a <> repeat (RtoC 0) N /\ H_sin a = Ok (repeat (RtoC 0) N).
Proof. intro L. destruct (H_sin_kernel N ltac:(lia)) as (A & B & C0). eauto. Qed.
Theorem C97_H_exp_singular_refuted (a b : list C) : (2 <= length a)%nat -> length a = length b -> H_exp a = H_exp b -> a = b.
Proof. apply H_exp_inj. Qed.
Theorem C97_H_exp_one (a : C) : H_exp [a] = Ok [RtoC 0].
Proof. apply H_exp_one. Qed.
(** arrays that are too short raise *)
Theorem C97_errors (x : R) (u w : R) :
  dep_H0d_cheb [] = Err ZeroDivisionError /\ dep_H1_cheb [] = Err ZeroDivisionError /\ dep_H0_cheb_alternate [] = Err ZeroDivisionError /\
  dep_H0_cheb [] = Err ValueError /\ dep_H1d_cheb [] = Err ValueError /\ dep_H0_cheb [x] = Err ZeroDivisionError /\ dep_H1d_cheb [x] = Err ZeroDivisionError /\
  H_exp [] = Err ZeroDivisionError /\ H_sin [] = Err ZeroDivisionError /\ H_sin_dual [] = Err ZeroDivisionError /\ I_sin u w [] = Err ValueError.
Proof. repeat split. Qed.
Example C97_instance :
  bind (dep_H0d_cheb [1; -4; 7]) dep_H1_cheb = Ok [1; -4; 7] /\ dep_H0_cheb [1; 2; 5] = H0_cheb [1; 2; 5] /\
  (exists b, H_sin [RtoC 1; RtoC 1] = Ok b /\ nth 0 b (RtoC 7) = RtoC 0).
Proof.
  split; [destruct (C97_inverse [1; -4; 7]) as (A & _); destruct (A ltac:(cbn; lia)) as [B _]; exact B|].
  split; [destruct (C97_same_stars [1; 2; 5]) as (A & _); destruct (A ltac:(cbn; lia)) as [B _]; exact B|].
  destruct (C97_weighted_integrals [RtoC 1; RtoC 1] (fun _ => RtoC 1)) as (_ & (b & E & Lb & K) & _); [cbn; lia| | |].
  - exists (fun i => if Nat.eqb i 1 then RtoC 1 else RtoC 0). intro t. cbn -[Cmult IZR Z.of_nat]. change (Z.of_nat 1 - Z.of_nat 1)%Z with 0%Z. rewrite Rmult_0_l, cos_0, sin_0. change ((1, 0) : C) with (RtoC 1). ring.
  - intros j Hj. cbn in Hj. destruct j as [|[|j]]; [reflexivity|reflexivity|lia].
  - exists b. split; [exact E|]. cbn [length] in *. specialize (K 0%nat ltac:(lia)). rewrite (nth_indep b (RtoC 7) (RtoC 0)) by lia. destruct K as [K1 K2].
    assert (is_RInt sin (- (PI / 2)) (PI / 2) 0) as S.
    { replace 0 with (- cos (PI / 2) - - cos (- (PI / 2))) by (rewrite cos_neg; ring). apply (is_RInt_derive (V := R_CompleteNormedModule) (fun t => - cos t) sin).
      - intros t _. auto_derive; [auto|ring].
      - intros t _. apply continuous_derivable. auto_derive; auto. }
    change (INR 2) with 2 in K1, K2. change (INR 0) with 0 in K1, K2. replace (0 * (2 * PI / 2) - 2 * PI / 2 / 2) with (- (PI / 2)) in K1, K2 by field. replace (0 * (2 * PI / 2) + 2 * PI / 2 / 2) with (PI / 2) in K1, K2 by field.
    apply injective_projections.
    + pose proof (is_RInt_unique (V := R_CompleteNormedModule) _ _ _ _ K1) as U. change (Re (nth 0 b (RtoC 0)) = 0). rewrite <- U. apply (is_RInt_unique (V := R_CompleteNormedModule)). revert S. apply is_RInt_ext. intros t _. cbn. ring.
    + pose proof (is_RInt_unique (V := R_CompleteNormedModule) _ _ _ _ K2) as U. change (Im (nth 0 b (RtoC 0)) = 0). rewrite <- U. apply (is_RInt_unique (V := R_CompleteNormedModule)). apply (is_RInt_ext (fun _ => 0)); [intros t _; cbn; ring|]. assert (forall a c v, v = 0 -> is_RInt (fun _ : R => 0) a c v) as Z by (intros a c v ->; pose proof (is_RInt_const_R 0 a c) as Z; rewrite Rmult_0_r in Z; exact Z). now apply Z.
Qed.
