(** C26-C30: the Chebyshev grid. *)
From Coq Require Import ZArith Reals List Lia Lra Arith.
From Coq Require Import ZifyNat.
From Coquelicot Require Import Coquelicot.
From Verif Require Import Model.Num Model.Np Model.Spectral Model.Basis Model.Grids1 Model.Regular Model.Chebyshev Spec.Trig Spec.Poly Proofs.ListLemmas Proofs.Sums
  Proofs.Fourier Proofs.RIntLemmas Proofs.Kernels Proofs.Trig Proofs.Ops Proofs.BasisP Proofs.Grids1P Proofs.GridsThm Proofs.Mirror Proofs.PeriodicBasis Proofs.RegularBasis
  Proofs.TableLin Proofs.Cheb1 Proofs.ChebGuard Proofs.ChebPoly Proofs.Cheb2 Proofs.Cheb3 Proofs.Lin.
Import ListNotations.
Local Open Scope R_scope.
Ltac Zify.zify_post_hook ::= Z.div_mod_to_equations.

(** C26.  fourier_K_inv, called by H1_cheb, refuses to work when numpy.isclose thinks that it divides by zero.
    With an equality test that never identifies different numbers (exact arithmetic), the two stars are inverse for every n: *)
Theorem C26_edge_hodge_inverse (close : C -> C -> bool) (f : list R) : (1 <= length f)%nat ->
  (forall u v, close u v = true -> u = v) ->
  bind (H1_cheb close f) H0d_cheb = Ok f /\ bind (H0d_cheb f) (H1_cheb close) = Ok f.
Proof.
  intros L Hs. pose proof (guard_exact (S (length f)) ltac:(lia) close Hs) as G.
  split; [apply (H0d_H1 (S (length f)))|apply (H1_H0d (S (length f)))]; auto; lia.
Qed.
(** for the real numpy.isclose (default tolerances) the same holds for n <= 927 (f has n-1 entries), and H1_cheb
    raises "Singular operator" on every array for n >= 928, although the operator is not singular *)
Theorem C26_isclose_threshold (f : list R) :
  ((1 <= length f <= 926)%nat -> bind (H1_cheb np_isclose f) H0d_cheb = Ok f /\ bind (H0d_cheb f) (H1_cheb np_isclose) = Ok f) /\
  ((927 <= length f)%nat -> H1_cheb np_isclose f = Err ValueError).
Proof.
  split.
  - intro L. pose proof (guard_small (S (length f)) ltac:(lia)) as G. replace (S (length f) - 1)%nat with (length f) in G by lia. specialize (G ltac:(lia)).
    split; [apply (H0d_H1 (S (length f)))|apply (H1_H0d (S (length f)))]; replace (S (length f) - 1)%nat with (length f) by lia; auto; lia.
  - intro L. pose proof (guard_large (S (length f)) ltac:(lia)) as G. replace (S (length f) - 1)%nat with (length f) in G by lia. specialize (G ltac:(lia)).
    unfold H1_cheb. rewrite (with_h_ok _ _ (2 * length f - 1)) by (rewrite length_cplxv, length_mirror1; lia). rewrite length_cplxv, length_mirror1.
    unfold fourier_K_inv. rewrite length_F, length_cplxv, length_mirror1. unfold kguard in G. cbv zeta in G. cbv zeta. rewrite G. reflexivity.
Qed.
Example C26_instance : bind (H0d_cheb [1; -4; 7]) (H1_cheb np_isclose) = Ok [1; -4; 7].
Proof. apply C26_isclose_threshold. cbn; lia. Qed.
Example C26_exact_test : forall u v, (if Ceq_dec u v then true else false) = true -> u = v.
Proof. intros u v. destruct (Ceq_dec u v); [auto|discriminate]. Qed.

(** C27: the stars on 0-forms are "integrate the reconstruction"; the reconstruction is the polynomial through the values *)
Theorem C27_hodge_integrates_polynomial n (a b : list R) : (2 <= n)%nat -> length a = n -> length b = (n - 1)%nat ->
  exists c, chebyshev_default n = Ok c /\
  let R := R_form (B_chebyshev n) (sizes_interval n) in
  H0_cheb a = Ok (P1d c (tot (R 0%nat true a))) /\
  H0d_cheb b = Ok (P1 c (tot (R 0%nat false b))) /\
  (exists p, polynomial (n - 1) p /\ P0 c p = a /\ forall x, -1 <= x <= 1 -> R 0%nat true a x = Some (p x)) /\
  (exists p, polynomial (n - 2) p /\ P0d c p = b /\ forall x, -1 <= x <= 1 -> R 0%nat false b x = Some (p x)).
Proof.
  intros Hn La Lb. destruct (cd_cells n Hn) as (c & E & Ev & _ & Evd & _). exists c. split; [exact E|]. cbv zeta. fold (R_cheb n).
  destruct (H0_is_P_R n Hn a La) as (c1 & E1 & H1). destruct (H0d_is_P_R n Hn b Lb) as (c2 & E2 & H2). rewrite E in E1, E2. injection E1 as <-. injection E2 as <-.
  split; [exact H1|]. split; [exact H2|]. split.
  - destruct (R0_poly n Hn a La) as (P & HP & Eg & Ex). exists P. repeat split; auto. unfold P0, proj0. rewrite Ev, map_tab. apply tab_nth; auto. intros j Hj. rewrite <- Eg. now apply g0_vert.
  - destruct (R0d_poly n Hn b Lb) as (P & HP & Eg & Ex). exists P. replace (n - 2)%nat with (n - 1 - 1)%nat by lia. repeat split; auto. unfold P0d, proj0. rewrite Evd, map_tab. apply tab_nth; auto. intros j Hj. rewrite <- Eg. now apply g1_vert.
Qed.
Example C27_instance : exists c, chebyshev_default 3 = Ok c /\ H0_cheb [1; 2; 5] = Ok (P1d c (tot (R_form (B_chebyshev 3) (sizes_interval 3) 0 true [1; 2; 5]))).
Proof. destruct (C27_hodge_integrates_polynomial 3 [1; 2; 5] [3; 4] ltac:(lia) eq_refl eq_refl) as (c & E & H). cbv zeta in H. destruct H as (H & _). exists c. split; [exact E|exact H]. Qed.

(** C30: S_cheb evaluates at the dual vertices the polynomial of degree n-1 through the values at the vertices; S_cheb_pinv
    evaluates at the vertices the polynomial of degree n-2 through the values at the dual vertices *)
Theorem C30_interpolation n : (2 <= n)%nat -> exists c, chebyshev_default n = Ok c /\
  (forall p, polynomial (n - 1) p -> S_cheb (P0 c p) = Ok (P0d c p)) /\
  (forall f, length f = n -> exists p, polynomial (n - 1) p /\ P0 c p = f) /\
  (forall p, polynomial (n - 2) p -> S_cheb_pinv (P0d c p) = Ok (P0 c p)) /\
  (forall f, length f = (n - 1)%nat -> exists p, polynomial (n - 2) p /\ P0d c p = f) /\
  (forall f, length f = (n - 1)%nat -> bind (S_cheb_pinv f) S_cheb = Ok f).
Proof.
  intro Hn. destruct (cd_cells n Hn) as (c & E & Ev & _ & Evd & _). exists c. split; [exact E|].
  assert (forall p : R -> R, P0 c p = tab n (fun i => p (- cos (xg (2 * (n - 1)) i)))) as EP by (intro; unfold P0, proj0; now rewrite Ev, map_tab).
  assert (forall p : R -> R, P0d c p = tab (n - 1) (fun i => p (- cos (xg (2 * (n - 1)) i + hstep (2 * (n - 1)) / 2)))) as EPd by (intro; unfold P0d, proj0; now rewrite Evd, map_tab).
  assert (forall p, polynomial (n - 1) p -> S_cheb (P0 c p) = Ok (P0d c p)) as A.
  { intros p Hp. rewrite (S_val n Hn) by (rewrite EP; apply length_tab). f_equal. rewrite EPd. apply tab_ext. intros j Hj. symmetry.
    apply (poly_g0 n Hn); auto; [rewrite EP; apply length_tab|]. intros i Hi. rewrite EP. rewrite nth_tab by auto. reflexivity. }
  assert (forall p, polynomial (n - 2) p -> S_cheb_pinv (P0d c p) = Ok (P0 c p)) as B.
  { intros p Hp. rewrite (Sp_val n Hn) by (rewrite EPd; apply length_tab). f_equal. rewrite EP. apply tab_ext. intros j Hj. symmetry.
    apply (poly_g1 n Hn); auto; [replace (n - 1 - 1)%nat with (n - 2)%nat by lia; auto|rewrite EPd; apply length_tab|]. intros i Hi. rewrite EPd. rewrite nth_tab by auto. reflexivity. }
  assert (forall f, length f = (n - 1)%nat -> exists p, polynomial (n - 2) p /\ P0d c p = f) as X.
  { intros f L. destruct (R0d_poly n Hn f L) as (P & HP & Eg & _). exists P. replace (n - 2)%nat with (n - 1 - 1)%nat by lia. split; auto. rewrite EPd. apply tab_nth; auto. intros j Hj. rewrite <- Eg. now apply g1_vert. }
  split; [exact A|]. split; [|split; [exact B|split; [exact X|]]].
  - intros f L. destruct (R0_poly n Hn f L) as (P & HP & Eg & _). exists P. split; auto. rewrite EP. apply tab_nth; auto. intros j Hj. rewrite <- Eg. now apply g0_vert.
  - intros f L. destruct (X f L) as (p & Hp & <-). rewrite B by auto. cbn [bind]. apply A. apply (poly_mono (n - 2)); [lia|auto].
Qed.
Example C30_instance : bind (S_cheb_pinv [2; -3]) S_cheb = Ok [2; -3].
Proof. destruct (C30_interpolation 3 ltac:(lia)) as (c & _ & _ & _ & _ & _ & H). now apply H. Qed.

(** C28 *)
Theorem C28_dual_edge_hodge_inverse (f : list R) : (2 <= length f)%nat ->
  bind (H0_cheb f) H1d_cheb = Ok f /\ bind (H1d_cheb f) H0_cheb = Ok f.
Proof. intro L. split; [now apply (H1d_H0 (length f))|now apply (H0_H1d (length f))]. Qed.
(** consequently H1d_cheb evaluates at the vertices the polynomial of degree n-1 with the given integrals over the dual edges *)
Theorem C28_dual_edge_hodge_value n (f : list R) : (2 <= n)%nat -> length f = n -> exists c p, chebyshev_default n = Ok c /\
  polynomial (n - 1) p /\ P1d c p = f /\ H1d_cheb f = Ok (P0 c p).
Proof.
  intros Hn L. destruct (rlin_H1d_cheb n Hn) as (g & Lg & Eg). pose proof (lin_len _ _ _ _ Lg L) as Lv. set (v := g f) in *.
  assert (H1d_cheb f = Ok v) as E1 by exact (Eg f L).
  destruct (C27_hodge_integrates_polynomial n v (tab (n - 1) (fun _ => 0)) Hn Lv (length_tab _ _)) as (c & E & H). cbv zeta in H. destruct H as (H0 & _ & (p & Hp & Ep & Rp) & _).
  exists c, p. split; [exact E|]. split; [exact Hp|]. split; [|rewrite Ep; exact E1].
  pose proof (H0_H1d n Hn f L) as X. rewrite E1 in X. cbn [bind] in X. rewrite H0 in X. injection X as X. rewrite <- X.
  destruct (cd_cells n Hn) as (c' & E' & _ & _ & _ & Eed). rewrite E in E'. injection E' as <-.
  unfold P1d, Grids1.proj1. rewrite Eed. cbn [fst snd]. rewrite !zipw_tab. apply tab_ext. intros i Hi.
  rewrite (RInt_R_poly (R_form (B_chebyshev n) (sizes_interval n) 0 true v) p (n - 1)) by auto.
  apply (RInt_R_poly (fun x => Some (p x)) p (n - 1)); auto.
Qed.
Example C28_instance : bind (H1d_cheb [2; -3; 5; 1]) H0_cheb = Ok [2; -3; 5; 1].
Proof. apply C28_dual_edge_hodge_inverse. cbn; lia. Qed.
