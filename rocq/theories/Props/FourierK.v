(** C24-C25: the spectral operator fourier_K (integration against sine) and its inverse. *)
From Coq Require Import ZArith Reals List Lia Lra Arith.
From Coq Require Import ZifyNat.
From Coquelicot Require Import Coquelicot.
From Verif Require Import Model.Num Model.Np Model.Spectral Spec.Trig Spec.CInt Proofs.ListLemmas Proofs.Fourier Proofs.Kernels Proofs.Trig Proofs.Lin Proofs.TableLin Proofs.LinAlg Proofs.FourierK.
Import ListNotations.
Local Open Scope R_scope.
Ltac Zify.zify_post_hook ::= Z.div_mod_to_equations.

(** C24: with g(t) = (1/N) sum_i x_i exp(1j*n_i*t) the trigonometric polynomial with Fourier coefficients x
    (so that Finv x are its samples at the points 2*pi*j/N), Finv(fourier_K(x, a, b)) are the integrals of
    g(t) sin(t) over [x_j + a, x_j + b] *)
Theorem C24_K_integrates_against_sine (x : list C) (a b : R) (j : nat) : (j < length x)%nat ->
  let xj := 2 * PI * INR j / INR (length x) in
  of_coeffs x xj = nth j (Finv x) (RtoC 0) /\
  is_CRInt (fun t => Cmult (of_coeffs x t) (RtoC (sin t))) (xj + a) (xj + b) (nth j (Finv (fourier_K x a b)) (RtoC 0)).
Proof.
  intros Hj xj. assert (xj = xg (length x) j) as E by (unfold xj, xg, hstep; unfold Rdiv; ring).
  rewrite E. split; [|now apply K_integral].
  rewrite nth_Finv by auto. reflexivity.
Qed.
(** one coefficient, N = 1: g = c constant; the integral of c sin over [a, b] *)
Example C24_instance : is_CRInt (fun t => Cmult (of_coeffs [RtoC 3] t) (RtoC (sin t))) (2 * PI * 0 / 1 + 0) (2 * PI * 0 / 1 + PI)
   (nth 0 (Finv (fourier_K [RtoC 3] 0 PI)) (RtoC 0)) /\ nth 0 (Finv [RtoC 3]) (RtoC 0) = of_coeffs [RtoC 3] (2 * PI * 0 / 1).
Proof. destruct (C24_K_integrates_against_sine [RtoC 3] 0 PI 0 ltac:(cbn; lia)) as [H1 H2]. split; [exact H2|symmetry; exact H1]. Qed.

(** C25.  The integral of exp(1j*n*t) over [a, b] *)
Definition mom (n : Z) (a b : R) : C := (RInt (fun t => cos (IZR n * t)) a b, RInt (fun t => sin (IZR n * t)) a b).
Lemma I_entry_mom n a b : I_entry n a b = mom n a b.
Proof.
  destruct (is_CRInt_cis n a b 0) as [H1 H2]. rewrite !Rplus_0_l in *. rewrite Rmult_0_r in *. unfold mom.
  rewrite (is_RInt_unique _ _ _ _ H1 : RInt (fun t => cos (IZR n * t)) a b = _), (is_RInt_unique _ _ _ _ H2 : RInt (fun t => sin (IZR n * t)) a b = _).
  unfold cis. rewrite cos_0, sin_0. apply injective_projections; cbn; ring.
Qed.
(** The condition for "Singular operator", with c = numpy.isclose: the two lowest of the N+2 frequencies
    -(N+2)//2, ..., (N+1)//2 against the two highest ones *)
Definition singular (c : C -> C -> bool) (N : nat) (a b : R) : Prop :=
  let lo := (- Z.of_nat ((N + 2) / 2))%Z in let hi := Z.of_nat ((N + 1) / 2) in
  let M n := mom n a b in
  c (M lo) (M (hi - 1)%Z) = true \/ c (M (lo + 1)%Z) (M hi) = true \/
  c (Cmult (M lo) (M (lo + 1)%Z)) (Cmult (M (hi - 1)%Z) (M hi)) = true.
Lemma EI N a b m : (m < N + 2)%nat -> nth m (I_diag (N + 2) a b) (RtoC 0) = mom (fz (N + 2) m) a b.
Proof. intros Hm. unfold I_diag. rewrite nth_map_ with (d' := 0%Z) by (rewrite length_freq; lia). rewrite nth_freq by lia. apply I_entry_mom. Qed.
Lemma kguard_singular c N a b : (1 <= N)%nat -> (kguard c N a b = true <-> singular c N a b).
Proof.
  intro HN. unfold kguard, singular. rewrite !EI by lia. unfold fz. rewrite !Bool.orb_true_iff.
  replace (Z.of_nat 0 - Z.of_nat ((N + 2) / 2))%Z with (- Z.of_nat ((N + 2) / 2))%Z by lia.
  replace (Z.of_nat 1 - Z.of_nat ((N + 2) / 2))%Z with (- Z.of_nat ((N + 2) / 2) + 1)%Z by lia.
  replace (Z.of_nat N - Z.of_nat ((N + 2) / 2))%Z with (Z.of_nat ((N + 1) / 2) - 1)%Z by lia.
  replace (Z.of_nat (N + 1) - Z.of_nat ((N + 2) / 2))%Z with (Z.of_nat ((N + 1) / 2))%Z by lia. cbv zeta. tauto.
Qed.
(** fourier_K_inv raises ("Singular operator") exactly then; otherwise it returns an array of the same length *)
Theorem C25_raises_exactly close (x : list C) (a b : R) : (1 <= length x)%nat ->
  (singular close (length x) a b -> fourier_K_inv close x a b = Err ValueError) /\
  (~ singular close (length x) a b -> exists y, fourier_K_inv close x a b = Ok y /\ length y = length x).
Proof.
  intros HN. rewrite <- kguard_singular by auto. split; intro G.
  - unfold fourier_K_inv. unfold kguard in G. rewrite G. reflexivity.
  - apply Bool.not_true_is_false in G. destruct (lin_fourier_K_inv close _ a b G) as (g & Lg & Eg). exists (g x). split; [now apply Eg|]. exact (lin_len _ _ g x Lg eq_refl).
Qed.
(** When it does not raise it inverts fourier_K on both sides.  Of [close] = numpy.isclose all that is used is that
    a number is close to itself.  The routine divides by the moments of the frequencies -(N//2), ..., (N-1)//2 of
    freq(N), and for odd N also by those of the frequencies +-(N+1)/2: these must not vanish *)
Theorem C25_K_inv_inverts_K (close : C -> C -> bool) (N : nat) (a b : R) : (1 <= N)%nat ->
  (forall z, close z z = true) ->
  (forall n, (- Z.of_nat (N / 2) <= n <= Z.of_nat ((N - 1) / 2))%Z -> mom n a b <> RtoC 0) ->
  (Nat.even N = false -> mom (- Z.of_nat ((N + 1) / 2)) a b <> RtoC 0 /\ mom (Z.of_nat ((N + 1) / 2)) a b <> RtoC 0) ->
  ~ singular close N a b ->
  forall x, length x = N ->
     (exists y, fourier_K_inv close x a b = Ok y /\ length y = N /\ fourier_K y a b = x) /\
     fourier_K_inv close (fourier_K x a b) a b = Ok x.
Proof.
  intros HN Hr Hin Hod NS. rewrite <- kguard_singular in NS by auto. apply Bool.not_true_is_false in NS. rename NS into G.
    assert (forall x, length x = N -> fourier_K_inv close (fourier_K x a b) a b = Ok x) as KI.
    { intros x L. apply K_inv_K; rewrite ?L; auto; [intros m Hm; rewrite I_entry_mom; apply Hin; unfold fz; lia|].
      unfold regularK. rewrite L. unfold kguard in G. rewrite !EI in G by lia. rewrite !I_entry_mom.
      apply Bool.orb_false_iff in G as [G G3]. apply Bool.orb_false_iff in G as [G1 G2].
      assert (forall u v, close u v = false -> u <> v) as NE by (intros u v E ->; rewrite Hr in E; discriminate).
      destruct (Nat.even N) eqn:EN; [split; now apply NE|]. destruct (Hod eq_refl) as [O1 O2].
      assert (exists k, N = 2 * k + 1)%nat as [k Ek]. { apply Nat.odd_spec. unfold Nat.odd. now rewrite EN. }
      split; [replace (fz (N + 2) 0) with (- Z.of_nat ((N + 1) / 2))%Z by (unfold fz; lia); auto|]. split; [replace (fz (N + 2) (N + 1)) with (Z.of_nat ((N + 1) / 2))%Z by (unfold fz; lia); auto|now apply NE]. }
    destruct (lin_fourier_K_inv close N a b G) as (g & Lg & Eg).
    intros x L. split; [|now apply KI].
    exists (g x). split; [now apply Eg|]. split; [exact (lin_len N N g x Lg L)|].
    apply (inv_swap_C N (fun f => fourier_K f a b) g); auto.
    + apply lin_fourier_K.
    + intros f Lf. exact (lin_len N N g f Lg Lf).
    + intros f Lf. assert (length (fourier_K f a b) = N) as L1 by now rewrite length_fourier_K.
      pose proof (KI f Lf) as K. rewrite Eg in K by auto. now injection K.
Qed.
(** N = 2, a = 0, b = pi/2: nothing is divided by zero and the exact test does not raise *)
Definition Ceqb (u v : C) : bool := if Ceq_dec u v then true else false.
Lemma Ceqb_refl z : Ceqb z z = true.
Proof. unfold Ceqb. destruct (Ceq_dec z z); congruence. Qed.
Example C25_instance (x : list C) : length x = 2%nat ->
  (exists y, fourier_K_inv Ceqb x 0 (PI / 2) = Ok y /\ length y = 2%nat /\ fourier_K y 0 (PI / 2) = x) /\
  fourier_K_inv Ceqb (fourier_K x 0 (PI / 2)) 0 (PI / 2) = Ok x.
Proof.
  intro L.
  assert (I_diag (2 + 2) 0 (PI / 2) = [(0, -1); (1, -1); (PI / 2, 0); (1, 1)] :> list C) as EI0.
  { unfold I_diag. change (freq (2 + 2)) with [-2; -1; 0; 1]%Z. cbn [map]. unfold I_entry. cbn [Z.eqb].
    unfold cis. rewrite !Rmult_0_r, cos_0, sin_0.
    replace (-2 * (PI / 2)) with (- PI) by field. replace (-1 * (PI / 2)) with (- (PI / 2)) by ring. replace (1 * (PI / 2)) with (PI / 2) by ring.
    rewrite !cos_neg, !sin_neg, cos_PI, sin_PI, cos_PI2, sin_PI2.
    repeat f_equal; apply injective_projections; cbn; field. }
  assert (forall m, (m < 4)%nat -> mom (fz 4 m) 0 (PI / 2) = nth m [(0, -1); (1, -1); (PI / 2, 0); (1, 1)] (RtoC 0)) as En by (intros m Hm; pose proof (EI 2 0 (PI / 2) m ltac:(lia)) as K; rewrite EI0 in K; symmetry; exact K).
  pose proof PI_RGT_0. pose proof PI2_3_2.
  apply (C25_K_inv_inverts_K Ceqb 2 0 (PI / 2)); try discriminate; auto; [apply Ceqb_refl| |].
  - intros n Hn. assert (n = -1 \/ n = 0)%Z as [->| ->] by (change (2 / 2)%nat with 1%nat in Hn; change ((2 - 1) / 2)%nat with 0%nat in Hn; lia).
    + change (-1)%Z with (fz 4 1). rewrite En by lia. cbn [nth]. intro E. apply (f_equal fst) in E. cbn in E. lra.
    + change (mom 0 0 (PI / 2)) with (mom (fz 4 2) 0 (PI / 2)). rewrite En by lia. cbn [nth]. intro E. apply (f_equal fst) in E. cbn in E. lra.
  - unfold singular. change (- Z.of_nat ((2 + 2) / 2))%Z with (fz 4 0). change (Z.of_nat ((2 + 1) / 2) - 1)%Z with (fz 4 2). change (fz 4 0 + 1)%Z with (fz 4 1). change (Z.of_nat ((2 + 1) / 2)) with (fz 4 3).
    rewrite !En by lia. cbn [nth]. unfold Ceqb. intro H1.
    destruct (Ceq_dec (0, -1) (PI / 2, 0)) as [E|_]; [apply (f_equal fst) in E; cbn in E; lra|].
    destruct (Ceq_dec (1, -1) (1, 1)) as [E|_]; [apply (f_equal snd) in E; cbn in E; lra|].
    destruct (Ceq_dec _ _) as [E|_]; [apply (f_equal fst) in E; cbn in E; lra|]. destruct H1 as [H1|[H1|H1]]; discriminate H1.
Qed.
