(** Spectral exactness on low degree trigonometric polynomials. *)
From Coq Require Import ZArith Reals List Lia Lra Arith.
From Coq Require Import ZifyNat.
From Coquelicot Require Import Coquelicot.
From Verif Require Import Model.Num Model.Np Model.Spectral Model.Basis Spec.Trig Proofs.ListLemmas Proofs.Sums
  Proofs.Fourier Proofs.RIntLemmas Proofs.Kernels Proofs.Trig Proofs.Ops.
Import ListNotations.
Local Open Scope R_scope.
Ltac Zify.zify_post_hook ::= Z.div_mod_to_equations.

Lemma nyq_cos N n c : (0 < N)%nat -> Nat.even N = true -> (2 * Z.abs n < Z.of_nat N)%Z ->
  Rsum N (fun m => cos (IZR n * xg N m - c) * (-1) ^ m) = 0.
Proof.
  intros HN E Hn. assert (INR N <> 0) as HI by now apply INR_neq0.
  apply Nat.even_spec in E as E'. destruct E' as [q Hq].
  assert (INR N = 2 * INR q) as HNq by (rewrite Hq, mult_INR; simpl; ring).
  rewrite (Rsum_ext _ _ (fun m => /2 * (cos (2 * PI * IZR (n + Z.of_nat q) * INR m / INR N + (- c)) +
     cos (2 * PI * IZR (n - Z.of_nat q) * INR m / INR N + (- c))))).
  - rewrite Rsum_scal, Rsum_plus, !sum_cos_ortho by auto.
    destruct (Z.eqb_spec ((n + Z.of_nat q) mod Z.of_nat N) 0) as [E1|E1].
    { apply mod_small_diff in E1; lia. }
    destruct (Z.eqb_spec ((n - Z.of_nat q) mod Z.of_nat N) 0) as [E2|E2].
    { apply mod_small_diff in E2; lia. }
    ring.
  - intros m Hm. rewrite <- cos_PI_nat.
    replace (2 * PI * IZR (n + Z.of_nat q) * INR m / INR N + - c) with ((IZR n * xg N m - c) + INR m * PI).
    2:{ rewrite xg_eq by auto. rewrite plus_IZR, <- INR_IZR_INZ, HNq. field. intro H0. apply HI. rewrite HNq, H0. ring. }
    replace (2 * PI * IZR (n - Z.of_nat q) * INR m / INR N + - c) with ((IZR n * xg N m - c) - INR m * PI).
    2:{ rewrite xg_eq by auto. rewrite minus_IZR, <- INR_IZR_INZ, HNq. field. intro H0. apply HI. rewrite HNq, H0. ring. }
    rewrite (cos_plus (IZR n * xg N m - c)), (cos_minus (IZR n * xg N m - c)). field.
Qed.

Lemma nyq_trig N K p : (0 < N)%nat -> Nat.even N = true -> (2 * K < N)%nat -> trig_degree K p ->
  Rsum N (fun m => p (xg N m) * (-1) ^ m) = 0.
Proof.
  intros HN E HK (a & b & Hp).
  rewrite (Rsum_ext _ _ (fun m => a 0%nat * (cos (IZR 0 * xg N m - 0) * (-1) ^ m) +
    Rsum K (fun k => a (S k) * (cos (IZR (Z.of_nat (S k)) * xg N m - 0) * (-1) ^ m)
                   + b (S k) * (cos (IZR (Z.of_nat (S k)) * xg N m - PI/2) * (-1) ^ m)))).
  - rewrite Rsum_plus, Rsum_scal, nyq_cos by (auto; lia). rewrite Rsum_swap.
    rewrite Rsum_zero_ext; [ring|]. intros k Hk. rewrite Rsum_plus, !Rsum_scal, !nyq_cos by (auto; lia). ring.
  - intros m Hm. rewrite Hp. unfold trig. rewrite Rmult_plus_distr_r, <- Rsum_scal_r. f_equal.
    + rewrite Rmult_0_l, Rminus_0_r, cos_0. ring.
    + apply Rsum_ext. intros k Hk. rewrite <- INR_IZR_INZ, Rminus_0_r, cos_minus, cos_PI2, sin_PI2. ring.
Qed.

Lemma fm_ext_F D D' x :
  (forall i, (i < length x)%nat -> Cmult (nth i (F x) (RtoC 0)) (D (fz (length x) i)) =
                                  Cmult (nth i (F x) (RtoC 0)) (D' (fz (length x) i))) -> fm D x = fm D' x.
Proof. intro H. unfold fm. f_equal. now apply tab_ext. Qed.

(** samples of a low degree polynomial have no Nyquist component *)
Lemma low_no_nyq v K p i : (2 * K < length v)%nat -> trig_degree K p -> samples v p ->
  (i < length v)%nat -> nyq (length v) (fz (length v) i) = true -> nth i (F (cplxv v)) (RtoC 0) = RtoC 0.
Proof.
  intros HK Hp Hs Hi Hn. set (N := length v) in *.
  unfold nyq in Hn. apply andb_prop in Hn as [E Ez]. apply Z.eqb_eq in Ez.
  rewrite nth_F by (now rewrite length_cplxv). rewrite length_cplxv. fold N.
  assert (0 < N)%nat as HN by lia.
  transitivity (RtoC (Rsum N (fun m => p (xg N m) * (-1) ^ m))); [|now rewrite (nyq_trig N K)].
  rewrite RtoC_Rsum. apply Csum_ext. intros m Hm. rewrite Ez.
  unfold cplxv. rewrite nth_map_ with (d' := 0) by auto. rewrite (Hs m Hm). fold N.
  rewrite <- xg_eq by auto. rewrite RtoC_mult. f_equal.
  unfold cis. rewrite cos_neg, sin_neg. unfold xg at 2.
  rewrite (INR_IZR_INZ m), sin_nyq by auto.
  pose proof (cos_nyq_diff N m 0 HN E) as HC. unfold xg in HC at 2. simpl (INR 0) in HC.
  rewrite Rmult_0_l, Rminus_0_r in HC. rewrite HC. simpl. unfold RtoC. f_equal; ring.
Qed.

Lemma samples_interp v p K : (2 * K < length v)%nat -> trig_degree K p -> samples v p -> forall x, p x = interp v x.
Proof. intros HK Hp Hs. apply interp_unique; auto; [lia|]. now apply trig_degree_interpolant with K. Qed.

Lemma exact_I v K p x0 x1 : (2 * K < length v)%nat -> trig_degree K p -> samples v p ->
  opI (cplxv v) x0 x1 =
  cplxv (tab (length v) (fun j => RInt p (xg (length v) j + x0) (xg (length v) j + x1))).
Proof.
  intros HK Hp Hs. rewrite opI_fm by (rewrite length_cplxv; lia).
  transitivity (fm (rl (length v) (dI x0 x1)) (cplxv v)).
  - apply fm_ext_F. rewrite length_cplxv. intros i Hi. unfold rl.
    destruct (nyq (length v) (fz (length v) i)) eqn:En; [|reflexivity].
    rewrite (low_no_nyq v K p i) by auto. ring.
  - rewrite <- real_fm by apply symD_dI. f_equal.
    apply list_eq_nth with (d := 0); [now rewrite length_realfm, length_tab|].
    rewrite length_realfm. intros j Hj. rewrite nth_real_I, nth_tab by auto.
    apply RInt_ext. intros x _. symmetry. now apply samples_interp with K.
Qed.

(** any operator acting through the interpolant *)
Lemma exact_S v p : (0 < length v)%nat -> trig_interpolant (length v) p -> samples v p ->
  opS v = tab (length v) (fun j => p (xg (length v) j + hstep (length v) / 2)).
Proof.
  intros HN Hp Hs. apply list_eq_nth with (d := 0); [now rewrite length_opS, length_tab|].
  rewrite length_opS by auto. intros j Hj. rewrite nth_opS, nth_tab by auto.
  symmetry. now apply interp_unique.
Qed.
Lemma exact_Sinv v p : (0 < length v)%nat -> trig_interpolant (length v) p -> samples v p ->
  opSinv v = tab (length v) (fun j => p (xg (length v) j - hstep (length v) / 2)).
Proof.
  intros HN Hp Hs. apply list_eq_nth with (d := 0); [now rewrite length_opSinv, length_tab|].
  rewrite length_opSinv by auto. intros j Hj. rewrite nth_opSinv, nth_tab by auto.
  symmetry. now apply interp_unique.
Qed.
Lemma exact_H v p : (0 < length v)%nat -> trig_interpolant (length v) p -> samples v p ->
  opH v = tab (length v) (fun j => RInt p (xg (length v) j - hstep (length v) / 2) (xg (length v) j + hstep (length v) / 2)).
Proof.
  intros HN Hp Hs. apply list_eq_nth with (d := 0); [now rewrite length_opH, length_tab|].
  rewrite length_opH by auto. intros j Hj. rewrite nth_opH, nth_tab by auto.
  apply RInt_ext. intros x _. symmetry. now apply interp_unique.
Qed.
Lemma exact_Hinv v p : (0 < length v)%nat -> trig_interpolant (length v) p -> samples v p ->
  opHinv (tab (length v) (fun j => RInt p (xg (length v) j - hstep (length v) / 2) (xg (length v) j + hstep (length v) / 2))) = v.
Proof. intros HN Hp Hs. rewrite <- exact_H by auto. now apply Hinv_H. Qed.
