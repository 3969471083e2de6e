(** Trigonometric interpolation with the kernel alphaS. *)
From Coq Require Import ZArith Reals List Lia Lra Arith.
From Coq Require Import ZifyNat.
From Coquelicot Require Import Coquelicot.
From Verif Require Import Model.Num Model.Np Model.Spectral Spec.Trig Proofs.ListLemmas Proofs.Sums
  Proofs.Fourier Proofs.RIntLemmas Proofs.Kernels.
Import ListNotations.
Local Open Scope R_scope.
Ltac Zify.zify_post_hook ::= Z.div_mod_to_equations.

Lemma xg_eq N m : (0 < N)%nat -> xg N m = 2 * PI * INR m / INR N.
Proof. intro. unfold xg, hstep. field. now apply INR_neq0. Qed.

(** alphaS is even and 2pi-periodic and cardinal on the grid. *)
Lemma alphaS_even N x : alphaS N (- x) = alphaS N x.
Proof.
  unfold alphaS. f_equal. apply Rsum_ext. intros i _.
  replace (IZR (fz N i) * - x) with (- (IZR (fz N i) * x)) by ring. apply cos_neg.
Qed.
Lemma alphaS_period N x k : alphaS N (x + 2 * IZR k * PI) = alphaS N x.
Proof.
  unfold alphaS. f_equal. apply Rsum_ext. intros i _.
  rewrite <- (cos_period_Z (IZR (fz N i) * x) (fz N i * k)). f_equal. rewrite mult_IZR. ring.
Qed.
Lemma alphaS_grid N (k : Z) : (0 < N)%nat ->
  alphaS N (IZR k * hstep N) = if Z.eqb (k mod Z.of_nat N) 0 then 1 else 0.
Proof.
  intro HN. assert (INR N <> 0) as HI by now apply INR_neq0. unfold alphaS.
  rewrite (Rsum_ext _ _ (fun i => cos (2 * PI * IZR k * INR i / INR N + - (INR (N/2) * (IZR k * hstep N))))).
  2:{ intros i _. f_equal. unfold fz, hstep. rewrite minus_IZR, <- !INR_IZR_INZ. field. auto. }
  rewrite sum_cos_ortho by auto. destruct (Z.eqb_spec (k mod Z.of_nat N) 0) as [E|E]; [|ring].
  apply Z.mod_divide in E; [|lia]. destruct E as [q ->].
  replace (- (INR (N / 2) * (IZR (q * Z.of_nat N) * hstep N))) with (0 + 2 * IZR (- (Z.of_nat (N/2) * q)) * PI).
  - rewrite cos_period_Z, cos_0. field. auto.
  - rewrite opp_IZR, !mult_IZR, <- !INR_IZR_INZ. unfold hstep. field. auto.
Qed.
Lemma alphaS_card N j m : (j < N)%nat -> (m < N)%nat ->
  alphaS N (xg N j - xg N m) = if Nat.eqb j m then 1 else 0.
Proof.
  intros Hj Hm. rewrite xg_diff, alphaS_grid by lia.
  destruct (Nat.eqb_spec j m) as [->|E].
  - rewrite Z.sub_diag, Z.mod_0_l by lia. reflexivity.
  - destruct (Z.eqb_spec ((Z.of_nat j - Z.of_nat m) mod Z.of_nat N) 0) as [E'|E']; [|reflexivity].
    apply mod_small_diff in E'; lia.
Qed.

(** Reproduction of cosines *)
Lemma repro_terms N n c x : (0 < N)%nat ->
  Rsum N (fun m => cos (IZR n * xg N m - c) * alphaS N (x - xg N m)) =
  /2 * Rsum N (fun i => (if Z.eqb ((n - fz N i) mod Z.of_nat N) 0 then cos (IZR (fz N i) * x - c) else 0)
                      + (if Z.eqb ((n + fz N i) mod Z.of_nat N) 0 then cos (IZR (fz N i) * x + c) else 0)).
Proof.
  intro HN. assert (INR N <> 0) as HI by now apply INR_neq0.
  rewrite (Rsum_ext _ _ (fun m => / INR N * Rsum N (fun i => /2 * (
     cos (2 * PI * IZR (n - fz N i) * INR m / INR N + (IZR (fz N i) * x - c)) +
     cos (2 * PI * IZR (n + fz N i) * INR m / INR N + (- (IZR (fz N i) * x) - c)))))).
  2:{ intros m _. unfold alphaS. rewrite (Rmult_comm (cos _)), Rmult_assoc, <- Rsum_scal_r. f_equal.
      apply Rsum_ext. intros i _.
      replace (2 * PI * IZR (n - fz N i) * INR m / INR N + (IZR (fz N i) * x - c)) with
        ((IZR n * xg N m - c) + IZR (fz N i) * (x - xg N m)).
      2:{ rewrite xg_eq by auto. rewrite minus_IZR. field. auto. }
      replace (2 * PI * IZR (n + fz N i) * INR m / INR N + (- (IZR (fz N i) * x) - c)) with
        ((IZR n * xg N m - c) - IZR (fz N i) * (x - xg N m)).
      2:{ rewrite xg_eq by auto. rewrite plus_IZR. field. auto. }
      generalize (IZR n * xg N m - c) (IZR (fz N i) * (x - xg N m)). intros A B.
      rewrite cos_plus, cos_minus. field. }
  rewrite Rsum_scal, Rsum_swap.
  rewrite (Rsum_ext _ _ (fun i => /2 * (Rsum N (fun m => cos (2 * PI * IZR (n - fz N i) * INR m / INR N + (IZR (fz N i) * x - c)))
      + Rsum N (fun m => cos (2 * PI * IZR (n + fz N i) * INR m / INR N + (- (IZR (fz N i) * x) - c)))))).
  2:{ intros i _. rewrite Rsum_scal, Rsum_plus. reflexivity. }
  rewrite <- !Rsum_scal. apply Rsum_ext. intros i _.
  rewrite !sum_cos_ortho by auto.
  replace (- (IZR (fz N i) * x) - c) with (- (IZR (fz N i) * x + c)) by ring. rewrite cos_neg.
  destruct (Z.eqb _ 0), (Z.eqb _ 0); field; auto.
Qed.

Lemma Rsum_freq_single N (P : Z -> bool) (g : Z -> R) r :
  in_freq N r -> P r = true -> (forall n, in_freq N n -> P n = true -> n = r) ->
  Rsum N (fun i => if P (fz N i) then g (fz N i) else 0) = g r.
Proof.
  intros Hr HP Hu. destruct (in_fz N r Hr) as (k & Hk & Ek).
  rewrite (Rsum_single N k); auto.
  - now rewrite Ek, HP.
  - intros i Hi Hne. destruct (P (fz N i)) eqn:E; [|reflexivity].
    exfalso. apply Hne. apply Hu in E; [|now apply fz_in]. rewrite <- Ek in E. unfold fz in E. lia.
Qed.

Lemma Zmod_range N (z : Z) : (0 < N)%nat -> (z mod Z.of_nat N = 0)%Z -> (- 2 * Z.of_nat N < z < 2 * Z.of_nat N)%Z ->
  z = 0%Z \/ z = Z.of_nat N \/ z = (- Z.of_nat N)%Z.
Proof.
  intros HN E R. apply Z.mod_divide in E; [|lia]. destruct E as [k ->].
  assert (k = -1 \/ k = 0 \/ k = 1)%Z as [->|[->| ->]] by nia; lia.
Qed.

Lemma repro_low N n c x : (0 < N)%nat -> (2 * Z.abs n < Z.of_nat N)%Z ->
  Rsum N (fun m => cos (IZR n * xg N m - c) * alphaS N (x - xg N m)) = cos (IZR n * x - c).
Proof.
  intros HN Hn. rewrite repro_terms by auto. rewrite Rsum_plus.
  rewrite (Rsum_freq_single N (fun f => Z.eqb ((n - f) mod Z.of_nat N) 0) (fun f => cos (IZR f * x - c)) n).
  - rewrite (Rsum_freq_single N (fun f => Z.eqb ((n + f) mod Z.of_nat N) 0) (fun f => cos (IZR f * x + c)) (- n)).
    + replace (IZR (- n) * x + c) with (- (IZR n * x - c)) by (rewrite opp_IZR; ring). rewrite cos_neg. lra.
    + unfold in_freq. lia.
    + rewrite Z.add_opp_diag_r, Z.mod_0_l by lia. reflexivity.
    + intros f Hf E. apply Z.eqb_eq in E. unfold in_freq in Hf.
      apply Zmod_range in E; lia.
  - unfold in_freq. lia.
  - rewrite Z.sub_diag, Z.mod_0_l by lia. reflexivity.
  - intros f Hf E. apply Z.eqb_eq in E. unfold in_freq in Hf. apply Zmod_range in E; lia.
Qed.

Lemma repro_nyq N n c x : (0 < N)%nat -> (2 * Z.abs n = Z.of_nat N)%Z ->
  Rsum N (fun m => cos (IZR n * xg N m - c) * alphaS N (x - xg N m)) = cos (IZR n * x) * cos c.
Proof.
  intros HN Hn. rewrite repro_terms by auto. rewrite Rsum_plus.
  set (r := (- Z.of_nat (N/2))%Z).
  assert (n = r \/ n = (- r)%Z) as Hnr by (unfold r; lia).
  rewrite (Rsum_freq_single N (fun f => Z.eqb ((n - f) mod Z.of_nat N) 0) (fun f => cos (IZR f * x - c)) r).
  - rewrite (Rsum_freq_single N (fun f => Z.eqb ((n + f) mod Z.of_nat N) 0) (fun f => cos (IZR f * x + c)) r).
    + rewrite cos_plus, cos_minus.
      destruct Hnr as [-> | ->]; [field|]. rewrite opp_IZR.
      replace (- IZR r * x) with (- (IZR r * x)) by ring. rewrite cos_neg. field.
    + unfold in_freq, r. lia.
    + apply Z.eqb_eq. apply Z.mod_divide; [lia|]. destruct Hnr as [-> | ->].
      * exists (-1)%Z. unfold r. lia.
      * exists 0%Z. lia.
    + intros f Hf E. apply Z.eqb_eq in E. unfold in_freq in Hf.
      apply Zmod_range in E; unfold r in *; lia.
  - unfold in_freq, r. lia.
  - apply Z.eqb_eq. apply Z.mod_divide; [lia|]. destruct Hnr as [-> | ->].
    + exists 0%Z. lia.
    + exists 1%Z. unfold r. lia.
  - intros f Hf E. apply Z.eqb_eq in E. unfold in_freq in Hf. apply Zmod_range in E; unfold r in *; lia.
Qed.

(** natural-number frequencies, cos and sin separately *)
Lemma repro_cos N k x : (0 < N)%nat -> (2 * k <= N)%nat ->
  Rsum N (fun m => cos (INR k * xg N m) * alphaS N (x - xg N m)) = cos (INR k * x).
Proof.
  intros HN Hk. rewrite INR_IZR_INZ.
  rewrite (Rsum_ext _ _ (fun m => cos (IZR (Z.of_nat k) * xg N m - 0) * alphaS N (x - xg N m)))
    by (intros; now rewrite Rminus_0_r).
  destruct (Nat.eq_dec (2 * k) N) as [E|E].
  - rewrite repro_nyq by lia. rewrite cos_0. ring.
  - rewrite repro_low by lia. now rewrite Rminus_0_r.
Qed.
Lemma repro_sin N k x : (0 < N)%nat -> (2 * k < N)%nat ->
  Rsum N (fun m => sin (INR k * xg N m) * alphaS N (x - xg N m)) = sin (INR k * x).
Proof.
  intros HN Hk. rewrite INR_IZR_INZ.
  rewrite (Rsum_ext _ _ (fun m => cos (IZR (Z.of_nat k) * xg N m - PI/2) * alphaS N (x - xg N m))).
  - rewrite repro_low by lia. rewrite cos_minus, cos_PI2, sin_PI2. ring.
  - intros m _. rewrite cos_minus, cos_PI2, sin_PI2. f_equal. ring.
Qed.
Lemma repro_one N x : (0 < N)%nat -> Rsum N (fun m => alphaS N (x - xg N m)) = 1.
Proof.
  intro HN. transitivity (cos (INR 0 * x)).
  - rewrite <- (repro_cos N 0 x) by lia. apply Rsum_ext. intros m _. simpl. rewrite Rmult_0_l, cos_0. ring.
  - simpl. now rewrite Rmult_0_l, cos_0.
Qed.

(** An interpolant is determined by its samples. *)
Lemma trig_repro N p x : (0 < N)%nat -> trig_interpolant N p ->
  Rsum N (fun m => p (xg N m) * alphaS N (x - xg N m)) = p x.
Proof.
  intros HN (a & b & Hb & Hp). rewrite Hp. unfold trig.
  rewrite (Rsum_ext _ _ (fun m => a 0%nat * alphaS N (x - xg N m) +
     Rsum (N/2) (fun k => a (S k) * (cos (INR (S k) * xg N m) * alphaS N (x - xg N m))
                        + b (S k) * (sin (INR (S k) * xg N m) * alphaS N (x - xg N m))))).
  2:{ intros m _. rewrite Hp. unfold trig. rewrite Rmult_plus_distr_r, <- Rsum_scal_r. f_equal.
      apply Rsum_ext. intros; ring. }
  rewrite Rsum_plus, Rsum_scal, repro_one by auto. rewrite Rmult_1_r. f_equal.
  rewrite Rsum_swap. apply Rsum_ext. intros k Hk.
  rewrite Rsum_plus, !Rsum_scal, repro_cos by lia.
  destruct (Nat.eq_dec (2 * S k) N) as [E|E].
  - rewrite <- E in Hb. rewrite Nat.mul_comm, Nat.div_mul in Hb by lia.
    rewrite Hb; [ring|]. rewrite Nat.even_mul. apply Bool.orb_true_r.
  - rewrite repro_sin by lia. reflexivity.
Qed.

Lemma trig_degree_interpolant N K p : (2 * K < N)%nat -> trig_degree K p -> trig_interpolant N p.
Proof.
  intros HK (a & b & Hp).
  exists (fun k => if Nat.leb k K then a k else 0), (fun k => if Nat.leb k K then b k else 0). split.
  - intro E. destruct (Nat.leb_spec (N/2) K); [|reflexivity]. apply Nat.even_spec in E. destruct E as [q ->]. lia.
  - intro x. rewrite Hp. unfold trig. simpl (Nat.leb 0 K). cbv iota. f_equal.
    replace (N/2)%nat with (K + (N/2 - K))%nat by lia. rewrite Rsum_split.
    rewrite (Rsum_zero_ext (N/2 - K)).
    + rewrite Rplus_0_r. apply Rsum_ext. intros k Hk. destruct (Nat.leb_spec (S k) K); [reflexivity|lia].
    + intros i Hi. destruct (Nat.leb_spec (S (K + i)) K); [lia|]. ring.
Qed.

(** Sums over frequencies folded to non-negative frequencies. *)
Lemma Rsum_fold_freq N (g : R -> R) : (0 < N)%nat -> (forall t, g (- t) = g t) ->
  Rsum N (fun i => g (IZR (fz N i))) =
  g 0 + Rsum (N/2) (fun k => (if Nat.eqb (2 * S k) N then 1 else 2) * g (INR (S k))).
Proof.
  intros HN He. set (K := (N/2)%nat).
  assert (N = K + 1 + (N - K - 1))%nat as EN by (unfold K; lia).
  rewrite EN at 1. rewrite !Rsum_split. simpl (Rsum 1).
  assert (IZR (fz N (K + 0)) = 0) as Z0 by (unfold fz; fold K; rewrite Nat.add_0_r, Z.sub_diag; reflexivity).
  cbn [Rsum]. rewrite Z0.
  rewrite (Rsum_ext K (fun i => g (IZR (fz N i))) (fun i => g (INR (K - i)))).
  2:{ intros i Hi. rewrite <- He. f_equal. rewrite INR_IZR_INZ, <- opp_IZR. f_equal. unfold fz. fold K. lia. }
  rewrite (Rsum_ext (N - K - 1) _ (fun k => g (INR (S k)))).
  2:{ intros i Hi. f_equal. rewrite INR_IZR_INZ. f_equal. unfold fz. fold K. lia. }
  rewrite (Rsum_rev K). rewrite (Rsum_ext K (fun i => g (INR (K - (K - 1 - i)))) (fun k => g (INR (S k)))).
  2:{ intros i Hi. do 2 f_equal. lia. }
  assert (EK : K = (N/2)%nat) by reflexivity. clearbody K.
  destruct (Nat.eq_dec (2 * K) N) as [E|E].
  - replace (N - K - 1)%nat with (K - 1)%nat by lia.
    destruct K as [|k']; [lia|]. replace (S k' - 1)%nat with k' by lia.
    cbn [Rsum]. destruct (Nat.eqb_spec (2 * S k') N); [|lia].
    rewrite (Rsum_ext k' (fun k => (if (2 * S k =? N)%nat then 1 else 2) * g (INR (S k))) (fun k => 2 * g (INR (S k)))).
    2:{ intros i Hi. destruct (Nat.eqb_spec (2 * S i) N); [lia|reflexivity]. }
    rewrite Rsum_scal. lra.
  - replace (N - K - 1)%nat with K by lia.
    rewrite (Rsum_ext K (fun k => (if (2 * S k =? N)%nat then 1 else 2) * g (INR (S k))) (fun k => 2 * g (INR (S k)))).
    2:{ intros i Hi. destruct (Nat.eqb_spec (2 * S i) N); [lia|reflexivity]. }
    rewrite Rsum_scal. lra.
Qed.

(** existence of the interpolant *)
Definition interp (v : list R) (x : R) : R :=
  Rsum (length v) (fun m => nth m v 0 * alphaS (length v) (x - xg (length v) m)).

Lemma interp_samples v : samples v (interp v).
Proof.
  intros j Hj. unfold interp. set (N := length v) in *. rewrite (Rsum_single N j); auto.
  - replace (2 * PI * INR j / INR N) with (xg N j) by (apply xg_eq; lia).
    rewrite alphaS_card by auto. rewrite Nat.eqb_refl. ring.
  - intros i Hi Hne. replace (2 * PI * INR j / INR N) with (xg N j) by (apply xg_eq; lia).
    rewrite alphaS_card by auto. destruct (Nat.eqb_spec j i); [lia|ring].
Qed.

Lemma sin_nyq_nat N m : (0 < N)%nat -> Nat.even N = true -> sin (INR (N/2) * xg N m) = 0.
Proof.
  intros HN E. pose proof (sin_nyq N (- Z.of_nat m) HN E) as H.
  unfold xg. rewrite !INR_IZR_INZ. rewrite !opp_IZR in H. rewrite <- H. f_equal. ring.
Qed.

Lemma interp_trig v : (0 < length v)%nat -> trig_interpolant (length v) (interp v).
Proof.
  intro HN. set (N := length v) in *.
  set (w := fun k => / INR N * (if Nat.eqb k 0 then 1 else if Nat.eqb (2 * k) N then 1 else 2)).
  exists (fun k => Rsum N (fun m => w k * nth m v 0 * cos (INR k * xg N m))),
         (fun k => Rsum N (fun m => w k * nth m v 0 * sin (INR k * xg N m))).
  split.
  - intro E. apply Rsum_zero_ext. intros m Hm. rewrite sin_nyq_nat by auto. ring.
  - intro x. unfold interp, trig. fold N.
    rewrite (Rsum_ext (N/2) _ (fun k => Rsum N (fun m => nth m v 0 * (w (S k) * cos (INR (S k) * (x - xg N m)))))).
    2:{ intros k Hk. rewrite <- !Rsum_scal_r, <- Rsum_plus. apply Rsum_ext. intros m Hm.
        rewrite Rmult_minus_distr_l, cos_minus. ring. }
    rewrite <- Rsum_swap, <- Rsum_plus. apply Rsum_ext. intros m Hm.
    unfold alphaS. rewrite (Rsum_fold_freq N (fun t => cos (t * (x - xg N m)))) by
      (auto; intro t; replace (- t * (x - xg N m)) with (- (t * (x - xg N m))) by ring; apply cos_neg).
    rewrite Rmult_0_l, cos_0, Rsum_scal. simpl (INR 0). rewrite Rmult_0_l, cos_0. unfold w. simpl (Nat.eqb 0 0). cbv iota.
    rewrite (Rsum_ext (N/2) (fun i => / INR N * _ * _) (fun k => / INR N *
      ((if Nat.eqb (2 * S k) N then 1 else 2) * cos (INR (S k) * (x - xg N m))))).
    2:{ intros k Hk. simpl (Nat.eqb (S k) 0). cbv iota. ring. }
    rewrite Rsum_scal. ring.
Qed.

Lemma interp_unique v p : (0 < length v)%nat -> trig_interpolant (length v) p -> samples v p ->
  forall x, p x = interp v x.
Proof.
  intros HN Hp Hs x. rewrite <- (trig_repro (length v) p x HN Hp). unfold interp.
  apply Rsum_ext. intros m Hm. rewrite (Hs m Hm). f_equal. f_equal. now apply xg_eq.
Qed.
