(** The periodic basis functions: closed forms, cardinality. *)
From Coq Require Import ZArith Reals List Lia Lra Arith.
From Coq Require Import ZifyNat.
From Coquelicot Require Import Coquelicot.
From Verif Require Import Model.Num Model.Np Model.Spectral Model.Basis Spec.Trig Proofs.ListLemmas Proofs.Sums
  Proofs.Fourier Proofs.RIntLemmas Proofs.Kernels Proofs.Trig Proofs.Ops.
Import ListNotations.
Local Open Scope R_scope.
Ltac Zify.zify_post_hook ::= Z.div_mod_to_equations.

Lemma alphaS_tele N x : (0 < N)%nat ->
  2 * sin (x/2) * alphaS N x =
  (sin (INR (N - N/2) * x - x/2) + sin (INR (N/2) * x + x/2)) / INR N.
Proof.
  intro HN. assert (INR N <> 0) as HI by now apply INR_neq0.
  unfold alphaS. pose proof (sum_cos_tele N (x/2) (- (INR (N/2) * x))) as T.
  rewrite (Rsum_ext _ _ (fun m => cos (2 * (x / 2) * INR m + - (INR (N / 2) * x)))).
  - replace (2 * sin (x/2) * (/ INR N * Rsum N (fun m : nat => cos (2 * (x / 2) * INR m + - (INR (N / 2) * x))))) with
     (/ INR N * (2 * sin (x/2) * Rsum N (fun m : nat => cos (2 * (x / 2) * INR m + - (INR (N / 2) * x))))) by ring.
    rewrite T. rewrite minus_INR by lia.
    replace (- (INR (N/2) * x) - x/2) with (- (INR (N/2) * x + x/2)) by ring. rewrite sin_neg.
    replace (2 * (x / 2) * INR N - x / 2 + - (INR (N / 2) * x)) with ((INR N - INR (N / 2)) * x - x / 2) by field.
    field. auto.
  - intros i _. f_equal. unfold fz. rewrite minus_IZR, <- !INR_IZR_INZ. field.
Qed.

Lemma even_half N : Nat.even N = true -> INR N = 2 * INR (N/2) /\ (N - N/2 = N/2)%nat.
Proof.
  intro E. apply Nat.even_spec in E. destruct E as [q ->].
  replace (2 * q / 2)%nat with q by lia. rewrite mult_INR. split; [simpl; ring|lia].
Qed.
Lemma odd_half N : Nat.even N = false -> INR N = 2 * INR (N/2) + 1 /\ (N - N/2 = N/2 + 1)%nat /\ ((N - 1)/2 = N/2)%nat.
Proof.
  intro E. assert (Nat.odd N = true) as O by (unfold Nat.odd; now rewrite E).
  apply Nat.odd_spec in O. destruct O as [q ->].
  replace ((2 * q + 1) / 2)%nat with q by lia. rewrite plus_INR, mult_INR. repeat split; lia.
Qed.

Lemma alphaS_0 N : (0 < N)%nat -> alphaS N 0 = 1.
Proof. intro HN. pose proof (alphaS_grid N 0 HN) as H. rewrite Rmult_0_l, Z.mod_0_l in H by lia. exact H. Qed.

Lemma alpha0_spec N x : (0 < N)%nat ->
  alpha0 N x = if Req_EM_T x 0 then Some (alphaS N x) else if Req_EM_T (sin (x/2)) 0 then None else Some (alphaS N x).
Proof.
  intro HN. assert (INR N <> 0) as HI by now apply INR_neq0.
  unfold alpha0. destruct (Req_EM_T x 0) as [->|Hx].
  - now rewrite alphaS_0.
  - destruct (Req_EM_T (sin (x/2)) 0) as [Hs|Hs]; [reflexivity|].
    pose proof (alphaS_tele N x HN) as T.
    destruct (Nat.even N) eqn:E.
    + destruct (even_half N E) as [E1 E2]. rewrite E2 in T.
      assert (sin (INR (N / 2) * x - x / 2) + sin (INR (N / 2) * x + x / 2) = 2 * sin (INR N * x / 2) * cos (x/2)) as T2.
      { rewrite sin_minus, sin_plus, E1. replace (2 * INR (N/2) * x / 2) with (INR (N/2) * x) by field. ring. }
      rewrite T2 in T.
      destruct (Req_EM_T (cos (x/2)) 0) as [Hc|Hc]; f_equal.
      * apply (Rmult_eq_reg_l (2 * sin (x/2))); [|lra]. rewrite T, Hc. field. auto.
      * apply (Rmult_eq_reg_l (2 * sin (x/2))); [|lra]. rewrite T. unfold tan. field. auto.
    + destruct (odd_half N E) as (E1 & E2 & _). rewrite E2 in T.
      replace (INR (N / 2 + 1) * x - x / 2) with (INR N * x / 2) in T by (rewrite plus_INR, E1; simpl; field).
      replace (INR (N / 2) * x + x / 2) with (INR N * x / 2) in T by (rewrite E1; field).
      f_equal. apply (Rmult_eq_reg_l (2 * sin (x/2))); [|lra]. rewrite T. field. auto.
Qed.

Lemma alpha0_some N x : (0 < N)%nat -> x = 0 \/ sin (x/2) <> 0 -> alpha0 N x = Some (alphaS N x).
Proof.
  intros HN H. rewrite alpha0_spec by auto. destruct (Req_EM_T x 0); [reflexivity|].
  destruct (Req_EM_T (sin (x/2)) 0); [|reflexivity]. destruct H; contradiction.
Qed.


(** sin(x/2) <> 0 away from multiples of 2 pi *)
Lemma sin_half_neq0 x : - (2 * PI) < x < 2 * PI -> x <> 0 -> sin (x/2) <> 0.
Proof.
  intros [H1 H2] Hx. pose proof PI_RGT_0. destruct (Rdichotomy _ _ Hx) as [Hl|Hg].
  - apply Rlt_not_eq. apply sin_lt_0_var; lra.
  - apply not_eq_sym, Rlt_not_eq. apply sin_gt_0; lra.
Qed.
Lemma alpha0_range N x : (0 < N)%nat -> - (2 * PI) < x < 2 * PI -> alpha0 N x = Some (alphaS N x).
Proof.
  intros HN H. apply alpha0_some; auto. destruct (Req_EM_T x 0); [now left|right]. now apply sin_half_neq0.
Qed.

Lemma beta0_S N x : (0 < N)%nat -> beta0 N x = betaS N x.
Proof.
  intro HN. assert (INR N <> 0) as HI by now apply INR_neq0. pose proof PI_neq0 as HP.
  assert (forall n, wH N (- n) = wH N n) as We by (intro; apply wH_even).
  set (g := fun t : R => (if Req_EM_T t 0 then / hstep N else t / (2 * sin (t * (hstep N / 2)))) * cos (t * x)).
  unfold betaS.
  rewrite (Rsum_ext _ _ (fun i => g (IZR (fz N i)))).
  2:{ intros i Hi. unfold g, wH. destruct (Z.eqb_spec (fz N i) 0) as [E|E].
      - rewrite E. destruct (Req_EM_T 0 0); [reflexivity|congruence].
      - assert (IZR (fz N i) <> 0) as Hn by (intro H; apply E; now apply eq_IZR in H).
        destruct (Req_EM_T (IZR (fz N i)) 0); [contradiction|]. f_equal.
        pose proof (wH_neq0 N (fz N i) HN (fz_in N i Hi)) as Hw. unfold wH in Hw.
        destruct (Z.eqb_spec (fz N i) 0); [contradiction|].
        field. split; auto. intro H0. apply Hw. rewrite H0. field. auto. }
  assert (forall t, g (- t) = g t) as Hg.
  { intro t. unfold g. replace (- t * x) with (- (t * x)) by ring. rewrite cos_neg.
    destruct (Req_EM_T (- t) 0), (Req_EM_T t 0); try lra; try reflexivity.
    replace (- t * (hstep N / 2)) with (- (t * (hstep N / 2))) by ring. rewrite sin_neg. f_equal.
    unfold Rdiv. rewrite <- Ropp_mult_distr_r, Rinv_opp. ring. }
  rewrite (Rsum_fold_freq N g) by auto.
  assert (g 0 = INR N / (2 * PI)) as G0.
  { unfold g. destruct (Req_EM_T 0 0); [|congruence]. rewrite Rmult_0_l, cos_0. unfold hstep. field. auto. }
  assert (forall k, g (INR (S k)) = INR (S k) * cos (INR (S k) * x) / sin (INR (S k) * PI / INR N) / 2) as Gk.
  { intro k. unfold g. destruct (Req_EM_T (INR (S k)) 0) as [E|E]; [exfalso; apply (INR_neq0 (S k)); auto; lia|].
    replace (INR (S k) * (hstep N / 2)) with (INR (S k) * PI / INR N) by (unfold hstep; field; auto).
    unfold Rdiv. rewrite Rinv_mult. ring. }
  rewrite G0. unfold beta0. destruct (Nat.even N) eqn:E.
  - destruct (even_half N E) as [E1 E2]. set (K := (N/2)%nat) in *.
    assert (0 < K)%nat as HK by (unfold K; destruct N as [|[|N]]; [lia|discriminate|lia]).
    destruct K as [|k'] eqn:EK; [lia|]. cbn [Rsum]. destruct (Nat.eqb_spec (2 * S k') N) as [_|Ne].
    2:{ exfalso. apply Ne. unfold K in EK. apply Nat.even_spec in E. destruct E as [q ->]. lia. }
    rewrite (Rsum_ext k' (fun k => (if (2 * S k =? N)%nat then 1 else 2) * g (INR (S k)))
       (fun k => INR N * (INR (S k) * cos (INR (S k) * x) / sin (INR (S k) * PI / INR N) / INR N))).
    2:{ intros i Hi. destruct (Nat.eqb_spec (2 * S i) N) as [En|_].
        - exfalso. unfold K in EK. lia.
        - rewrite Gk. unfold Rdiv. generalize (/ sin (INR (S i) * PI * / INR N)). intro q. field. auto. }
    rewrite Rsum_scal, Gk.
    replace (INR N * x / 2) with (INR (S k') * x) by (rewrite E1; field).
    replace (INR (S k') * PI / INR N) with (PI/2) by (rewrite E1; field; apply INR_neq0; lia).
    rewrite sin_PI2. rewrite E1. field. split; auto. apply INR_neq0; lia.
  - destruct (odd_half N E) as (E1 & E2 & E3). rewrite E3.
    rewrite (Rsum_ext (N/2) (fun k => (if (2 * S k =? N)%nat then 1 else 2) * g (INR (S k)))
       (fun k => INR N * (INR (S k) * cos (INR (S k) * x) / sin (INR (S k) * PI / INR N) / INR N))).
    2:{ intros i Hi. destruct (Nat.eqb_spec (2 * S i) N) as [En|_].
        - exfalso. rewrite <- En in E. rewrite Nat.even_mul in E. discriminate.
        - rewrite Gk. unfold Rdiv. generalize (/ sin (INR (S i) * PI * / INR N)). intro q. field. auto. }
    rewrite Rsum_scal. field. auto.
Qed.
