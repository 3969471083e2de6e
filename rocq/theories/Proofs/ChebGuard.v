(** When does the "Singular operator" guard of fourier_K_inv fire in H1_cheb? *)
From Coq Require Import ZArith Reals List Lia Lra Psatz Arith.
From Coq Require Import ZifyNat.
From Coquelicot Require Import Coquelicot.
From Verif Require Import Model.Num Model.Np Model.Spectral Model.Regular Model.Chebyshev Proofs.ListLemmas Proofs.Fourier Proofs.Kernels Proofs.RegularBasis Proofs.Mirror Proofs.Lin Proofs.TableLin Proofs.FourierK Proofs.Cheb1.
Import ListNotations.
Local Open Scope R_scope.
Ltac Zify.zify_post_hook ::= Z.div_mod_to_equations.

Lemma np_isclose_refl z : np_isclose z z = true.
Proof.
  unfold np_isclose. destruct (Rle_dec _ _) as [|E]; [auto|]. exfalso. apply E. replace (Cminus z z) with (RtoC 0) by ring. rewrite Cmod_0.
  pose proof (Cmod_ge_0 z). assert (0 < / 10 ^ 8) by lra. assert (0 < / 10 ^ 5) by lra. nra.
Qed.
Lemma isclose_scaled (r q : R) (v : C) : np_isclose (Cmult (RtoC r) v) (Cmult (RtoC q) v) = if Rle_dec (Rabs (r - q) * Cmod v) (/ 10 ^ 8 + / 10 ^ 5 * (Rabs q * Cmod v)) then true else false.
Proof.
  unfold np_isclose. replace (Cminus (Cmult (RtoC r) v) (Cmult (RtoC q) v)) with (Cmult (RtoC (r - q)) v) by (rewrite RtoC_minus; ring).
  now rewrite !Cmod_mult, !Cmod_R.
Qed.
Section G.
Variable n : nat.
Hypothesis Hn : (2 <= n)%nat.
Let N := (2 * (n - 1))%nat.
Let HN : (0 < N)%nat. Proof. unfold N. lia. Qed.
Notation h := (hstep N).
Notation k := (n - 1)%nat.
Definition vv : C := (sin h, 1 + cos h).
Definition ww : C := (0, 2 / INR k).
Lemma nthI m : (m < N + 2)%nat -> nth m (I_diag (N + 2) 0 h) (RtoC 0) = I_entry (fz (N + 2) m) 0 h.
Proof. intro Hm. unfold I_diag. rewrite nth_map_ with (d' := 0%Z) by (rewrite length_freq; lia). now rewrite nth_freq by lia. Qed.
Lemma Cmod_ww : Cmod ww = 2 / INR k.
Proof.
  unfold Cmod, ww. cbn [fst snd]. assert (0 < INR k) by (apply lt_0_INR; lia). replace (0 ^ 2 + (2 / INR k) ^ 2) with ((2 / INR k) * (2 / INR k)) by ring.
  apply sqrt_square. apply Rlt_le, Rdiv_lt_0_compat; lra.
Qed.
Lemma Cmod_vv2 : Cmod vv * Cmod vv = 2 + 2 * cos h.
Proof.
  unfold Cmod, vv. cbn [fst snd]. rewrite sqrt_sqrt by (apply Rplus_le_le_0_compat; apply pow2_ge_0).
  pose proof (sin2_cos2 h) as E. unfold Rsqr in E. cbn [pow]. nra.
Qed.
Lemma Cmod_vv_le : Cmod vv <= 2.
Proof. pose proof Cmod_vv2. pose proof (Cmod_ge_0 vv). pose proof (COS_bound h). nra. Qed.
Lemma Cmod_vv_ge1 : (2 <= k)%nat -> 1 <= Cmod vv.
Proof.
  intro K2. destruct (cheb_h2 n Hn K2) as [H1 H2]. fold N in H1, H2. pose proof Cmod_vv2. pose proof (Cmod_ge_0 vv). pose proof PI_RGT_0.
  assert (0 <= cos h) by (apply cos_ge_0; lra). nra.
Qed.
Lemma Cmod_vv_ge : 2 - 8 / (INR k * INR k) <= Cmod vv.
Proof.
  pose proof Cmod_vv2 as V2. pose proof Cmod_vv_le. pose proof (Cmod_ge_0 vv). pose proof (hstep_pos N HN) as Hp. pose proof (cheb_kh n Hn) as K. fold N in K. pose proof PI_4. pose proof PI_RGT_0.
  assert (0 < INR k) as Hk by (apply lt_0_INR; lia).
  assert (1 - h * h / 2 <= cos h) as Hc.
  { replace (cos h) with (1 - 2 * sin (h / 2) * sin (h / 2)) by (rewrite <- cos_2a_sin; f_equal; field).
    assert (sin (h / 2) < h / 2) by (apply sin_lt_x; lra). assert (- (h / 2) < sin (h / 2)).
    { rewrite <- (Ropp_involutive (sin (h / 2))). apply Ropp_lt_contravar. rewrite <- sin_neg. pose proof (SIN_bound (- (h/2))).
      destruct (Rle_dec h 2); [|lra]. assert (0 < sin (h / 2)) by (apply sin_gt_0; [lra|pose proof PI2_1; lra]). rewrite sin_neg. lra. }
    nra. }
  assert (h = PI / INR k) as E by (rewrite <- K; field; lra).
  assert (h * h <= 16 / (INR k * INR k)).
  { replace (h * h) with ((PI * PI) * / (INR k * INR k)) by (rewrite E; field; lra). unfold Rdiv. apply Rmult_le_compat_r; [apply Rlt_le, Rinv_0_lt_compat, Rmult_lt_0_compat; lra|nra]. }
  assert (4 - 16 / (INR k * INR k) <= Cmod vv * Cmod vv) by lra. 
  replace (8 / (INR k * INR k)) with (16 / (INR k * INR k) / 2) by (field; lra). nra.
Qed.
Lemma eI0 : I_entry (fz (N + 2) 0) 0 h = Cmult (RtoC (- / INR (k + 1))) vv.
Proof. pose proof (cheb_I0 n Hn) as E. fold N in E. rewrite E. apply injective_projections; cbn [fst snd Cmult vv RtoC]; field; apply not_0_INR; lia. Qed.
Lemma eIN : (2 <= k)%nat -> I_entry (fz (N + 2) N) 0 h = Cmult (RtoC (/ INR (k - 1))) vv.
Proof. intro K2. pose proof (cheb_IN n Hn K2) as E. fold N in E. rewrite E. apply injective_projections; cbn [fst snd Cmult vv RtoC]; field; apply not_0_INR; lia. Qed.
Lemma eI1 : I_entry (fz (N + 2) 1) 0 h = Cmult (RtoC (-1)) ww /\ I_entry (fz (N + 2) (N + 1)) 0 h = Cmult (RtoC 1) ww.
Proof. pose proof (cheb_I1 n Hn) as [E1 E2]. fold N in E1, E2. rewrite E1, E2. split; apply injective_projections; cbn [fst snd Cmult ww RtoC]; field; apply not_0_INR; lia. Qed.
Definition g1 := np_isclose (nth 0 (I_diag (N + 2) 0 h) (RtoC 0)) (nth N (I_diag (N + 2) 0 h) (RtoC 0)).
Definition g2 := np_isclose (nth 1 (I_diag (N + 2) 0 h) (RtoC 0)) (nth (N + 1) (I_diag (N + 2) 0 h) (RtoC 0)).
Definition g3 := np_isclose (Cmult (nth 0 (I_diag (N + 2) 0 h) (RtoC 0)) (nth 1 (I_diag (N + 2) 0 h) (RtoC 0))) (Cmult (nth N (I_diag (N + 2) 0 h) (RtoC 0)) (nth (N + 1) (I_diag (N + 2) 0 h) (RtoC 0))).
Lemma kg_split : kguard np_isclose N 0 h = (g1 || g2 || g3)%bool. Proof. reflexivity. Qed.
Lemma g3_val : (2 <= k)%nat -> g3 = if Rle_dec (Rabs (/ INR (k + 1) - / INR (k - 1)) * (Cmod vv * (2 / INR k))) (/ 10 ^ 8 + / 10 ^ 5 * (Rabs (/ INR (k - 1)) * (Cmod vv * (2 / INR k)))) then true else false.
Proof.
  intro K2. unfold g3. rewrite !nthI by lia. rewrite eI0, eIN by auto. destruct eI1 as [-> ->].
  replace (Cmult (Cmult (RtoC (- / INR (k + 1))) vv) (Cmult (RtoC (-1)) ww)) with (Cmult (RtoC (/ INR (k + 1))) (Cmult vv ww)).
  2:{ rewrite RtoC_opp. replace (RtoC (-1)) with (Copp (RtoC 1)) by (rewrite <- RtoC_opp; f_equal; lra). ring. }
  replace (Cmult (Cmult (RtoC (/ INR (k - 1))) vv) (Cmult (RtoC 1) ww)) with (Cmult (RtoC (/ INR (k - 1))) (Cmult vv ww)) by ring.
  rewrite isclose_scaled, Cmod_mult, Cmod_ww. reflexivity.
Qed.
Lemma cmp3 (K V : R) : 2 <= K -> 0 <= V ->
  (Rabs (/ (K + 1) - / (K - 1)) * (V * (2 / K)) <= / 10 ^ 8 + / 10 ^ 5 * (Rabs (/ (K - 1)) * (V * (2 / K))) <->
   V * (4 * 10 ^ 8 - 2000 * (K + 1)) <= K * (K * K - 1)).
Proof.
  intros H HV. assert (K * K - 1 <> 0) as N1 by (apply Rgt_not_eq; nra). assert (K <> 0) as N2 by lra. assert (K + 1 <> 0) as N3 by lra. assert (K - 1 <> 0) as N4 by lra.
  assert (0 < / (K - 1)) by (apply Rinv_0_lt_compat; lra). rewrite (Rabs_right (/ (K - 1))) by lra.
  assert (/ (K + 1) - / (K - 1) = - (2 / (K * K - 1))) as -> by (field; repeat split; assumption).
  assert (0 < 2 / (K * K - 1)) by (apply Rdiv_lt_0_compat; nra). rewrite Rabs_Ropp, Rabs_right by lra.
  assert (0 < K * (K * K - 1) * 10 ^ 8) as Hm by nra.
  assert (2 / (K * K - 1) * (V * (2 / K)) = V * 4 * 10 ^ 8 / (K * (K * K - 1) * 10 ^ 8)) as -> by (field; repeat split; assumption).
  assert (/ 10 ^ 8 + / 10 ^ 5 * (/ (K - 1) * (V * (2 / K))) = (K * (K * K - 1) + 2000 * V * (K + 1)) / (K * (K * K - 1) * 10 ^ 8)) as -> by (field; repeat split; assumption).
  split; intro L.
  - apply (Rmult_le_compat_r (K * (K * K - 1) * 10 ^ 8)) in L; [|lra]. unfold Rdiv in L. rewrite !Rmult_assoc, !Rinv_l, !Rmult_1_r in L by lra. lra.
  - unfold Rdiv. apply Rmult_le_compat_r; [left; now apply Rinv_0_lt_compat|]. lra.
Qed.
Lemma INRk1 : INR (k + 1) = INR k + 1. Proof. rewrite plus_INR. reflexivity. Qed.
Lemma INRk_1 : INR (k - 1) = INR k - 1. Proof. rewrite minus_INR by lia. reflexivity. Qed.
Lemma guard_large : (927 <= k)%nat -> kguard np_isclose N 0 h = true.
Proof.
  intro K. rewrite kg_split. rewrite g3_val by lia. rewrite INRk1, INRk_1. assert (927 <= INR k) by (apply (le_INR 927) in K; cbn in K; lra).
  pose proof Cmod_vv_le. pose proof (Cmod_ge_0 vv). destruct (Rle_dec _ _) as [|E]; [now rewrite Bool.orb_true_r|]. exfalso. apply E. apply cmp3; [lra|auto|].
  assert (927 * 859328 <= INR k * (INR k * INR k - 1)) by nra.
  destruct (Rle_dec (INR k) 199999); [|nra]. assert (0 <= 4 * 10 ^ 8 - 2000 * (INR k + 1)) by lra. nra.
Qed.
Lemma guard_small : (k <= 926)%nat -> kguard np_isclose N 0 h = false.
Proof.
  intro K. rewrite kg_split. unfold g1, g2. assert (INR k <= 926) by (apply (le_INR _ 926) in K; cbn in K; lra).
  destruct (Nat.eq_dec k 1) as [K1|K1].
  - unfold g3. rewrite !nthI by lia. rewrite eI0. destruct eI1 as [-> ->]. pose proof (cheb_IN1 n Hn K1) as E. fold N in E. rewrite E. pose proof (cheb_k1 n Hn K1) as E'. fold N in E'.
    unfold vv. rewrite E', sin_PI, cos_PI. replace (1 + -1) with 0 by ring. change (0, 0) with (RtoC 0). unfold np_isclose. pose proof PI_RGT_0. pose proof PI2_3_2.
    replace (Cminus (Cmult (RtoC (-1)) ww) (Cmult (RtoC 1) ww)) with (Cmult (RtoC (-2)) ww).
    2:{ replace (RtoC (-1)) with (Copp (RtoC 1)) by (rewrite <- RtoC_opp; f_equal; lra). replace (RtoC (-2)) with (Copp (RtoC 2)) by (rewrite <- RtoC_opp; f_equal; lra). replace (RtoC 2) with (Cplus (RtoC 1) (RtoC 1)) by (rewrite <- RtoC_plus; f_equal; lra). ring. }
    replace (Cminus (Cmult (RtoC (- / INR (k + 1))) (RtoC 0)) (RtoC PI)) with (RtoC (- PI)) by (rewrite RtoC_opp; ring).
    replace (Cminus (Cmult (Cmult (RtoC (- / INR (k + 1))) (RtoC 0)) (Cmult (RtoC (-1)) ww)) (Cmult (RtoC PI) (Cmult (RtoC 1) ww))) with (Cmult (RtoC (- PI)) ww) by (rewrite RtoC_opp; ring).
    rewrite !Cmod_mult, !Cmod_R, Cmod_ww, K1. cbn [INR]. rewrite Rabs_Ropp, !(Rabs_right PI) by lra. rewrite (Rabs_left (-2)), (Rabs_right 1) by lra.
    repeat (destruct (Rle_dec _ _); [lra|]). reflexivity.
  - assert (2 <= k)%nat as K2 by lia. assert (2 <= INR k) by (apply (le_INR 2); lia). rewrite g3_val by auto. rewrite !nthI by lia. rewrite eI0, eIN by auto. destruct eI1 as [-> ->].
    rewrite !isclose_scaled. rewrite INRk1, INRk_1, Cmod_ww. pose proof (Cmod_vv_ge1 K2) as V1. pose proof Cmod_vv_le as V2. pose proof Cmod_vv_ge as V3.
    destruct (Rle_dec _ _) as [E|_]; [exfalso|]. 
    { assert (0 < / (INR k - 1)) by (apply Rinv_0_lt_compat; lra). assert (0 < / (INR k + 1)) by (apply Rinv_0_lt_compat; lra). rewrite (Rabs_left (- / (INR k + 1) - / (INR k - 1))), (Rabs_right (/ (INR k - 1))) in E by lra.
      assert (/ 925 <= / (INR k - 1)) by (apply Rinv_le_contravar; lra). nra. }
    destruct (Rle_dec _ _) as [E|_]; [exfalso|].
    { rewrite (Rabs_left (-1 - 1)), (Rabs_right 1) in E by lra. assert (/ 926 <= / INR k) by (apply Rinv_le_contravar; lra). unfold Rdiv in E. nra. }
    destruct (Rle_dec _ _) as [E|_]; [exfalso|reflexivity]. apply cmp3 in E; [|lra|lra].
    destruct (Rle_dec (INR k) 100).
    + assert (INR k * (INR k * INR k - 1) <= 100 * (100 * 100)) by nra. nra.
    + assert (8 / (INR k * INR k) <= 8 / 10000). { unfold Rdiv. apply Rmult_le_compat_l; [lra|]. apply Rinv_le_contravar; nra. }
      assert (INR k * (INR k * INR k - 1) <= 926 * 857475) by nra. nra.
Qed.
(** with an exact equality test nothing is singular *)
Lemma guard_exact close : (forall u v, close u v = true -> u = v) -> kguard close N 0 h = false.
Proof.
  intro S. pose proof (cheb_regular n Hn (repeat (RtoC 0) N) (repeat_length _ _)) as Rg. unfold regularK in Rg. rewrite repeat_length in Rg. fold N in Rg.
  assert (Nat.even N = true) as Ev by (apply Nat.even_spec; now exists k). rewrite Ev in Rg. destruct Rg as [R1 R2].
  unfold kguard. cbv zeta. rewrite !nthI by lia.
  destruct (close (I_entry (fz (N + 2) 0) 0 h) _) eqn:E1; [apply S in E1; contradiction|].
  destruct (close (I_entry (fz (N + 2) 1) 0 h) _) eqn:E2; [apply S in E2; contradiction|]. cbn [orb].
  clear E1 E2 R1 R2. destruct (close _ _) eqn:E3; [exfalso|reflexivity]. apply S in E3.
  assert (0 < INR k) by (apply lt_0_INR; lia). assert (Cmod ww <> 0) as Wn by (rewrite Cmod_ww; apply Rgt_not_eq; apply Rdiv_lt_0_compat; lra).
  assert (ww <> RtoC 0) as W0 by (intro E; apply Wn; rewrite E; apply Cmod_0).
  destruct eI1 as [e1 e2]. rewrite e1, e2, eI0 in E3.
  destruct (Nat.eq_dec k 1) as [K1|K1].
  - pose proof (cheb_IN1 n Hn K1) as E. fold N in E. rewrite E in E3. pose proof (cheb_k1 n Hn K1) as E'. fold N in E'. unfold vv in E3. rewrite E', sin_PI, cos_PI in E3.
    replace (1 + -1) with 0 in E3 by ring. change (0, 0) with (RtoC 0) in E3.
    assert (Cmult (RtoC PI) ww = RtoC 0) as E4. { transitivity (Cmult (RtoC PI) (Cmult (RtoC 1) ww)); [ring|]. rewrite <- E3. ring. }
    apply (f_equal Cmod) in E4. rewrite Cmod_mult, Cmod_0, Cmod_R in E4. pose proof PI_RGT_0. rewrite Rabs_right in E4 by lra. apply Rmult_integral in E4. destruct E4; [lra|contradiction].
  - assert (2 <= k)%nat as K2 by lia. rewrite eIN in E3 by auto.
    pose proof (Cmod_vv_ge1 K2) as V1. assert (RtoC (-1) = Copp (RtoC 1)) as Em by (rewrite <- RtoC_opp; f_equal; lra).
    assert (Cmult (RtoC (/ INR (k + 1) - / INR (k - 1))) (Cmult vv ww) = RtoC 0) as E4.
    { rewrite RtoC_minus. transitivity (Cminus (Cmult (Cmult (RtoC (- / INR (k + 1))) vv) (Cmult (RtoC (-1)) ww)) (Cmult (Cmult (RtoC (/ INR (k - 1))) vv) (Cmult (RtoC 1) ww))); [rewrite RtoC_opp, Em; ring|]. rewrite E3. ring. }
    apply (f_equal Cmod) in E4. rewrite !Cmod_mult, Cmod_0, Cmod_R in E4. apply Rmult_integral in E4. destruct E4 as [E4|E4].
    + assert (/ INR (k + 1) < / INR (k - 1)). { apply Rinv_lt_contravar; [apply Rmult_lt_0_compat; apply lt_0_INR; lia|apply lt_INR; lia]. } rewrite Rabs_left in E4 by lra. lra.
    + apply Rmult_integral in E4. destruct E4; [lra|contradiction].
Qed.
End G.
