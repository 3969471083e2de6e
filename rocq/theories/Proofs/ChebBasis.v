(** The Chebyshev basis 1-forms. *)
From Coq Require Import ZArith Reals List Lia Lra Arith.
From Coq Require Import ZifyNat.
From Coquelicot Require Import Coquelicot.
From Verif Require Import Model.Num Model.Np Model.Spectral Model.Basis Model.Grids1 Model.Regular Model.Chebyshev Spec.Trig Spec.CInt Spec.Poly Proofs.ListLemmas Proofs.Sums
  Proofs.Fourier Proofs.RIntLemmas Proofs.Kernels Proofs.Trig Proofs.Ops Proofs.Exact Proofs.BasisP Proofs.Grids1P Proofs.GridsThm Proofs.RingSums Proofs.Mirror Proofs.Symm Proofs.RegularP Proofs.PeriodicBasis Proofs.RegularBasis
  Proofs.Lin Proofs.TableLin Proofs.LinAlg Proofs.FourierK Proofs.Cheb1 Proofs.ChebPoly Proofs.TrigAlg Proofs.Cheb2 Proofs.Cheb3.
Import ListNotations.
Local Open Scope R_scope.
Ltac Zify.zify_post_hook ::= Z.div_mod_to_equations.

Ltac req := match goal with |- @eq _ ?a ?b => change (@eq R a b) end.
Lemma td_betaS N c : (0 < N)%nat -> trig_degree (N / 2) (fun t => betaS N (t + c)).
Proof.
  intro HN. unfold betaS. apply td_scal. apply (td_Rsum (N / 2) N (fun i t => / wH N (fz N i) * cos (IZR (fz N i) * (t + c)))).
  intros i Hi. apply td_scal. apply (td_ext _ _ (fun t => cos (IZR (fz N i) * t + IZR (fz N i) * c))); [intro t; f_equal; ring|].
  apply td_cosZ. unfold fz. lia.
Qed.
Definition dB (N : nat) (c t : R) : R := betaS N (t - c) - betaS N (t + c).
Lemma dB_odd N c t : dB N c (- t) = - dB N c t.
Proof. unfold dB. replace (- t - c) with (- (t + c)) by ring. replace (- t + c) with (- (t - c)) by ring. rewrite !betaS_even. ring. Qed.
Lemma dB_sin N c : (0 < N)%nat -> exists q, cosp (N / 2 - 1) q /\ forall t, dB N c t = sin t * q t.
Proof.
  intro HN. apply odd_sin; [|apply dB_odd]. unfold dB. apply td_minus.
  - apply (td_ext _ _ (fun t => betaS N (t + - c))); [reflexivity|]. now apply td_betaS.
  - now apply td_betaS.
Qed.
Lemma dB_cont N c t : continuous (dB N c) t.
Proof.
  unfold dB. apply (continuous_minus (fun t => betaS N (t - c)) (fun t => betaS N (t + c))).
  - apply (continuous_comp (fun x => x - c) (betaS N)); [apply continuous_derivable; auto_derive; auto|apply betaS_cont].
  - apply (continuous_comp (fun x => x + c) (betaS N)); [apply continuous_derivable; auto_derive; auto|apply betaS_cont].
Qed.

Definition over_sqrt (F : R -> option R) (x : R) : option R :=
  if Rlt_dec 0 (1 - x ^ 2) then omap (fun k => k / sqrt (1 - x ^ 2)) (F (acos (- x))) else None.
Lemma sin_acos_opp x : -1 <= x <= 1 -> sin (acos (- x)) = sqrt (1 - x ^ 2).
Proof. intro Hx. rewrite sin_acos by lra. f_equal. unfold Rsqr. ring. Qed.
Lemma cosp_over_sqrt K q (F : R -> option R) P : (forall t, q t = P (- cos t)) -> (forall t, 0 < t < PI -> F t = Some (sin t * q t)) -> cosp K q ->
  forall x, -1 < x < 1 -> over_sqrt F x = Some (P x).
Proof.
  intros HP HF _ x Hx. unfold over_sqrt. assert (0 < 1 - x ^ 2) as Hp by nra. destruct (Rlt_dec 0 (1 - x ^ 2)); [|lra].
  assert (0 < sqrt (1 - x ^ 2)) as Hs by now apply sqrt_lt_R0.
  rewrite HF.
  - unfold omap. rewrite HP, neg_cos_acos by lra. rewrite sin_acos_opp by lra. f_equal. field. lra.
  - pose proof (acos_bound (- x)) as [A B]. split.
    + destruct (Rle_lt_or_eq_dec _ _ A) as [|E]; auto. exfalso. rewrite <- sin_acos_opp in Hs by lra. rewrite <- E, sin_0 in Hs. lra.
    + destruct (Rle_lt_or_eq_dec _ _ B) as [|E]; auto. exfalso. rewrite <- sin_acos_opp in Hs by lra. rewrite E, sin_PI in Hs. lra.
Qed.
Lemma cos_range t : -1 <= - cos t <= 1.
Proof. pose proof (COS_bound t). lra. Qed.
Lemma RInt_over_sqrt K q (F : R -> option R) a b : (forall t, 0 < t < PI -> F t = Some (sin t * q t)) -> cosp K q ->
  RInt (tot (over_sqrt F)) (- cos a) (- cos b) = cell_sin q a b.
Proof.
  intros HF Hq. destruct (cosp_poly K q Hq) as (P & PP & HP).
  transitivity (RInt P (- cos a) (- cos b)).
  - apply RInt_ext. intros x Hx. unfold tot. rewrite (cosp_over_sqrt K q F P); auto.
    pose proof (cos_range a). pose proof (cos_range b). unfold Rmin, Rmax in Hx. destruct (Rle_dec (- cos a) (- cos b)); lra.
  - rewrite RInt_cos_subst by (intro; now apply (poly_cont K)). unfold cell_sin. apply RInt_ext. intros t _. now rewrite HP.
Qed.

Lemma RInt_flip (g : R -> R) c a b : (forall x, continuous g x) -> RInt (fun t => g (2 * c - t)) a b = RInt g (2 * c - b) (2 * c - a).
Proof.
  intro Hc. apply is_RInt_unique.
  assert (is_RInt (fun y => scal (-1) (g (-1 * y + 2 * c))) a b (RInt g (-1 * a + 2 * c) (-1 * b + 2 * c))) as Q.
  { apply (is_RInt_comp_lin g (-1) (2 * c) a b). apply (RInt_correct g). now apply ex_RInt_cont_all. }
  apply is_RInt_opp in Q. replace (-1 * a + 2 * c) with (2 * c - a) in Q by ring. replace (-1 * b + 2 * c) with (2 * c - b) in Q by ring.
  rewrite <- (opp_RInt_swap g (2 * c - a) (2 * c - b)) by (now apply ex_RInt_cont_all). apply (is_RInt_ext (fun y => opp (scal (-1) (g (-1 * y + 2 * c))))); [|exact Q].
  intros x _. unfold scal, opp. simpl. unfold mult. simpl. replace (-1 * x + 2 * c) with (2 * c - x) by ring. ring.
Qed.
Section CB.
Variable n : nat.
Hypothesis Hn : (2 <= n)%nat.
Let N := (2 * (n - 1))%nat.
Notation h := (hstep N).
Notation k := (n - 1)%nat.
Let HN : (0 < N)%nat. Proof. unfold N; lia. Qed.
Let Ev : Nat.even N = true. Proof. apply Nat.even_spec. now exists k. Qed.
Let kh : INR k * h = PI. Proof. exact (cheb_kh n Hn). Qed.
Let N2 : (N / 2)%nat = k. Proof. unfold N; lia. Qed.
Let NN : (2 * n - 2)%nat = N. Proof. unfold N; lia. Qed.

Lemma kappa1_val i t : kappa1 n i t = dB N (xg N i + h / 2) t.
Proof.
  pose proof (kappa1s_val n Hn i t) as E. unfold kappa1_symm, kappa1, dB in *. rewrite NN in *. unfold beta in *. rewrite !beta0_S in * by auto. fold N in E.
  assert (t - 2 * PI / INR N * (INR i + / 2) = t - (xg N i + h / 2)) as -> by (unfold xg, hstep; field; now apply INR_neq0).
  f_equal. assert (2 * PI - t - 2 * PI / INR N * (INR i + / 2) = 2 * PI - t - (xg N i + h / 2)) as -> by (unfold xg, hstep; field; now apply INR_neq0). apply (beta_ref n).
Qed.
Lemma beta_mid i t : beta N (INR i) t - beta N (INR i) (2 * PI - t) = dB N (xg N i) t.
Proof.
  unfold beta, dB. rewrite !beta0_S by auto.
  assert (2 * PI / INR N * INR i = xg N i) as -> by (unfold xg, hstep; field; now apply INR_neq0). f_equal. apply (beta_ref n).
Qed.
Lemma delta_val t : 0 <= t <= PI -> delta n t = Some (Ef n t * sin t).
Proof.
  intro Ht. unfold delta. rewrite NN. unfold alpha. rewrite Rmult_0_r, Rminus_0_r. pose proof PI_RGT_0. rewrite alpha0_range by (auto; lra). unfold omap, Ef. fold N.
  rewrite minus_INR by lia. reflexivity.
Qed.
Lemma RInt_dB_prim c j : RInt (dB N c) (xg N j) (xg N (S j)) = alphaS N (xg N j + h / 2 - c) - alphaS N (xg N j + h / 2 + c).
Proof.
  unfold dB. replace (xg N (S j)) with (xg N j + h / 2 + h / 2) by (rewrite xg_S; field). set (y := xg N j + h / 2). replace (xg N j) with (y - h / 2) by (unfold y; ring).
  apply is_RInt_unique. apply (is_RInt_minus (fun t => betaS N (t - c)) (fun t => betaS N (t + c))).
  - now apply RInt_betaS_shift.
  - replace (y + c) with (y - - c) by ring. apply (is_RInt_ext (fun t => betaS N (t - - c))); [intros; f_equal; ring|]. now apply RInt_betaS_shift.
Qed.
Lemma RInt_dB_cell c y : RInt (dB N c) (y - h / 2) (y + h / 2) = alphaS N (y - c) - alphaS N (y + c).
Proof.
  unfold dB. 
  apply is_RInt_unique. apply (is_RInt_minus (fun t => betaS N (t - c)) (fun t => betaS N (t + c))).
  - now apply RInt_betaS_shift.
  - replace (y + c) with (y - - c) by ring. apply (is_RInt_ext (fun t => betaS N (t - - c))); [intros; f_equal; ring|]. now apply RInt_betaS_shift.
Qed.
(** gamma is the integral of beta over half an edge *)
Lemma gamma_RInt i : gamma N i = RInt (betaS N) (xg N i - h / 2) (xg N i).
Proof.
  symmetry. apply is_RInt_unique.
  assert (INR N <> 0) as N0 by now apply INR_neq0. pose proof PI_RGT_0 as HPI.
  apply (is_RInt_ext (fun x => 1 / (2 * PI) - cos (INR N * x / 2) / 4 + Rsum (N / 2) (fun i => INR (S i) * cos (INR (S i) * x) / sin (INR (S i) * PI / INR N) / INR N))).
  { intros x _. rewrite <- beta0_S by auto. unfold beta0. rewrite Ev. reflexivity. }
  unfold gamma. rewrite Ev.
  assert (INR N * xg N i / 2 = INR i * PI) as Ea by (unfold xg, hstep; field; auto).
  assert (INR N * (xg N i - h / 2) / 2 = INR i * PI - PI / 2) as Eb by (unfold xg, hstep; field; auto).
  assert (sin (INR i * PI) = 0) as Es by (rewrite INR_IZR_INZ; apply sin_IZR_PI).
  assert (cos (INR i * PI) = (-1) ^ i) as Ec by apply cos_PI_nat.
  apply (is_RInt_plus (fun x => 1 / (2 * PI) - cos (INR N * x / 2) / 4) (fun x => Rsum (N / 2) (fun i => INR (S i) * cos (INR (S i) * x) / sin (INR (S i) * PI / INR N) / INR N))).
  - apply (is_RInt_minus (fun x => 1 / (2 * PI)) (fun x => cos (INR N * x / 2) / 4)).
    + evar_last; [apply (is_RInt_const (V := R_NormedModule))|]. change (scal ?a ?b) with (a * b)%R. unfold hstep. field. split; auto; lra.
    + evar_last. { apply (is_RInt_derive (fun x => sin (INR N * x / 2) / (2 * INR N)) (fun x => cos (INR N * x / 2) / 4)).
      - intros x _. auto_derive; auto. unfold Rdiv. field. auto.
      - intros x _. apply continuous_derivable. auto_derive; auto. }
      change (minus ?a ?b) with (a - b)%R. cbv beta. rewrite Ea, Eb, Es, sin_minus, Es, Ec, cos_PI2, sin_PI2. field. auto.
  - apply (is_RInt_Rsum (N / 2) (fun i x => INR (S i) * cos (INR (S i) * x) / sin (INR (S i) * PI / INR N) / INR N)). intros m Hm.
    assert (sin (INR (S m) * PI / INR N) <> 0) as S0.
    { apply Rgt_not_eq. apply sin_gt_0.
      - apply Rdiv_lt_0_compat; [apply Rmult_lt_0_compat; [apply lt_0_INR; lia|auto]|apply lt_0_INR; lia].
      - apply (Rmult_lt_reg_r (INR N)); [apply lt_0_INR; lia|]. unfold Rdiv. rewrite Rmult_assoc, Rinv_l, Rmult_1_r by auto. rewrite Rmult_comm. apply Rmult_lt_compat_l; auto. apply lt_INR. unfold N in *. lia. }
    cbv zeta. generalize dependent (INR (S m)). intros M S0.
    evar_last. { apply (is_RInt_derive (fun x => sin (M * x) / sin (M * PI / INR N) / INR N)).
      - intros x _. auto_derive; [auto|]. field. auto.
      - intros x _. apply continuous_derivable. auto_derive; auto. }
    change (minus ?a ?b) with (a - b)%R. cbv beta zeta.
    replace (M * xg N i) with (2 * M * INR i * PI / INR N) by (unfold xg, hstep; field; auto).
    replace (M * (xg N i - h / 2)) with ((2 * INR i - 1) * M * PI / INR N) by (unfold xg, hstep; field; auto).
    field. auto.
Qed.
Lemma betaS_int_half i : (0 < i < n - 1)%nat -> RInt (betaS N) (xg N i) (xg N i + h / 2) = - gamma N i.
Proof.
  intro Hi. rewrite gamma_RInt. pose proof (is_RInt_unique _ _ _ _ (is_RInt_betaS_cell N (xg N i) HN)) as E.
  rewrite <- (RInt_Chasles_cont (betaS N) (xg N i - h / 2) (xg N i) (xg N i + h / 2)) in E by apply betaS_cont.
  pose proof (alphaS_card N i 0) as A. rewrite xg_0, Rminus_0_r in A. rewrite A in E by (unfold N; lia). destruct (Nat.eqb_spec i 0); [lia|]. lra.
Qed.
Lemma RInt_dB_0 i : (0 < i < n - 1)%nat -> RInt (dB N (xg N i)) 0 (h / 2) = 2 * gamma N i.
Proof.
  intro Hi. unfold dB. rewrite RInt_minus_R by (apply ex_RInt_cont_all; intro x; apply (continuous_comp (fun x => _) (betaS N)); [apply continuous_derivable; auto_derive; auto|apply betaS_cont]).
  rewrite (RInt_ext (fun t => betaS N (t - xg N i)) (fun t => betaS N (t + - xg N i))) by reflexivity.
  rewrite !RInt_shift by apply betaS_cont. rewrite !Rplus_0_l. rewrite (Rplus_comm (h / 2) (xg N i)), betaS_int_half by auto.
  rewrite gamma_RInt. rewrite (RInt_refl (betaS N) 0 (- xg N i)) by (try apply betaS_cont; intro x; rewrite <- (betaS_even N x); replace (2 * 0 - x) with (- x) by ring; reflexivity).
  rewrite (RInt_Rplus0 (betaS N) (2 * 0 - (h / 2 + - xg N i)) (2 * 0 - - xg N i) (xg N i - h / 2) (xg N i)) by field.
  assert (forall g : R, g - - g = 2 * g) as W by (intro; ring). exact (W _).
Qed.
Lemma RInt_dB_PI i : (0 < i < n - 1)%nat -> RInt (dB N (xg N i)) (PI - h / 2) PI = 2 * gamma N (n - i - 1).
Proof.
  intro Hi. rewrite <- (RInt_dB_0 (n - i - 1)) by lia.
  assert (xg N (n - i - 1) = PI - xg N i) as Ex by (unfold xg; rewrite !minus_INR by lia; rewrite <- kh, minus_INR by lia; cbn [INR]; ring).
  rewrite Ex. rewrite (RInt_Rplus0 (dB N (xg N i)) (PI - h / 2) PI (2 * (PI / 2) - h / 2) (2 * (PI / 2) - 0)) by field.
  rewrite <- RInt_flip by (intro; apply dB_cont). apply RInt_ext. intros t _. unfold dB.
  rewrite <- (betaS_even N (2 * (PI / 2) - t - xg N i)). rewrite <- (betaS_even N (2 * (PI / 2) - t + xg N i)). rewrite <- (betaS_period N (- (2 * (PI / 2) - t + xg N i)) 1).
  apply f_equal2; apply (f_equal (betaS N)); field.
Qed.
(** the functions whose integrals are taken *)
Lemma kappa1_q i : exists q, cosp (n - 2) q /\ (forall t, kappa1 n i t = sin t * q t).
Proof.
  destruct (dB_sin N (xg N i + h / 2) HN) as (q & Hq & E). exists q. split; [|intro t; now rewrite kappa1_val]. now replace (n - 2)%nat with (N / 2 - 1)%nat by (rewrite N2; lia).
Qed.
Lemma alphaS_plus a b : alphaS N (xg N a + xg N b) = if Z.eqb ((Z.of_nat a + Z.of_nat b) mod Z.of_nat N) 0 then 1 else 0.
Proof. rewrite <- alphaS_grid by auto. f_equal. unfold xg. rewrite plus_IZR, <- !INR_IZR_INZ. ring. Qed.
Lemma kappa1_cell i j : (i < n - 1)%nat -> (j < n - 1)%nat -> RInt (kappa1 n i) (xg N j) (xg N (S j)) = if Nat.eqb i j then 1 else 0.
Proof.
  intros Hi Hj. rewrite (RInt_ext _ (dB N (xg N i + h / 2))) by (intros; apply kappa1_val). rewrite RInt_dB_prim.
  replace (xg N j + h / 2 - (xg N i + h / 2)) with (xg N j - xg N i) by ring.
  replace (xg N j + h / 2 + (xg N i + h / 2)) with (xg N j + xg N (S i)) by (rewrite xg_S; field).
  rewrite alphaS_card by (unfold N; lia). rewrite (Nat.eqb_sym j i), alphaS_plus.
  destruct (Z.eqb_spec ((Z.of_nat j + Z.of_nat (S i)) mod Z.of_nat N) 0) as [e|]; [|apply Rminus_0_r]. exfalso.
  destruct (Zmod_range N (Z.of_nat j + Z.of_nat (S i)) HN e); unfold N in *; lia.
Qed.
Lemma sin_PI_x' t : sin (PI - t) = sin t. Proof. now rewrite sin_PI_x. Qed.
Lemma cell_sin_lin q r s c d a b K L M : cosp K q -> cosp L r -> cosp M s -> cell_sin (fun t => q t - (c * r t + d * s t)) a b = cell_sin q a b - (c * cell_sin r a b + d * cell_sin s a b).
Proof.
  intros Hq Hr Hs. unfold cell_sin. assert (forall K q, cosp K q -> ex_RInt (fun t => q t * sin t) a b) as I by (intros K' q' H'; apply ex_RInt_cont_all; intro; apply gs_cont; intro; now apply (cosp_cont K')).
  rewrite <- !RInt_scal_R by eauto. rewrite <- RInt_plus_R, <- RInt_minus_R.
  - apply RInt_ext. intros; req; ring.
  - eauto.
  - apply (ex_RInt_plus (V := R_NormedModule) (fun t => c * (r t * sin t)) (fun t => d * (s t * sin t))); apply (ex_RInt_scal (V := R_NormedModule)); eauto.
  - apply (ex_RInt_scal (V := R_NormedModule)); eauto.
  - apply (ex_RInt_scal (V := R_NormedModule)); eauto.
Qed.
Lemma tdual_mid j : (0 < j < n)%nat -> tdual n j = xg N j - h / 2.
Proof. intro Hj. unfold tdual. destruct (Nat.eqb_spec j 0); [lia|]. destruct (Nat.eqb_spec j n); [lia|]. fold N. replace (xg N j) with (xg N (S (j - 1))) by (f_equal; lia). rewrite xg_S. field. Qed.
Lemma tdual_midS j : (0 <= j < n - 1)%nat -> tdual n (S j) = xg N j + h / 2.
Proof. intro Hj. unfold tdual. destruct (Nat.eqb_spec (S j) 0); [lia|]. destruct (Nat.eqb_spec (S j) n); [lia|]. fold N. replace (S j - 1)%nat with j by lia. reflexivity. Qed.
Lemma RInt_dB_dual i j : (0 < i < n - 1)%nat -> (j < n)%nat ->
  RInt (dB N (xg N i)) (tdual n j) (tdual n (S j)) = (if Nat.eqb i j then 1 else 0) + 2 * gamma N i * (if Nat.eqb j 0 then 1 else 0) + 2 * gamma N (n - i - 1) * (if Nat.eqb j (n - 1) then 1 else 0).
Proof.
  intros Hi Hj. destruct (Nat.eqb_spec j 0) as [->|J0]; [|destruct (Nat.eqb_spec j (n - 1)) as [->|J1]].
  - destruct (Nat.eqb_spec i 0); [lia|]. destruct (Nat.eqb_spec 0 (n - 1)); [lia|]. rewrite tdual_midS by lia. unfold tdual. cbn [Nat.eqb]. rewrite xg_0, Rplus_0_l, RInt_dB_0 by auto. req; ring.
  - destruct (Nat.eqb_spec i (n - 1)); [lia|]. rewrite tdual_mid by lia.
    assert (tdual n (S (n - 1)) = PI) as ->. { unfold tdual. replace (S (n - 1)) with n by lia. destruct (Nat.eqb_spec n 0); [lia|]. now rewrite Nat.eqb_refl. }
    pose proof (xg_mid n Hn) as Em. fold N in Em. rewrite Em, RInt_dB_PI by auto. req; ring.
  - rewrite tdual_mid, tdual_midS by lia. rewrite RInt_dB_cell. rewrite alphaS_card by (unfold N; lia). rewrite (Nat.eqb_sym j i), alphaS_plus.
    destruct (Z.eqb_spec ((Z.of_nat j + Z.of_nat i) mod Z.of_nat N) 0) as [e|]; [|destruct (Nat.eqb i j); req; lra]. exfalso.
    destruct (Zmod_range N (Z.of_nat j + Z.of_nat i) HN e); unfold N in *; lia.
Qed.
Lemma Ef_dual j : (j < n)%nat -> cell_sin (Ef n) (tdual n j) (tdual n (S j)) = if Nat.eqb j 0 then 1 else 0.
Proof. intro Hj. rewrite RInt_Ef by auto. rewrite !Gf_dual by lia. cbn [Nat.eqb]. destruct (Nat.eqb j 0); ring. Qed.
Lemma Ef_dual' j : (j < n)%nat -> cell_sin (fun t => Ef n (PI - t)) (tdual n j) (tdual n (S j)) = if Nat.eqb j (n - 1) then 1 else 0.
Proof. intro Hj. rewrite RInt_Ef' by auto. rewrite !Gf_dual' by lia. destruct (Nat.eqb_spec j n), (Nat.eqb_spec (S j) n), (Nat.eqb_spec j (n - 1)); try lia; ring. Qed.
Lemma kappad1_q i : (i < n)%nat -> exists q, cosp (n - 1) q /\ (forall t, 0 <= t <= PI -> kappad1 n i t = Some (sin t * q t)) /\
  forall j, (j < n)%nat -> cell_sin q (tdual n j) (tdual n (S j)) = if Nat.eqb i j then 1 else 0.
Proof.
  intro Hi. unfold kappad1. destruct (Nat.eqb_spec i 0) as [->|I0]; [|destruct (Nat.eqb_spec i (n - 1)) as [->|I1]].
  - exists (Ef n). split; [now apply Ef_cosp|]. split.
    + intros t Ht. rewrite delta_val by auto. f_equal. ring.
    + intros j Hj. rewrite Ef_dual by auto. now rewrite Nat.eqb_sym.
  - exists (fun t => Ef n (PI - t)). split; [apply cosp_refl; now apply Ef_cosp|]. split.
    + intros t Ht. rewrite delta_val by lra. f_equal. rewrite sin_PI_x'. ring.
    + intros j Hj. rewrite Ef_dual' by auto. now rewrite Nat.eqb_sym.
  - destruct (dB_sin N (xg N i) HN) as (q & Hq & E). rewrite N2 in Hq.
    assert (cosp (n - 1) q) as Hq' by (apply (cosp_mono (n - 1 - 1)); [lia|auto]).
    exists (fun t => q t - (2 * gamma N i * Ef n t + 2 * gamma N (n - i - 1) * Ef n (PI - t))). split; [|split].
    + apply (cosp_ext _ _ (fun t => q t + -1 * (2 * gamma N i * Ef n t + 2 * gamma N (n - i - 1) * Ef n (PI - t)))); [intro; ring|].
      apply cosp_plus; auto. apply cosp_scal. apply cosp_plus; apply cosp_scal; [|apply (cosp_refl _ (Ef n))]; now apply Ef_cosp.
    + intros t Ht. rewrite NN, beta_mid. unfold rho. rewrite !delta_val by lra. rewrite NN, E, sin_PI_x'. cbn [omap omap2]. f_equal. ring.
    + intros j Hj. erewrite cell_sin_lin; [|exact Hq'|now apply Ef_cosp|apply cosp_refl; now apply Ef_cosp].
      rewrite Ef_dual, Ef_dual' by auto.
      assert (cell_sin q (tdual n j) (tdual n (S j)) = RInt (dB N (xg N i)) (tdual n j) (tdual n (S j))) as ->.
      { unfold cell_sin. apply RInt_ext. intros t _. rewrite E. req; ring. }
      rewrite RInt_dB_dual by (auto; lia). ring.
Qed.
End CB.
Lemma fin_choice {A} (d : A) m (Q : nat -> A -> Prop) : (forall i, (i < m)%nat -> exists a, Q i a) -> exists f, forall i, (i < m)%nat -> Q i (f i).
Proof.
  intro H. induction m as [|m IH]; [exists (fun _ => d); intros; lia|].
  destruct IH as (f & Hf); [intros; apply H; lia|]. destruct (H m (Nat.lt_succ_diag_r m)) as (a & Ha).
  exists (fun i => if Nat.eqb i m then a else f i). intros i Hi. destruct (Nat.eqb_spec i m) as [->|]; [exact Ha|apply Hf; lia].
Qed.
Lemma psi1_over n i x : psi1 n i x = over_sqrt (fun t => Some (kappa1 n i t)) x. Proof. reflexivity. Qed.
Lemma psid1_over n i x : psid1 n i x = over_sqrt (kappad1 n i) x. Proof. reflexivity. Qed.
(** each basis 1-form is a polynomial with the right integrals *)
Lemma psi1_poly n i : (2 <= n)%nat -> (i < n - 1)%nat -> exists P, polynomial (n - 2) P /\ (forall x, -1 < x < 1 -> psi1 n i x = Some (P x)) /\
  forall j, (j < n - 1)%nat -> RInt P (- cos (xg (2 * (n - 1)) j)) (- cos (xg (2 * (n - 1)) (S j))) = if Nat.eqb i j then 1 else 0.
Proof.
  intros Hn Hi. destruct (kappa1_q n Hn i) as (q & Hq & E). destruct (cosp_poly _ q Hq) as (P & PP & HP). exists P. repeat split; auto.
  - intros x Hx. rewrite psi1_over. apply (cosp_over_sqrt (n - 2) q); auto. intros; now rewrite E.
  - intros j Hj. rewrite RInt_cos_subst by (intro; now apply (poly_cont (n - 2))). refine (eq_trans _ (kappa1_cell n Hn i j Hi Hj)). apply RInt_ext. intros t _. rewrite E, <- HP. req; ring.
Qed.
Lemma psid1_poly n i : (2 <= n)%nat -> (i < n)%nat -> exists P, polynomial (n - 1) P /\ (forall x, -1 < x < 1 -> psid1 n i x = Some (P x)) /\
  forall j, (j < n)%nat -> RInt P (- cos (tdual n j)) (- cos (tdual n (S j))) = if Nat.eqb i j then 1 else 0.
Proof.
  intros Hn Hi. destruct (kappad1_q n Hn i Hi) as (q & Hq & E & Ei). destruct (cosp_poly _ q Hq) as (P & PP & HP). exists P. repeat split; auto.
  - intros x Hx. rewrite psid1_over. apply (cosp_over_sqrt (n - 1) q); auto. intros; apply E; lra.
  - intros j Hj. rewrite RInt_cos_subst by (intro; now apply (poly_cont (n - 1))). refine (eq_trans _ (Ei j Hj)). unfold cell_sin. apply RInt_ext. intros t _. now rewrite <- HP.
Qed.
Lemma RInt_tot_open (F : R -> option R) P a b : (forall x, -1 < x < 1 -> F x = Some (P x)) -> -1 <= a <= 1 -> -1 <= b <= 1 -> RInt (tot F) a b = RInt P a b.
Proof. intros H Ha Hb. apply RInt_ext. intros x Hx. unfold tot. rewrite H; auto. unfold Rmin, Rmax in Hx. destruct (Rle_dec a b); lra. Qed.
Lemma RInt_poly_sum m d (P : nat -> R -> R) c a b : (forall i, (i < m)%nat -> polynomial d (P i)) -> RInt (fun x => Rsum m (fun i => c i * P i x)) a b = Rsum m (fun i => c i * RInt (P i) a b).
Proof.
  intro H. apply is_RInt_unique. apply (is_RInt_Rsum m (fun i x => c i * P i x)). intros i Hi. apply is_RInt_scal_R. apply (RInt_correct (P i)). apply ex_RInt_cont_all. intro. apply (poly_cont d). auto.
Qed.
Lemma Rsum_delta m f j : (j < m)%nat -> Rsum m (fun i => f i * (if Nat.eqb i j then 1 else 0)) = f j.
Proof. intro Hj. rewrite <- (unit_sum m j f Hj). apply Rsum_ext. intros i Hi. unfold unit_vec. rewrite nth_tab by auto. ring. Qed.
Lemma R1_poly n b : (2 <= n)%nat -> length b = (n - 1)%nat -> exists P, polynomial (n - 2) P /\
  (forall x, -1 < x < 1 -> R_cheb n 1 true b x = Some (P x)) /\
  (forall j, (j < n - 1)%nat -> RInt P (- cos (xg (2 * (n - 1)) j)) (- cos (xg (2 * (n - 1)) (S j))) = nth j b 0).
Proof.
  intros Hn Lb. destruct (fin_choice (fun _ : R => 0) (n - 1) (fun i P => polynomial (n - 2) P /\ (forall x, -1 < x < 1 -> psi1 n i x = Some (P x)) /\
    forall j, (j < n - 1)%nat -> RInt P (- cos (xg (2 * (n - 1)) j)) (- cos (xg (2 * (n - 1)) (S j))) = if Nat.eqb i j then 1 else 0)) as (P & HP).
  { intros i Hi. now apply psi1_poly. }
  exists (fun x => Rsum (n - 1) (fun i => nth i b 0 * P i x)). repeat split.
  - apply (poly_Rsum _ _ (fun i x => nth i b 0 * P i x)). intros i Hi. apply poly_scal. now apply HP.
  - intros x Hx. apply (R_form_some _ (sizes_interval n) 1 true). intros i Hi. now apply HP.
  - intros j Hj. rewrite (RInt_poly_sum (n - 1) (n - 2)) by (intros; now apply HP). rewrite <- (Rsum_delta (n - 1) (fun i => nth i b 0) j) by auto.
    apply Rsum_ext. intros i Hi. f_equal. now apply HP.
Qed.
Lemma R1d_poly n b : (2 <= n)%nat -> length b = n -> exists P, polynomial (n - 1) P /\
  (forall x, -1 < x < 1 -> R_cheb n 1 false b x = Some (P x)) /\
  (forall j, (j < n)%nat -> RInt P (- cos (tdual n j)) (- cos (tdual n (S j))) = nth j b 0).
Proof.
  intros Hn Lb. destruct (fin_choice (fun _ : R => 0) n (fun i P => polynomial (n - 1) P /\ (forall x, -1 < x < 1 -> psid1 n i x = Some (P x)) /\
    forall j, (j < n)%nat -> RInt P (- cos (tdual n j)) (- cos (tdual n (S j))) = if Nat.eqb i j then 1 else 0)) as (P & HP).
  { intros i Hi. now apply psid1_poly. }
  exists (fun x => Rsum n (fun i => nth i b 0 * P i x)). repeat split.
  - apply (poly_Rsum _ _ (fun i x => nth i b 0 * P i x)). intros i Hi. apply poly_scal. now apply HP.
  - intros x Hx. apply (R_form_some _ (sizes_interval n) 1 false). intros i Hi. now apply HP.
  - intros j Hj. rewrite (RInt_poly_sum n (n - 1)) by (intros; now apply HP). rewrite <- (Rsum_delta n (fun i => nth i b 0) j) by auto.
    apply Rsum_ext. intros i Hi. f_equal. now apply HP.
Qed.
