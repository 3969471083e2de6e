(** The deprecated Fourier transforms weighted with an exponential or a sine. *)
From Coq Require Import ZArith Reals List Lia Lra Arith.
From Coq Require Import ZifyNat.
From Coquelicot Require Import Coquelicot.
From Verif Require Import Model.Num Model.Np Model.Spectral Model.Regular Model.Deprecated Spec.Trig Spec.CInt Proofs.ListLemmas Proofs.Sums
  Proofs.Fourier Proofs.RIntLemmas Proofs.Kernels Proofs.Trig Proofs.Ops Proofs.Exact Proofs.GridsThm Proofs.Mirror Proofs.RegularP Proofs.TableLin Proofs.FourierK Proofs.DeprecatedP.
Import ListNotations.
Local Open Scope R_scope.
Ltac Zify.zify_post_hook ::= Z.div_mod_to_equations.

Lemma is_CRInt_minus' f g a b u v : is_CRInt f a b u -> is_CRInt g a b v -> is_CRInt (fun t => Cminus (f t) (g t)) a b (Cminus u v).
Proof.
  intros [F1 F2] [G1 G2]. split.
  - apply (is_RInt_ext (fun t => Re (f t) - Re (g t))); [intros; reflexivity|]. replace (Re (Cminus u v)) with (Re u - Re v) by reflexivity. now apply (is_RInt_minus (V := R_NormedModule)).
  - apply (is_RInt_ext (fun t => Im (f t) - Im (g t))); [intros; reflexivity|]. replace (Im (Cminus u v)) with (Im u - Im v) by reflexivity. now apply (is_RInt_minus (V := R_NormedModule)).
Qed.
(** rolling the coefficients multiplies the values with exp(i x) *)
Lemma Finv_roll_up y j : (j < length y)%nat -> nth j (Finv (roll 1 y)) (RtoC 0) =
  Cmult (RtoC (/ INR (length y))) (Csum (length y) (fun i => Cmult (nth i y (RtoC 0)) (cis (IZR (fz (length y) i + 1) * xg (length y) j)))).
Proof.
  intro Hj. rewrite nth_Finv by (rewrite length_roll; auto). rewrite length_roll. f_equal. set (x := xg (length y) j). remember (length y) as N eqn:EN. destruct N as [|m]; [lia|].
  rewrite Csum_S_l. cbn [Csum]. rewrite Cplus_comm. f_equal.
  - apply Csum_ext. intros i Hi. rewrite nth_roll_1 by lia. cbn [Nat.eqb]. replace (S i - 1)%nat with i by lia. do 4 f_equal. unfold fz. lia.
  - rewrite nth_roll_1 by lia. cbn [Nat.eqb]. rewrite <- EN. replace (S m - 1)%nat with m by lia. f_equal. unfold x. rewrite <- (cis_alias (S m) (fz (S m) 0)) by lia. do 3 f_equal. unfold fz. lia.
Qed.
Lemma Finv_roll_dn y j : (j < length y)%nat -> nth j (Finv (roll (-1) y)) (RtoC 0) =
  Cmult (RtoC (/ INR (length y))) (Csum (length y) (fun i => Cmult (nth i y (RtoC 0)) (cis (IZR (fz (length y) i - 1) * xg (length y) j)))).
Proof.
  intro Hj. rewrite nth_Finv by (rewrite length_roll; auto). rewrite length_roll. f_equal. set (x := xg (length y) j). remember (length y) as N eqn:EN. destruct N as [|m]; [lia|].
  rewrite (Csum_S_l m (fun i => Cmult (nth i y (RtoC 0)) _)). cbn [Csum]. rewrite Cplus_comm. f_equal.
  - rewrite nth_roll_m1 by lia. rewrite <- EN. replace (m + 1)%nat with (S m) by lia. rewrite Nat.eqb_refl. f_equal. unfold x. rewrite <- (cis_alias (S m) (fz (S m) 0 - 1)) by lia. do 3 f_equal. unfold fz. lia.
  - apply Csum_ext. intros i Hi. rewrite nth_roll_m1 by lia. rewrite <- EN. destruct (Nat.eqb_spec (i + 1) (S m)); [lia|]. replace (i + 1)%nat with (S i) by lia. do 4 f_equal. unfold fz. lia.
Qed.
Lemma half_j_scal z : half_j z = Cmult (0, - / 2) z.
Proof. destruct z as [x y]. unfold half_j, Cdiv, Cinv, Cmult. cbn [fst snd]. f_equal; field. Qed.
Lemma Finv_comb (A B : list C) (p q r : C) j : length A = length B -> (j < length A)%nat ->
  nth j (Finv (zipw (fun a b => Cmult r (Cminus (Cmult p a) (Cmult q b))) A B)) (RtoC 0) = Cmult r (Cminus (Cmult p (nth j (Finv A) (RtoC 0))) (Cmult q (nth j (Finv B) (RtoC 0)))).
Proof.
  intros L Hj. rewrite !nth_Finv by (rewrite ?length_zipw; lia). rewrite length_zipw, <- L, Nat.min_id. set (N := length A) in *. set (x := xg N j).
  transitivity (Cmult (RtoC (/ INR N)) (Csum N (fun i => Cplus (Cmult (Cmult r p) (Cmult (nth i A (RtoC 0)) (cis (IZR (fz N i) * x)))) (Cmult (Copp (Cmult r q)) (Cmult (nth i B (RtoC 0)) (cis (IZR (fz N i) * x))))))).
  - f_equal. apply Csum_ext. intros i Hi. rewrite nth_zipw with (dx := RtoC 0) (dy := RtoC 0) by (unfold N in *; lia). ring.
  - rewrite Csum_plus, !Csum_scal. ring.
Qed.
Section Q.
Variable a : list C.
Let N := length a.
Hypothesis HN : (0 < N)%nat.
Variables p q : R.
Lemma coef_up : vmul (skipn 2 (I_diag (N + 2) p q)) (F a) = tab N (fun i => Cmult (I_entry (fz N i + 1) p q) (nth i (F a) (RtoC 0))).
Proof.
  unfold I_diag. rewrite map_freq_tab by lia. apply (list_eq_nth (RtoC 0)); unfold vmul; rewrite length_zipw, skipn_length, length_tab, length_F; fold N; [rewrite length_tab; lia|].
  intros i Hi. rewrite nth_tab by lia. rewrite nth_zipw with (dx := RtoC 0) (dy := RtoC 0) by (rewrite ?skipn_length, ?length_tab, ?length_F; fold N; lia). rewrite nth_skipn_, nth_tab by lia. change (nmul (?x : C) (?y : C)) with (Cmult x y). do 2 f_equal. unfold fz. lia.
Qed.
Lemma coef_dn : vmul (firstn N (I_diag (N + 2) p q)) (F a) = tab N (fun i => Cmult (I_entry (fz N i - 1) p q) (nth i (F a) (RtoC 0))).
Proof.
  unfold I_diag. rewrite map_freq_tab by lia. apply (list_eq_nth (RtoC 0)); unfold vmul; rewrite length_zipw, firstn_length, length_tab, length_F; fold N; [rewrite length_tab; lia|].
  intros i Hi. rewrite nth_tab by lia. rewrite nth_zipw with (dx := RtoC 0) (dy := RtoC 0) by (rewrite ?firstn_length, ?length_tab, ?length_F; fold N; lia). rewrite nth_firstn_, nth_tab by lia. change (nmul (?x : C) (?y : C)) with (Cmult x y). do 2 f_equal. unfold fz. lia.
Qed.
(** the values of the integrals of the interpolant times exp(i s t) *)
Definition Eint (s : Z) (x : R) : C := Cmult (RtoC (/ INR N)) (Csum N (fun i => Cmult (Cmult (I_entry (fz N i + s) p q) (nth i (F a) (RtoC 0))) (cis (IZR (fz N i + s) * x)))).
Lemma Eint_ok s x : is_CRInt (fun t => Cmult (tpC a t) (cis (IZR s * t))) (x + p) (x + q) (Eint s x).
Proof.
  apply (is_CRInt_ext (fun t => Cmult (RtoC (/ INR N)) (Csum N (fun i => Cmult (nth i (F a) (RtoC 0)) (cis (IZR (fz N i + s) * t)))))).
  - intro t. unfold tpC. fold N. rewrite <- Cmult_assoc, <- Csum_scal_r. f_equal. apply Csum_ext. intros i Hi. rewrite plus_IZR, Rmult_plus_distr_r, cis_plus. ring.
  - apply is_CRInt_scal, is_CRInt_Csum. intros i Hi. replace (Cmult (Cmult (I_entry (fz N i + s) p q) (nth i (F a) (RtoC 0))) (cis (IZR (fz N i + s) * x))) with (Cmult (nth i (F a) (RtoC 0)) (Cmult (I_entry (fz N i + s) p q) (cis (IZR (fz N i + s) * x)))) by ring. apply is_CRInt_scal, is_CRInt_cis.
Qed.
Lemma up_val j : (j < N)%nat -> nth j (Finv (roll 1 (vmul (skipn 2 (I_diag (N + 2) p q)) (F a)))) (RtoC 0) = Eint 1 (xg N j).
Proof. intro Hj. rewrite coef_up, Finv_roll_up by (rewrite length_tab; auto). rewrite length_tab. unfold Eint. f_equal. apply Csum_ext. intros i Hi. now rewrite nth_tab. Qed.
Lemma dn_val j : (j < N)%nat -> nth j (Finv (roll (-1) (vmul (firstn N (I_diag (N + 2) p q)) (F a)))) (RtoC 0) = Eint (-1) (xg N j).
Proof. intro Hj. rewrite coef_dn, Finv_roll_dn by (rewrite length_tab; auto). rewrite length_tab. unfold Eint. f_equal. apply Csum_ext. intros i Hi. rewrite nth_tab by auto. reflexivity. Qed.
End Q.
Lemma cis_sin_shift t th : isin (t + th) = Cmult (0, - / 2) (Cminus (Cmult (cis th) (cis (IZR 1 * t))) (Cmult (Cinv (cis th)) (cis (IZR (-1) * t)))).
Proof.
  assert (Cinv (cis th) = cis (- th)) as ->. { unfold cis, Cinv. cbn [fst snd]. rewrite cos_neg, sin_neg. pose proof (sin2_cos2 th) as E. unfold Rsqr in E. replace (cos th ^ 2 + sin th ^ 2) with 1 by (cbn; lra). f_equal; field. }
  rewrite <- !cis_plus. replace (- th + IZR (-1) * t) with (- (t + th)) by ring. replace (th + IZR 1 * t) with (t + th) by ring. unfold cis, isin, RtoC, Cmult, Cminus, Cplus, Copp. cbn [fst snd]. rewrite cos_neg, sin_neg. f_equal; field.
Qed.
Lemma H_exp_val a : (0 < length a)%nat -> let N := length a in let h := hstep N in
  exists b, H_exp a = Ok b /\ length b = N /\ forall j, (j < N)%nat -> is_CRInt (fun t => Cmult (tpC a t) (cis t)) (xg N j - h / 2) (xg N j + h / 2) (nth j b (RtoC 0)).
Proof.
  intros L N h. unfold H_exp. rewrite (with_h_ok _ _ (N - 1)) by (fold N; unfold N; lia). fold N h. eexists. split; [reflexivity|]. split.
  - pose proof (coef_up a L (- h / 2) (h / 2)) as EC. fold N in EC. rewrite length_Finv, length_roll, EC. apply length_tab.
  - intros j Hj. pose proof (Eint_ok a (- h / 2) (h / 2) 1 (xg N j)) as K. pose proof (up_val a L (- h / 2) (h / 2) j Hj) as EU. fold N in EU. rewrite EU. replace (xg N j + - h / 2) with (xg N j - h / 2) in K by field. revert K. apply is_CRInt_ext. intro t. now rewrite Rmult_1_l.
Qed.
Lemma H_sin_gen a th : (0 < length a)%nat -> let N := length a in let h := hstep N in forall b,
  b = Finv (zipw (fun u v => Cmult (0, - / 2) (Cminus (Cmult (cis th) u) (Cmult (Cinv (cis th)) v))) (roll 1 (vmul (skipn 2 (I_diag (N + 2) (- h / 2) (h / 2))) (F a))) (roll (-1) (vmul (firstn N (I_diag (N + 2) (- h / 2) (h / 2))) (F a)))) ->
  length b = N /\ forall j, (j < N)%nat -> is_CRInt (fun t => Cmult (tpC a t) (isin (t + th))) (xg N j - h / 2) (xg N j + h / 2) (nth j b (RtoC 0)).
Proof.
  intros L N h b ->. pose proof (coef_up a L (- h / 2) (h / 2)) as EC. pose proof (coef_dn a L (- h / 2) (h / 2)) as ED. fold N in EC, ED. rewrite EC, ED. set (A := tab N _). set (B := tab N _). assert (length A = N) as LA by apply length_tab. assert (length B = N) as LB by apply length_tab.
  split; [rewrite length_Finv, length_zipw, !length_roll; lia|]. intros j Hj. rewrite Finv_comb by (rewrite !length_roll; lia). unfold A, B. rewrite <- EC, <- ED. pose proof (up_val a L (- h / 2) (h / 2) j Hj) as EU. pose proof (dn_val a L (- h / 2) (h / 2) j Hj) as EV. fold N in EU, EV. rewrite EU, EV.
  apply (is_CRInt_ext (fun t => Cmult (0, - / 2) (Cminus (Cmult (cis th) (Cmult (tpC a t) (cis (IZR 1 * t)))) (Cmult (Cinv (cis th)) (Cmult (tpC a t) (cis (IZR (-1) * t))))))).
  - intro t. rewrite cis_sin_shift. ring.
  - replace (xg N j - h / 2) with (xg N j + - h / 2) by field. apply is_CRInt_scal, is_CRInt_minus'; apply is_CRInt_scal; apply Eint_ok.
Qed.
Lemma zipw_map2 {A B C0 D E0} (g : C0 -> D -> E0) (u : A -> C0) (w : B -> D) x y : zipw g (map u x) (map w y) = zipw (fun a b => g (u a) (w b)) x y.
Proof. revert y. induction x as [|a x IH]; intros [|b y]; try reflexivity. cbn [map zipw]. now rewrite IH. Qed.
Lemma map_zipw' {A B C0 D} (g : C0 -> D) (u : A -> B -> C0) x y : map g (zipw u x y) = zipw (fun a b => g (u a b)) x y.
Proof. revert y. induction x as [|a x IH]; intros [|b y]; try reflexivity. cbn [map zipw]. now rewrite IH. Qed.
Lemma zipw_ext' {A B C0} (u w : A -> B -> C0) x y : (forall a b, u a b = w a b) -> zipw u x y = zipw w x y.
Proof. intro E. revert y. induction x as [|a x IH]; intros [|b y]; try reflexivity. cbn [zipw]. now rewrite IH, E. Qed.
Lemma H_sin_val a : (0 < length a)%nat -> let N := length a in let h := hstep N in
  exists b, H_sin a = Ok b /\ length b = N /\ forall j, (j < N)%nat -> is_CRInt (fun t => Cmult (tpC a t) (isin t)) (xg N j - h / 2) (xg N j + h / 2) (nth j b (RtoC 0)).
Proof.
  intros L N h. unfold H_sin. rewrite (with_h_ok _ _ (N - 1)) by (fold N; unfold N; lia). fold N h. eexists. split; [reflexivity|].
  destruct (H_sin_gen a 0 L _ eq_refl) as (L0 & K). fold N h in L0, K. match goal with |- length ?X = _ /\ _ => assert (X = Finv (zipw (fun u v => Cmult (0, - / 2) (Cminus (Cmult (cis 0) u) (Cmult (Cinv (cis 0)) v))) (roll 1 (vmul (skipn 2 (I_diag (N + 2) (- h / 2) (h / 2))) (F a))) (roll (-1) (vmul (firstn N (I_diag (N + 2) (- h / 2) (h / 2))) (F a))))) as EX end.
  { f_equal. unfold vsub. rewrite map_zipw'. apply zipw_ext'. intros u v. rewrite half_j_scal, cis_0. change (nsub u v) with (Cminus u v). f_equal. f_equal; [ring|]. field. intro E. apply RtoC_inj in E. lra. }
  rewrite EX. split; [exact L0|]. intros j Hj. pose proof (K j Hj) as Kj. revert Kj. apply is_CRInt_ext. intro t. now rewrite Rplus_0_r.
Qed.
Lemma H_sin_dual_val a : (0 < length a)%nat -> let N := length a in let h := hstep N in
  exists b, H_sin_dual a = Ok b /\ length b = N /\ forall j, (j < N)%nat -> is_CRInt (fun t => Cmult (tpC a t) (isin (t + h / 2))) (xg N j - h / 2) (xg N j + h / 2) (nth j b (RtoC 0)).
Proof.
  intros L N h. unfold H_sin_dual. rewrite (with_h_ok _ _ (N - 1)) by (fold N; unfold N; lia). fold N h. eexists. split; [reflexivity|].
  destruct (H_sin_gen a (h / 2) L _ eq_refl) as (L0 & K). fold N h in L0, K. match goal with |- length ?X = _ /\ _ => assert (X = Finv (zipw (fun u v => Cmult (0, - / 2) (Cminus (Cmult (cis (h / 2)) u) (Cmult (Cinv (cis (h / 2))) v))) (roll 1 (vmul (skipn 2 (I_diag (N + 2) (- h / 2) (h / 2))) (F a))) (roll (-1) (vmul (firstn N (I_diag (N + 2) (- h / 2) (h / 2))) (F a))))) as EX end.
  { f_equal. unfold vsub. rewrite zipw_map2, map_zipw'. apply zipw_ext'. intros u v. rewrite half_j_scal. change (nsub (?x : C) (?y : C)) with (Cminus x y). unfold Cdiv. f_equal. f_equal; ring. }
  rewrite EX. split; [exact L0|]. exact K.
Qed.
(** I_sin multiplies the integrals of the interpolant with the sine at the vertex *)
Lemma I_sin_val p q a : (0 < length a)%nat -> let N := length a in
  exists b c, I_sin p q a = Ok b /\ length b = N /\ forall j, (j < N)%nat -> is_CRInt (tpC a) (xg N j + p) (xg N j + q) (c j) /\ nth j b (RtoC 0) = Cmult (c j) (isin (xg N j)).
Proof.
  intros L N. exists (Finv (map half_j (vsub (roll 1 (vmul (I_diag (length (F a)) p q) (F a))) (roll (-1) (vmul (I_diag (length (F a)) p q) (F a)))))), (fun j => tpC (I_space p q a) (xg N j)).
  split; [unfold I_sin; destruct a as [|a0 a']; [cbn in L; lia|reflexivity]|]. rewrite length_F. fold N. unfold I_diag. pose proof (vmul_diag_F a (fun n => I_entry n p q) L) as E. fold N in E. rewrite E. set (D := tab N _). assert (length D = N) as LD by apply length_tab.
  split; [rewrite length_Finv, map_length; unfold vsub; rewrite length_zipw, !length_roll; lia|]. intros j Hj. split; [now apply tpC_I|].
  unfold vsub. rewrite map_zipw'. rewrite (zipw_ext' _ (fun u v => Cmult (0, - / 2) (Cminus (Cmult (RtoC 1) u) (Cmult (RtoC 1) v)))) by (intros u v; rewrite half_j_scal; change (nsub (u : C) (v : C)) with (Cminus u v); f_equal; f_equal; ring).
  rewrite Finv_comb by (rewrite !length_roll; lia). rewrite Finv_roll_up, Finv_roll_dn by lia. rewrite LD. unfold tpC. rewrite length_I_space by auto. fold N. unfold I_space. rewrite F_Finv. unfold I_diag. pose proof (vmul_F_diag a (fun n => I_entry n p q) L) as E'. rewrite E'. fold N. fold D.
  rewrite <- !Cmult_assoc, <- Csum_scal_r. transitivity (Cmult (RtoC (/ INR N)) (Csum N (fun i => Cplus (Cmult (0, - / 2) (Cmult (nth i D (RtoC 0)) (cis (IZR (fz N i + 1) * xg N j)))) (Cmult (0, / 2) (Cmult (nth i D (RtoC 0)) (cis (IZR (fz N i - 1) * xg N j))))))).
  - rewrite Csum_plus, !Csum_scal. assert ((0, / 2) = Copp (0, - / 2)) as -> by (unfold Copp; cbn [fst snd]; f_equal; ring). ring.
  - f_equal. apply Csum_ext. intros i Hi. rewrite <- Cmult_assoc, cis_sin. ring.
Qed.

(** ** Which of these transforms lose information *)
Lemma I_sin_entry N n : (0 < N)%nat -> Cmult (RtoC (IZR n)) (I_entry n (- hstep N / 2) (hstep N / 2)) = RtoC (2 * sin (IZR n * (hstep N / 2))).
Proof.
  intro HN. rewrite I_entry_sym. rewrite <- RtoC_mult. f_equal. unfold wH. destruct (Z.eqb_spec n 0) as [->|Hn]; [rewrite !Rmult_0_l, sin_0; ring|]. field. now apply IZR_neq.
Qed.
Lemma sin_cell N n : (0 < n < Z.of_nat N)%Z -> 0 < sin (IZR n * (hstep N / 2)).
Proof.
  intro Hn. assert (0 < INR N) by (apply lt_0_INR; lia). assert (0 < IZR n < INR N) as [A B] by (rewrite INR_IZR_INZ; split; apply IZR_lt; lia). pose proof PI_RGT_0. unfold hstep.
  replace (IZR n * (2 * PI / INR N / 2)) with (PI * (IZR n / INR N)) by (field; lra). assert (0 < IZR n / INR N < 1) as [P Q].
  { split; [apply Rdiv_lt_0_compat; lra|]. apply (Rmult_lt_reg_r (INR N)); [lra|]. unfold Rdiv. rewrite Rmult_assoc, Rinv_l by lra. lra. }
  apply sin_gt_0; nra.
Qed.
Lemma I_up_neq0 N i : (2 <= N)%nat -> (i < N)%nat -> I_entry (fz N i + 1) (- hstep N / 2) (hstep N / 2) <> RtoC 0.
Proof.
  intros HN Hi E. pose proof (I_sin_entry N (fz N i + 1) ltac:(lia)) as K. rewrite E, Cmult_0_r in K. apply RtoC_inj in K.
  destruct (Z.eq_dec (fz N i + 1) 0) as [Z0|Z0].
  - rewrite Z0 in E. unfold I_entry in E. cbn [Z.eqb] in E. apply RtoC_inj in E. pose proof PI_RGT_0. assert (0 < INR N) by (apply lt_0_INR; lia). unfold hstep in E. assert (0 < 2 * PI / INR N) by (apply Rdiv_lt_0_compat; lra). lra.
  - destruct (Z_lt_le_dec 0 (fz N i + 1)).
    + pose proof (sin_cell N (fz N i + 1) ltac:(unfold fz in *; lia)). lra.
    + pose proof (sin_cell N (- (fz N i + 1)) ltac:(unfold fz in *; lia)) as S. rewrite opp_IZR, Ropp_mult_distr_l_reverse, sin_neg in S. lra.
Qed.
Lemma roll1_inj (x y : list C) : length x = length y -> roll 1 x = roll 1 y -> x = y.
Proof.
  intros L E. apply (list_eq_nth (RtoC 0)); auto. intros i Hi. set (k := if Nat.eqb (i + 1) (length x) then 0%nat else (i + 1)%nat).
  assert (k < length x)%nat by (unfold k; destruct (Nat.eqb_spec (i + 1) (length x)); lia). pose proof (f_equal (fun l => nth k l (RtoC 0)) E) as E'. cbv beta in E'. rewrite !nth_roll_1 in E' by lia. rewrite <- L in E'.
  replace (if Nat.eqb k 0 then length x - 1 else k - 1)%nat with i in E'; auto. unfold k. destruct (Nat.eqb_spec (i + 1) (length x)); cbn [Nat.eqb]; [lia|]. destruct (Nat.eqb_spec (i + 1) 0); lia.
Qed.
Lemma H_exp_inj a b : (2 <= length a)%nat -> length a = length b -> H_exp a = H_exp b -> a = b.
Proof.
  intros L2 L E. unfold H_exp in E. rewrite (with_h_ok a _ (length a - 1)), (with_h_ok b _ (length b - 1)) in E by lia. rewrite !coef_up in E by lia. rewrite <- L in E. set (N := length a) in *. injection E as E.
  apply (f_equal F) in E. rewrite !F_Finv in E. apply roll1_inj in E; [|now rewrite !length_tab].
  rewrite <- (Finv_F a), <- (Finv_F b). f_equal. apply (list_eq_nth (RtoC 0)); [rewrite !length_F; exact L|]. rewrite length_F. fold N. intros i Hi. pose proof (f_equal (fun l => nth i l (RtoC 0)) E) as E'. cbv beta in E'. rewrite !nth_tab in E' by auto.
  pose proof (I_up_neq0 N i L2 Hi) as Hz. set (z := I_entry _ _ _) in *. apply (f_equal (Cmult (Cinv z))) in E'. rewrite !Cmult_assoc, Cinv_l, !Cmult_1_l in E' by auto. exact E'.
Qed.
Lemma H_exp_one a : H_exp [a] = Ok [RtoC 0].
Proof.
  destruct (H_exp_val [a] ltac:(cbn; lia)) as (b & Hb & Lb & _). rewrite Hb. f_equal. unfold H_exp in Hb. rewrite (with_h_ok _ _ 0) in Hb by reflexivity. rewrite coef_up in Hb by (cbn; lia). injection Hb as <-. cbn [length] in *.
  apply (list_eq_nth (RtoC 0)); [exact Lb|]. rewrite Lb. intros j Hj. destruct j; [|lia]. cbn [nth]. rewrite Finv_roll_up by (rewrite length_tab; lia). rewrite length_tab. cbn [Csum]. rewrite nth_tab by lia.
  pose proof (I_sin_entry 1 1 ltac:(lia)) as K. change (fz 1 0 + 1)%Z with 1%Z. rewrite Cmult_1_l in K. rewrite K. unfold hstep. cbn [INR]. replace (1 * (2 * PI / 1 / 2)) with PI by field. rewrite sin_PI, Rmult_0_r. ring.
Qed.
Lemma tele_even (al be : C) (g : nat -> C) m : Csum (2 * m) (fun i => Cmult (if Nat.even i then al else be) (Cminus (g (i + 2)%nat) (g i))) = Cplus (Cmult al (Cminus (g (2 * m)%nat) (g 0%nat))) (Cmult be (Cminus (g (2 * m + 1)%nat) (g 1%nat))).
Proof.
  induction m as [|m IH]; [cbn [Nat.mul Csum Nat.add]; ring|]. replace (2 * S m)%nat with (S (S (2 * m))) by lia. cbn [Csum]. rewrite IH. assert (Nat.even (2 * m) = true) as -> by (rewrite Nat.even_mul; reflexivity).
  assert (Nat.even (S (2 * m)) = false) as -> by (rewrite Nat.even_succ, Nat.odd_mul; reflexivity). replace (2 * m + 2)%nat with (S (S (2 * m))) by lia. replace (S (2 * m) + 2)%nat with (S (S (2 * m)) + 1)%nat by lia. replace (2 * m + 1)%nat with (S (2 * m)) by lia. ring.
Qed.
(** the kernel of H_sin, in Fourier space *)
Definition sin_kernel (N : nat) : list C := if Nat.even N then tab N (fun i => if Nat.even i then RtoC 0 else RtoC 1) else tab N (fun i => if Nat.even i then RtoC (INR (N / 2 + 1)) else RtoC (INR (N / 2))).
Lemma length_sin_kernel N : length (sin_kernel N) = N.
Proof. unfold sin_kernel. destruct (Nat.even N); apply length_tab. Qed.
Lemma I_entry_opp N n : I_entry (- n) (- hstep N / 2) (hstep N / 2) = I_entry n (- hstep N / 2) (hstep N / 2).
Proof.
  rewrite !I_entry_sym. f_equal. unfold wH. destruct (Z.eqb_spec (- n) 0), (Z.eqb_spec n 0); try lia; [reflexivity|]. rewrite opp_IZR. rewrite Ropp_mult_distr_l_reverse, sin_neg. field. now apply IZR_neq.
Qed.
Lemma sin_kernel_sum N j : (0 < N)%nat -> (j < N)%nat -> let G m := Cmult (I_entry m (- hstep N / 2) (hstep N / 2)) (cis (IZR m * xg N j)) in
  Csum N (fun i => Cmult (nth i (sin_kernel N) (RtoC 0)) (Cminus (G (fz N i + 1)%Z) (G (fz N i - 1)%Z))) = RtoC 0.
Proof.
  intros HN Hj G. set (g := fun k => G (Z.of_nat k - Z.of_nat (N / 2) - 1)%Z).
  destruct (Nat.even N) eqn:Ev.
  - apply Nat.even_spec in Ev. destruct Ev as (M & EM). transitivity (Csum (2 * M) (fun i => Cmult (if Nat.even i then RtoC 0 else RtoC 1) (Cminus (g (i + 2)%nat) (g i)))).
    + rewrite <- EM. apply Csum_ext. intros i Hi. unfold sin_kernel. assert (Nat.even N = true) as -> by (apply Nat.even_spec; now exists M). rewrite nth_tab by auto. f_equal. unfold g. f_equal; f_equal; unfold fz; lia.
    + rewrite tele_even, Cmult_0_l, Cplus_0_l, Cmult_1_l. unfold g. replace (Z.of_nat (2 * M + 1) - Z.of_nat (N / 2) - 1)%Z with (Z.of_nat M) by lia. replace (Z.of_nat 1 - Z.of_nat (N / 2) - 1)%Z with (- Z.of_nat M)%Z by lia.
      unfold G. rewrite I_entry_opp. rewrite <- (cis_alias N (- Z.of_nat M) j) by lia. replace (- Z.of_nat M + Z.of_nat N)%Z with (Z.of_nat M) by lia. ring.
  - assert (Nat.odd N = true) as Od by (unfold Nat.odd; now rewrite Ev). apply Nat.odd_spec in Od. destruct Od as (K & EK). assert (N / 2 = K)%nat as EN by lia.
    transitivity (Csum (2 * K + 1) (fun i => Cmult (if Nat.even i then RtoC (INR (K + 1)) else RtoC (INR K)) (Cminus (g (i + 2)%nat) (g i)))).
    + rewrite <- EK. apply Csum_ext. intros i Hi. unfold sin_kernel. rewrite Ev, EN, nth_tab by auto. f_equal. unfold g. f_equal; f_equal; unfold fz; lia.
    + replace (2 * K + 1)%nat with (S (2 * K)) by lia. cbn [Csum]. rewrite tele_even. assert (Nat.even (2 * K) = true) as -> by (rewrite Nat.even_mul; reflexivity).
      transitivity (Cplus (Cmult (RtoC (INR (K + 1))) (Cminus (g (2 * K + 2)%nat) (g 0%nat))) (Cmult (RtoC (INR K)) (Cminus (g (2 * K + 1)%nat) (g 1%nat)))); [ring|]. unfold g. rewrite EN.
      replace (Z.of_nat (2 * K + 2) - Z.of_nat K - 1)%Z with (Z.of_nat (K + 1)) by lia. replace (Z.of_nat 0 - Z.of_nat K - 1)%Z with (- Z.of_nat (K + 1))%Z by lia. replace (Z.of_nat (2 * K + 1) - Z.of_nat K - 1)%Z with (Z.of_nat K) by lia. replace (Z.of_nat 1 - Z.of_nat K - 1)%Z with (- Z.of_nat K)%Z by lia.
      unfold G. rewrite !I_entry_opp. pose proof (I_sin_entry N (Z.of_nat (K + 1)) HN) as E1. pose proof (I_sin_entry N (Z.of_nat K) HN) as E2. rewrite <- !INR_IZR_INZ in E1, E2.
      assert (sin (INR (K + 1) * (hstep N / 2)) = sin (INR K * (hstep N / 2))) as ES. { rewrite <- (sin_PI_x (INR K * (hstep N / 2))). f_equal. unfold hstep. rewrite EK. rewrite !plus_INR, mult_INR. cbn [INR]. field. pose proof (pos_INR K). lra. }
      rewrite ES in E1. rewrite <- E2 in E1.
      assert (cis (IZR (Z.of_nat (K + 1)) * xg N j) = cis (IZR (- Z.of_nat K) * xg N j)) as ->. { rewrite <- (cis_alias N (- Z.of_nat K) j) by lia. do 3 f_equal. lia. }
      assert (cis (IZR (- Z.of_nat (K + 1)) * xg N j) = cis (IZR (Z.of_nat K) * xg N j)) as ->. { rewrite <- (cis_alias N (- Z.of_nat (K + 1)) j) by lia. do 3 f_equal. lia. }
      set (u := I_entry (Z.of_nat (K + 1)) _ _) in *. set (w := I_entry (Z.of_nat K) _ _) in *. set (c1 := cis _). set (c2 := cis _).
      transitivity (Cplus (Cmult (Cmult (RtoC (INR (K + 1))) u) (Cminus c1 c2)) (Cmult (Cmult (RtoC (INR K)) w) (Cminus c2 c1))); [ring|]. rewrite E1. ring.
Qed.
Lemma H_sin_kernel N : (0 < N)%nat -> H_sin (Finv (sin_kernel N)) = Ok (repeat (RtoC 0) N) /\ length (Finv (sin_kernel N)) = N /\ Finv (sin_kernel N) <> repeat (RtoC 0) N.
Proof.
  intro HN. set (a := Finv (sin_kernel N)). assert (length a = N) as La by (unfold a; rewrite length_Finv; apply length_sin_kernel). assert (F a = sin_kernel N) as Fa by (unfold a; apply F_Finv).
  split; [|split; [exact La|]].
  - unfold H_sin. rewrite (with_h_ok _ _ (N - 1)) by lia. rewrite La. f_equal. unfold vsub. rewrite map_zipw'. rewrite (zipw_ext' _ (fun u v => Cmult (0, - / 2) (Cminus (Cmult (RtoC 1) u) (Cmult (RtoC 1) v)))) by (intros u v; rewrite half_j_scal; change (nsub (u : C) (v : C)) with (Cminus u v); f_equal; f_equal; ring).
    pose proof (coef_up a ltac:(lia) (- hstep N / 2) (hstep N / 2)) as EC. pose proof (coef_dn a ltac:(lia) (- hstep N / 2) (hstep N / 2)) as ED. rewrite La, Fa in EC, ED. rewrite Fa, EC, ED. set (A := tab N _). set (B := tab N _).
    assert (length A = N) as LA by apply length_tab. assert (length B = N) as LB by apply length_tab.
    apply (list_eq_nth (RtoC 0)); [rewrite length_Finv, length_zipw, !length_roll, repeat_length; lia|]. rewrite length_Finv, length_zipw, !length_roll. intros j Hj.
    rewrite Finv_comb by (rewrite !length_roll; lia). rewrite Finv_roll_up, Finv_roll_dn by lia. rewrite LA, LB. rewrite nth_repeat.
    pose proof (sin_kernel_sum N j HN ltac:(lia)) as S. cbv zeta in S.
    transitivity (Cmult (Cmult (0, - / 2) (RtoC (/ INR N))) (Csum N (fun i => Cmult (nth i (sin_kernel N) (RtoC 0)) (Cminus (Cmult (I_entry (fz N i + 1) (- hstep N / 2) (hstep N / 2)) (cis (IZR (fz N i + 1) * xg N j))) (Cmult (I_entry (fz N i - 1) (- hstep N / 2) (hstep N / 2)) (cis (IZR (fz N i - 1) * xg N j))))))).
    + transitivity (Cmult (Cmult (0, - / 2) (RtoC (/ INR N))) (Cplus (Csum N (fun i => Cmult (nth i A (RtoC 0)) (cis (IZR (fz N i + 1) * xg N j)))) (Cmult (Copp (RtoC 1)) (Csum N (fun i => Cmult (nth i B (RtoC 0)) (cis (IZR (fz N i - 1) * xg N j))))))).
      * ring.
      * f_equal. rewrite <- Csum_scal, <- Csum_plus. apply Csum_ext. intros i Hi. unfold A, B. rewrite !nth_tab by auto. ring.
    + rewrite S. ring.
  - intro E. assert (sin_kernel N = F (repeat (RtoC 0) N)) as E' by (rewrite <- Fa; now rewrite E).
    assert (Finv (repeat (RtoC 0) N) = repeat (RtoC 0) N) as Ez. { apply (list_eq_nth (RtoC 0)); [rewrite length_Finv; auto|]. rewrite length_Finv, repeat_length. intros j Hj. rewrite nth_repeat. rewrite nth_Finv by (rewrite repeat_length; auto). rewrite repeat_length. rewrite Csum_zero_ext; [ring|]. intros i Hi. rewrite nth_repeat. ring. }
    assert (F (repeat (RtoC 0) N) = repeat (RtoC 0) N) as E0 by (rewrite <- Ez at 1; apply F_Finv).
    rewrite E0 in E'. unfold sin_kernel in E'. destruct (Nat.even N) eqn:Ev.
    + assert (1 < N)%nat by (destruct N as [|[|]]; [lia|discriminate|lia]). pose proof (f_equal (fun l => nth 1 l (RtoC 0)) E') as X. cbv beta in X. rewrite nth_tab, nth_repeat in X by auto. cbn [Nat.even] in X. apply RtoC_inj in X. lra.
    + pose proof (f_equal (fun l => nth 0 l (RtoC 0)) E') as X. cbv beta in X. rewrite nth_tab, nth_repeat in X by auto. cbn [Nat.even] in X. apply RtoC_inj in X. rewrite plus_INR in X. cbn [INR] in X. pose proof (pos_INR (N / 2)). lra.
Qed.
