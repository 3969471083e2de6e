(** Diagonal operators in Fourier space as real convolutions. *)
From Coq Require Import ZArith Reals List Lia Lra Arith.
From Coq Require Import ZifyNat.
From Coquelicot Require Import Coquelicot.
From Verif Require Import Model.Num Model.Np Model.Spectral Proofs.ListLemmas Proofs.Sums
  Proofs.Fourier Proofs.RIntLemmas.
Import ListNotations.
Local Open Scope R_scope.
Ltac Zify.zify_post_hook ::= Z.div_mod_to_equations.

(** [fm D x]: multiply the n-th Fourier coefficient of x by D n. *)
Definition fm (D : Z -> C) (x : list C) : list C :=
  Finv (tab (length x) (fun i => Cmult (nth i (F x) (RtoC 0)) (D (fz (length x) i)))).

Lemma length_fm D x : length (fm D x) = length x.
Proof. unfold fm. now rewrite length_Finv, length_tab. Qed.

Lemma nth_fm D x j : (j < length x)%nat ->
  nth j (fm D x) (RtoC 0) =
  Csum (length x) (fun m => Cmult (nth m x (RtoC 0)) (kernC (length x) D (xg (length x) j - xg (length x) m))).
Proof. apply nth_Finv_diag. Qed.

Definition in_freq (N : nat) (n : Z) : Prop := (- Z.of_nat (N/2) <= n < Z.of_nat N - Z.of_nat (N/2))%Z.
Lemma fz_in N i : (i < N)%nat -> in_freq N (fz N i).
Proof. unfold in_freq, fz. lia. Qed.
Lemma in_fz N n : in_freq N n -> exists i, (i < N)%nat /\ fz N i = n.
Proof. unfold in_freq. intro H. exists (Z.to_nat (n + Z.of_nat (N/2))). unfold fz. lia. Qed.

Lemma fm_ext D D' x : (forall n, in_freq (length x) n -> D n = D' n) -> fm D x = fm D' x.
Proof.
  intro H. unfold fm. f_equal. apply tab_ext. intros i Hi. f_equal. apply H. now apply fz_in.
Qed.

Lemma F_fm D x : F (fm D x) = tab (length x) (fun i => Cmult (nth i (F x) (RtoC 0)) (D (fz (length x) i))).
Proof. unfold fm. apply F_Finv. Qed.

Lemma fm_fm D1 D2 x : fm D1 (fm D2 x) = fm (fun n => Cmult (D2 n) (D1 n)) x.
Proof.
  unfold fm at 1. rewrite length_fm, F_fm. unfold fm. f_equal. apply tab_ext. intros i Hi.
  rewrite nth_tab by auto. now rewrite Cmult_assoc.
Qed.

Lemma fm_1 x : fm (fun _ => RtoC 1) x = x.
Proof.
  unfold fm. transitivity (Finv (F x)); [|apply Finv_F]. f_equal.
  symmetry. etransitivity; [apply (list_tab (RtoC 0))|]. rewrite length_F.
  apply tab_ext. intros. symmetry. apply Cmult_1_r.
Qed.

Definition symD (D : Z -> C) : Prop := forall n, D (- n)%Z = Cconj (D n).
Definition nyq (N : nat) (n : Z) : bool := (Nat.even N && Z.eqb n (- Z.of_nat (N/2)))%bool.
(** what taking the real part does to a conjugate-symmetric diagonal *)
Definition rl (N : nat) (D : Z -> C) (n : Z) : C := if nyq N n then RtoC (Re (D n)) else D n.

Lemma xg_diff N j m : xg N j - xg N m = IZR (Z.of_nat j - Z.of_nat m) * hstep N.
Proof. unfold xg. rewrite minus_IZR, <- !INR_IZR_INZ. ring. Qed.

Lemma xg_nyq_half N : (0 < N)%nat -> Nat.even N = true -> IZR (Z.of_nat (N/2)) * hstep N = PI.
Proof.
  intros HN E. apply Nat.even_spec in E. destruct E as [q ->].
  replace (2 * q / 2)%nat with q by (rewrite Nat.mul_comm, Nat.div_mul; lia).
  rewrite <- INR_IZR_INZ. unfold hstep. rewrite mult_INR. simpl (INR 2). field.
  apply INR_neq0. lia.
Qed.

Lemma sin_nyq N k : (0 < N)%nat -> Nat.even N = true ->
  sin (IZR (- Z.of_nat (N/2)) * (IZR k * hstep N)) = 0.
Proof.
  intros HN E. replace (IZR (- Z.of_nat (N / 2)) * (IZR k * hstep N)) with (IZR (- k) * PI).
  - apply sin_IZR_PI.
  - rewrite <- (xg_nyq_half N HN E), !opp_IZR. ring.
Qed.

Lemma Rsum_Z_odd N (g : Z -> R) :
  (forall n, g (- n)%Z = - g n) -> (Nat.even N = true -> g (- Z.of_nat (N/2))%Z = 0) ->
  Rsum N (fun i => g (fz N i)) = 0.
Proof.
  intros Ho Hn. destruct (Nat.even N) eqn:E.
  - destruct N as [|N]; [reflexivity|]. rewrite Rsum_S_l.
    assert (g (fz (S N) 0) = 0) as ->.
    { rewrite <- (Hn eq_refl). unfold fz. f_equal. }
    rewrite Rplus_0_l. set (S0 := Rsum N _).
    assert (S0 = - S0); [|lra]. unfold S0 at 1. rewrite Rsum_rev. unfold S0. rewrite <- Rsum_opp.
    apply Rsum_ext. intros i Hi. rewrite <- Ho. f_equal.
    apply Nat.even_spec in E. destruct E as [q Hq]. unfold fz. rewrite Hq. lia.
  - set (S0 := Rsum N _). assert (S0 = - S0); [|lra]. unfold S0 at 1. rewrite Rsum_rev. unfold S0.
    rewrite <- Rsum_opp. apply Rsum_ext. intros i Hi. rewrite <- Ho. f_equal.
    assert (Nat.odd N = true) as O by (unfold Nat.odd; now rewrite E).
    apply Nat.odd_spec in O. destruct O as [q Hq]. unfold fz. rewrite Hq. lia.
Qed.

(** On grid differences the imaginary part of a conj-symmetric kernel vanishes once the Nyquist
    coefficient is real, and the real part does not see the imaginary part of that coefficient. *)
Lemma kern_rl N D k : (0 < N)%nat -> symD D ->
  kernC N (rl N D) (IZR k * hstep N) = RtoC (Re (kernC N D (IZR k * hstep N))).
Proof.
  intros HN HD. unfold kernC. apply C_eq; simpl Re; simpl Im.
  - rewrite !Re_Csum, !Im_Csum, !Rmult_0_l, !Rminus_0_r. f_equal.
    apply Rsum_ext. intros i Hi. unfold rl, nyq.
    destruct (Nat.even N) eqn:E; [|reflexivity].
    destruct (Z.eqb_spec (fz N i) (- Z.of_nat (N/2))) as [Ez|Ez]; [|reflexivity].
    simpl. rewrite Ez. rewrite sin_nyq by auto. unfold Re, Im. ring.
  - rewrite Re_Csum, Im_Csum, Rmult_0_l, Rplus_0_r.
    set (g := fun m : Z => if nyq N m then 0 else
       if nyq N (- m) then 0 else Im (Cmult (D m) (cis (IZR m * (IZR k * hstep N))))).
    rewrite (Rsum_ext _ _ (fun i => g (fz N i))).
    + rewrite (Rsum_Z_odd N g); [ring| |].
      * intro n. unfold g. rewrite Z.opp_involutive. destruct (nyq N n), (nyq N (- n)); try ring.
        rewrite HD. unfold cis, Cconj. simpl. rewrite opp_IZR.
        replace (- IZR n * (IZR k * hstep N)) with (- (IZR n * (IZR k * hstep N))) by ring.
        rewrite cos_neg, sin_neg. ring.
      * intro E. unfold g, nyq. rewrite E, Z.eqb_refl. reflexivity.
    + intros i Hi. unfold g, rl. destruct (nyq N (fz N i)) eqn:Ei.
      * unfold nyq in Ei. apply andb_prop in Ei as [E Ez]. apply Z.eqb_eq in Ez.
        simpl. rewrite Ez, sin_nyq by auto. ring.
      * destruct (nyq N (- fz N i)) eqn:Em; [|reflexivity].
        unfold nyq in *. apply andb_prop in Em as [E Ez]. apply Z.eqb_eq in Ez.
        apply Nat.even_spec in E. destruct E as [q Hq]. unfold fz in Ez. lia.
Qed.

Lemma real_fm (D : Z -> C) (a : list R) : symD D ->
  cplxv (realv (fm D (cplxv a))) = fm (rl (length a) D) (cplxv a).
Proof.
  intro HD. apply list_eq_nth with (d := RtoC 0); [len; now rewrite !length_fm|].
  intros j Hj. rewrite length_cplxv, length_realv, length_fm, length_cplxv in Hj.
  unfold cplxv at 1. rewrite nth_map_ with (d' := 0) by (rewrite length_realv, length_fm, length_cplxv; auto).
  unfold realv. rewrite nth_map_ with (d' := RtoC 0) by (now rewrite length_fm, length_cplxv).
  rewrite !nth_fm by (now rewrite length_cplxv). rewrite length_cplxv.
  rewrite Re_Csum, RtoC_Rsum. apply Csum_ext. intros m Hm.
  rewrite xg_diff, kern_rl by (auto; lia).
  unfold cplxv. rewrite nth_map_ with (d' := 0) by auto. rewrite Re_mult_RtoC, RtoC_mult. reflexivity.
Qed.

Lemma nth_real_fm (D : Z -> C) (a : list R) j : (j < length a)%nat ->
  nth j (realv (fm D (cplxv a))) 0 =
  Rsum (length a) (fun m => nth m a 0 * Re (kernC (length a) D (xg (length a) j - xg (length a) m))).
Proof.
  intro Hj. unfold realv. rewrite nth_map_ with (d' := RtoC 0) by (now rewrite length_fm, length_cplxv).
  rewrite nth_fm by (now rewrite length_cplxv). rewrite length_cplxv, Re_Csum. apply Rsum_ext. intros m Hm.
  unfold cplxv. rewrite nth_map_ with (d' := 0) by auto. apply Re_mult_RtoC.
Qed.

Lemma realv_cplxv a : realv (cplxv a) = a.
Proof. unfold realv, cplxv. rewrite map_map. rewrite <- (map_id a) at 2. now apply map_ext. Qed.
Lemma cplxv_inj a b : cplxv a = cplxv b -> a = b.
Proof. intro H. rewrite <- (realv_cplxv a), H. apply realv_cplxv. Qed.

(** the multipliers *)
Lemma symD_S s : symD (fun n => cis (IZR n * s)).
Proof.
  intro n. unfold cis, Cconj. rewrite opp_IZR. simpl.
  replace (- IZR n * s) with (- (IZR n * s)) by ring. now rewrite cos_neg, sin_neg.
Qed.

Lemma Cdiv_i_n (z : C) (n : R) : n <> 0 -> Cdiv z (Cmult Ci (RtoC n)) = (Im z / n, - Re z / n).
Proof.
  intro H. destruct z as [x y]. unfold Cdiv, Cinv, Cmult, Ci, RtoC. simpl.
  apply C_eq; simpl; field; auto.
Qed.

Lemma I_entry_eq n a b : I_entry n a b =
  if Z.eqb n 0 then RtoC (b - a) else
  ((sin (IZR n * b) - sin (IZR n * a)) / IZR n, - (cos (IZR n * b) - cos (IZR n * a)) / IZR n).
Proof.
  unfold I_entry. destruct (Z.eqb_spec n 0) as [E|E]; [reflexivity|].
  rewrite Cdiv_i_n by (intro H; apply E; now apply eq_IZR in H).
  unfold cis, Cminus, Cplus, Copp. simpl. apply C_eq; simpl; unfold Rdiv, Rminus; ring.
Qed.

Lemma symD_I a b : symD (fun n => I_entry n a b).
Proof.
  intro n. rewrite !I_entry_eq. destruct (Z.eqb_spec n 0) as [->|E].
  - simpl. unfold Cconj, RtoC. simpl. f_equal. ring.
  - destruct (Z.eqb_spec (- n) 0) as [E'|E']; [lia|].
    assert (IZR n <> 0) as Hn by (intro H; apply E; now apply eq_IZR in H).
    unfold Cconj. simpl. rewrite opp_IZR.
    replace (- IZR n * b) with (- (IZR n * b)) by ring.
    replace (- IZR n * a) with (- (IZR n * a)) by ring. rewrite !cos_neg, !sin_neg.
    apply C_eq; simpl; field; auto.
Qed.

Lemma symD_inv D : symD D -> symD (fun n => Cinv (D n)).
Proof.
  intros H n. rewrite H. destruct (D n) as [x y]. unfold Cinv, Cconj; simpl.
  replace (x * (x * 1) + - y * (- y * 1)) with (x * (x * 1) + y * (y * 1)) by ring.
  apply C_eq; simpl; unfold Rdiv; ring.
Qed.
Lemma symD_mult D E : symD D -> symD E -> symD (fun n => Cmult (D n) (E n)).
Proof.
  intros H1 H2 n. rewrite H1, H2. destruct (D n), (E n). unfold Cmult, Cconj. apply C_eq; simpl; ring.
Qed.
Lemma symD_rl N D : symD D -> (Nat.even N = true -> Im (D (Z.of_nat (N/2))) = 0) -> symD (rl N D).
Proof.
  intros H Hn n. unfold rl, nyq. destruct (Nat.even N) eqn:E; [|apply H].
  specialize (Hn eq_refl). cbn [andb].
  destruct (Z.eqb_spec (- n) (- Z.of_nat (N/2))) as [E1|E1], (Z.eqb_spec n (- Z.of_nat (N/2))) as [E2|E2].
  - rewrite H. destruct (D n); unfold Cconj, RtoC; simpl. f_equal. ring.
  - rewrite H. assert (n = Z.of_nat (N/2)) as -> by lia. destruct (D (Z.of_nat (N/2))).
    unfold Cconj, RtoC; simpl in *. subst. f_equal; ring.
  - rewrite H. subst n. pose proof (H (- Z.of_nat (N/2))%Z) as H2. rewrite Z.opp_involutive in H2.
    destruct (D (- Z.of_nat (N/2))%Z). rewrite H2 in Hn. unfold Cconj, RtoC in *; simpl in *.
    f_equal. lra.
  - apply H.
Qed.

(** real parts of the kernels *)
Lemma kern_S N s x : Re (kernC N (fun n => cis (IZR n * s)) x) = alphaS N (x + s).
Proof.
  unfold kernC, alphaS. rewrite Re_mult_RtoC, Re_Csum. f_equal. apply Rsum_ext. intros i Hi.
  rewrite <- cis_plus. unfold cis; simpl. f_equal. ring.
Qed.

Lemma I_entry_RInt_cos n a b x :
  is_RInt (fun t => cos (IZR n * (x + t))) a b (Re (Cmult (I_entry n a b) (cis (IZR n * x)))).
Proof.
  rewrite I_entry_eq. destruct (Z.eqb_spec n 0) as [->|E].
  - apply (is_RInt_ext_all (fun _ => 1)).
    + intro t. rewrite Rmult_0_l. now rewrite cos_0.
    + replace (Re _) with ((b - a) * 1); [apply is_RInt_const_R|].
      simpl. rewrite Rmult_0_l, cos_0, sin_0. ring.
  - assert (IZR n <> 0) as Hn by (intro H; apply E; now apply eq_IZR in H).
    apply (is_RInt_ext_all (fun t => cos (IZR n * t + IZR n * x))).
    + intro t. f_equal. ring.
    + replace (Re _) with ((sin (IZR n * b + IZR n * x) - sin (IZR n * a + IZR n * x)) / IZR n).
      * now apply RInt_cos_lin.
      * simpl. rewrite !sin_plus. field. assumption.
Qed.
Lemma I_entry_RInt_sin n a b x :
  is_RInt (fun t => sin (IZR n * (x + t))) a b (Im (Cmult (I_entry n a b) (cis (IZR n * x)))).
Proof.
  rewrite I_entry_eq. destruct (Z.eqb_spec n 0) as [->|E].
  - apply (is_RInt_ext_all (fun _ => 0)).
    + intro t. rewrite Rmult_0_l. now rewrite sin_0.
    + replace (Im _) with ((b - a) * 0); [apply is_RInt_const_R|].
      simpl. rewrite Rmult_0_l, cos_0, sin_0. ring.
  - assert (IZR n <> 0) as Hn by (intro H; apply E; now apply eq_IZR in H).
    apply (is_RInt_ext_all (fun t => sin (IZR n * t + IZR n * x))).
    + intro t. f_equal. ring.
    + replace (Im _) with (- (cos (IZR n * b + IZR n * x) - cos (IZR n * a + IZR n * x)) / IZR n).
      * now apply RInt_sin_lin.
      * simpl. rewrite !cos_plus. field. assumption.
Qed.

Lemma is_RInt_alphaS_kern N a b x :
  is_RInt (fun t => alphaS N (x + t)) a b (Re (kernC N (fun n => I_entry n a b) x)).
Proof.
  unfold kernC, alphaS. rewrite Re_mult_RtoC, Re_Csum. apply is_RInt_scal_R.
  apply (is_RInt_Rsum N (fun i t => cos (IZR (fz N i) * (x + t)))). intros i Hi. apply I_entry_RInt_cos.
Qed.

Lemma alphaS_derivable N x : ex_derive (alphaS N) x.
Proof.
  unfold alphaS. apply ex_derive_scal. generalize (fz N). intro g. induction N as [|N IH]; cbn [Rsum].
  - apply ex_derive_const.
  - apply (ex_derive_plus (fun y => Rsum N (fun i => cos (IZR (g i) * y)))); [apply IH|]. auto_derive. auto.
Qed.
Lemma alphaS_cont N x : continuous (alphaS N) x.
Proof. apply continuous_derivable, alphaS_derivable. Qed.

Lemma kern_I N a b x : Re (kernC N (fun n => I_entry n a b) x) = RInt (alphaS N) (x + a) (x + b).
Proof.
  rewrite <- (is_RInt_unique _ _ _ _ (is_RInt_alphaS_kern N a b x)).
  rewrite (Rplus_comm x a), (Rplus_comm x b), <- RInt_shift by apply alphaS_cont.
  apply RInt_ext. intros t _. f_equal. ring.
Qed.

(** H-type entries are real, positive *)
Lemma hstep_pos N : (0 < N)%nat -> 0 < hstep N.
Proof.
  intro. unfold hstep. apply Rdiv_lt_0_compat; [pose proof PI_RGT_0; lra|]. apply lt_0_INR. lia.
Qed.

Definition wH (N : nat) (n : Z) : R :=
  if Z.eqb n 0 then hstep N else 2 * sin (IZR n * (hstep N / 2)) / IZR n.

Lemma I_entry_sym N n : I_entry n (- hstep N / 2) (hstep N / 2) = RtoC (wH N n).
Proof.
  rewrite I_entry_eq. unfold wH. destruct (Z.eqb_spec n 0) as [E|E].
  - f_equal. field.
  - replace (IZR n * (- hstep N / 2)) with (- (IZR n * (hstep N / 2))) by field.
    rewrite sin_neg, cos_neg. apply C_eq; simpl; unfold Rdiv; ring.
Qed.

Lemma freq_range N n : (0 < N)%nat -> in_freq N n -> - PI / 2 <= IZR n * (hstep N / 2) <= PI / 2.
Proof.
  intros HN H. assert (0 < INR N) as HI by (apply lt_0_INR; lia). pose proof PI_RGT_0 as HP.
  unfold in_freq in H. assert (- Z.of_nat N <= 2 * n <= Z.of_nat N)%Z as [H1 H2] by lia.
  apply IZR_le in H1. apply IZR_le in H2. rewrite opp_IZR, mult_IZR, <- INR_IZR_INZ in H1.
  rewrite mult_IZR, <- INR_IZR_INZ in H2.
  unfold hstep. replace (IZR n * (2 * PI / INR N / 2)) with ((2 * IZR n) * (PI / (2 * INR N))) by (field; lra).
  assert (0 < PI / (2 * INR N)) as Hq by (apply Rdiv_lt_0_compat; lra).
  split.
  - replace (- PI / 2) with (- INR N * (PI / (2 * INR N))) by (field; lra).
    apply Rmult_le_compat_r; lra.
  - replace (PI / 2) with (INR N * (PI / (2 * INR N))) by (field; lra).
    apply Rmult_le_compat_r; lra.
Qed.

Lemma wH_neq0 N n : (0 < N)%nat -> in_freq N n -> wH N n <> 0.
Proof.
  intros HN H. unfold wH. pose proof (hstep_pos N HN). destruct (Z.eqb_spec n 0) as [E|E]; [lra|].
  assert (IZR n <> 0) as Hn by (intro H'; apply E; now apply eq_IZR in H').
  pose proof (freq_range N n HN H) as [R1 R2]. pose proof PI_RGT_0 as HP.
  apply Rmult_integral_contrapositive_currified; [|now apply Rinv_neq_0_compat].
  apply Rmult_integral_contrapositive_currified; [lra|].
  destruct (Rdichotomy _ _ Hn) as [Hl|Hg].
  - assert (IZR n * (hstep N / 2) < 0) by (apply Ropp_lt_cancel; rewrite Ropp_0; replace (- (IZR n * (hstep N / 2))) with ((- IZR n) * (hstep N/2)) by ring; apply Rmult_lt_0_compat; lra).
    apply Rlt_not_eq. apply sin_lt_0_var; lra.
  - assert (0 < IZR n * (hstep N / 2)) by (apply Rmult_lt_0_compat; lra).
    apply not_eq_sym, Rlt_not_eq. apply sin_gt_0; lra.
Qed.

Lemma wH_even N n : wH N (- n) = wH N n.
Proof.
  unfold wH. destruct (Z.eqb_spec n 0) as [->|E]; [reflexivity|].
  destruct (Z.eqb_spec (-n) 0); [lia|]. rewrite opp_IZR.
  replace (- IZR n * (hstep N / 2)) with (- (IZR n * (hstep N / 2))) by ring. rewrite sin_neg.
  field. intro H'; apply E; now apply eq_IZR in H'.
Qed.
