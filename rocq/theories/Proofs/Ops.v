(** The operators S, Sinv, H, Hinv, I, Iinv as diagonal operators; interpolation and histopolation. *)
From Coq Require Import ZArith Reals List Lia Lra Arith.
From Coq Require Import ZifyNat.
From Coquelicot Require Import Coquelicot.
From Verif Require Import Model.Num Model.Np Model.Spectral Model.Basis Spec.Trig Proofs.ListLemmas Proofs.Sums
  Proofs.Fourier Proofs.RIntLemmas Proofs.Kernels Proofs.Trig.
Import ListNotations.
Local Open Scope R_scope.
Ltac Zify.zify_post_hook ::= Z.div_mod_to_equations.

Definition dS (s : R) (n : Z) : C := cis (IZR n * s).
Definition dI (a b : R) (n : Z) : C := I_entry n a b.
Definition dH (N : nat) (n : Z) : C := RtoC (wH N n).

Lemma vmul_F_fm x D : (0 < length x)%nat -> Finv (vmul (F x) (map D (freq (length x)))) = fm D x.
Proof. intro H. unfold fm. now rewrite vmul_F_diag. Qed.
Lemma vdiv_F_fm x D : (0 < length x)%nat ->
  Finv (vdiv (F x) (map D (freq (length x)))) = fm (fun n => Cinv (D n)) x.
Proof. intro H. unfold fm. now rewrite vdiv_F_diag. Qed.

Lemma opS_fm a : (0 < length a)%nat -> opS a = realv (fm (dS (hstep (length a) / 2)) (cplxv a)).
Proof.
  intro H. unfold opS, S_diag. f_equal.
  rewrite <- vmul_F_fm by (now rewrite length_cplxv). now rewrite length_cplxv.
Qed.
Lemma opSinv_fm a : (0 < length a)%nat -> opSinv a = realv (fm (dS (- hstep (length a) / 2)) (cplxv a)).
Proof.
  intro H. unfold opSinv, S_diag. f_equal.
  rewrite <- vmul_F_fm by (now rewrite length_cplxv). now rewrite length_cplxv.
Qed.
Lemma opH_fm a : (0 < length a)%nat -> opH a = realv (fm (dH (length a)) (cplxv a)).
Proof.
  intro H. unfold opH, I_diag. f_equal. rewrite (fm_ext (dH (length a)) (dI (- hstep (length a) / 2) (hstep (length a) / 2))).
  - rewrite <- vmul_F_fm by (now rewrite length_cplxv). now rewrite length_cplxv.
  - intros n _. unfold dH, dI. now rewrite I_entry_sym.
Qed.
Lemma opHinv_fm a : (0 < length a)%nat -> opHinv a = realv (fm (fun n => Cinv (dH (length a) n)) (cplxv a)).
Proof.
  intro H. unfold opHinv, I_diag. f_equal.
  rewrite (fm_ext _ (fun n => Cinv (dI (- hstep (length a) / 2) (hstep (length a) / 2) n))).
  - rewrite <- vdiv_F_fm by (now rewrite length_cplxv). now rewrite length_cplxv.
  - intros n _. unfold dH, dI. now rewrite I_entry_sym.
Qed.
Lemma opI_fm a x0 x1 : (0 < length a)%nat -> opI a x0 x1 = fm (dI x0 x1) a.
Proof. intro H. unfold opI, I_diag, fm. now rewrite vmul_diag_F. Qed.
Lemma opIinv_fm a x0 x1 : (0 < length a)%nat -> opIinv a x0 x1 = fm (fun n => Cinv (dI x0 x1 n)) a.
Proof. intro H. unfold opIinv, I_diag. now rewrite <- vdiv_F_fm. Qed.

Lemma length_realfm D a : length (realv (fm D (cplxv a))) = length a.
Proof. now rewrite length_realv, length_fm, length_cplxv. Qed.

Lemma length_opS a : (0 < length a)%nat -> length (opS a) = length a.
Proof. intro. now rewrite opS_fm, length_realfm. Qed.
Lemma length_opSinv a : (0 < length a)%nat -> length (opSinv a) = length a.
Proof. intro. now rewrite opSinv_fm, length_realfm. Qed.
Lemma length_opH a : (0 < length a)%nat -> length (opH a) = length a.
Proof. intro. now rewrite opH_fm, length_realfm. Qed.
Lemma length_opHinv a : (0 < length a)%nat -> length (opHinv a) = length a.
Proof. intro. now rewrite opHinv_fm, length_realfm. Qed.

Lemma symD_dS s : symD (dS s). Proof. apply symD_S. Qed.
Lemma symD_dI a b : symD (dI a b). Proof. apply symD_I. Qed.
Lemma symD_dH N : symD (dH N).
Proof. intro n. unfold dH. rewrite wH_even. unfold Cconj, RtoC. simpl. f_equal. ring. Qed.

Lemma rl_real N D n : Im (D n) = 0 -> rl N D n = D n.
Proof. intro H. unfold rl. destruct (nyq N n); [|reflexivity]. apply C_eq; simpl; auto. Qed.
Lemma Cinv_RtoC r : r <> 0 -> Cinv (RtoC r) = RtoC (/ r).
Proof. intro H. rewrite RtoC_inv; auto. Qed.
Lemma Im_Cinv_R r : Im (Cinv (RtoC r)) = 0.
Proof. unfold Cinv, RtoC; simpl. unfold Rdiv. ring. Qed.

(** composition of two real operators *)
Lemma real_comp D1 D2 a : symD D2 -> 
  realv (fm D1 (cplxv (realv (fm D2 (cplxv a))))) =
  realv (fm (fun n => Cmult (rl (length a) D2 n) (D1 n)) (cplxv a)).
Proof. intros H. rewrite real_fm by auto. now rewrite fm_fm. Qed.

Lemma real_id D a : (forall n, in_freq (length a) n -> D n = RtoC 1) -> realv (fm D (cplxv a)) = a.
Proof.
  intro H. rewrite (fm_ext D (fun _ => RtoC 1)), fm_1, realv_cplxv; auto.
  now rewrite length_cplxv.
Qed.

(** C12 *)
Lemma H_Hinv a : (0 < length a)%nat -> opH (opHinv a) = a.
Proof.
  intro HN. rewrite opH_fm by (now rewrite length_opHinv). rewrite length_opHinv by auto.
  rewrite opHinv_fm by auto. rewrite real_comp by (apply symD_inv, symD_dH).
  apply real_id. intros n Hn. rewrite rl_real by apply Im_Cinv_R.
  unfold dH. rewrite Cinv_RtoC by (now apply wH_neq0). rewrite <- RtoC_mult, Rinv_l; auto. now apply wH_neq0.
Qed.
Lemma Hinv_H a : (0 < length a)%nat -> opHinv (opH a) = a.
Proof.
  intro HN. rewrite opHinv_fm by (now rewrite length_opH). rewrite length_opH by auto.
  rewrite opH_fm by auto. rewrite real_comp by (apply symD_dH).
  apply real_id. intros n Hn. rewrite rl_real by reflexivity.
  unfold dH. rewrite Cinv_RtoC by (now apply wH_neq0). rewrite <- RtoC_mult, Rinv_r; auto. now apply wH_neq0.
Qed.
Lemma I_Iinv a x0 x1 : (0 < length a)%nat ->
  (forall n, in_freq (length a) n -> I_entry n x0 x1 <> RtoC 0) -> opI (opIinv a x0 x1) x0 x1 = a.
Proof.
  intros HN H. rewrite opIinv_fm by auto. rewrite opI_fm by (now rewrite length_fm).
  rewrite fm_fm. rewrite (fm_ext _ (fun _ => RtoC 1)), fm_1; auto.
  intros n Hn. apply Cinv_l. now apply H.
Qed.
Lemma Iinv_I a x0 x1 : (0 < length a)%nat ->
  (forall n, in_freq (length a) n -> I_entry n x0 x1 <> RtoC 0) -> opIinv (opI a x0 x1) x0 x1 = a.
Proof.
  intros HN H. rewrite opI_fm by auto. rewrite opIinv_fm by (now rewrite length_fm).
  rewrite fm_fm. rewrite (fm_ext _ (fun _ => RtoC 1)), fm_1; auto.
  intros n Hn. apply Cinv_r. now apply H.
Qed.

(** C13: real diagonal operators commute *)
Lemma real_comm D1 D2 a : symD D1 -> symD D2 ->
  realv (fm D1 (cplxv (realv (fm D2 (cplxv a))))) = realv (fm D2 (cplxv (realv (fm D1 (cplxv a))))).
Proof.
  intros H1 H2. apply cplxv_inj.
  assert (forall D D', symD D -> symD D' -> cplxv (realv (fm D (cplxv (realv (fm D' (cplxv a)))))) =
      fm (fun n => Cmult (rl (length a) D' n) (rl (length a) D n)) (cplxv a)) as E.
  { intros D D' HD HD'. rewrite real_fm by auto. rewrite length_realfm, real_fm by auto. now rewrite fm_fm. }
  rewrite !E by auto. apply fm_ext. intros. apply Cmult_comm.
Qed.

Inductive spectral_op := oH | oHinv | oS | oSinv.
Definition run_op (o : spectral_op) : list R -> list R :=
  match o with oH => opH | oHinv => opHinv | oS => opS | oSinv => opSinv end.
Definition diag_op (o : spectral_op) (N : nat) : Z -> C :=
  match o with oH => dH N | oHinv => fun n => Cinv (dH N n) | oS => dS (hstep N / 2) | oSinv => dS (- hstep N / 2) end.
Lemma run_op_fm o a : (0 < length a)%nat -> run_op o a = realv (fm (diag_op o (length a)) (cplxv a)).
Proof. destruct o; simpl; intro; [now apply opH_fm|now apply opHinv_fm|now apply opS_fm|now apply opSinv_fm]. Qed.
Lemma sym_diag_op o N : symD (diag_op o N).
Proof. destruct o; simpl; [apply symD_dH|apply symD_inv, symD_dH|apply symD_dS|apply symD_dS]. Qed.
Lemma length_run_op o a : (0 < length a)%nat -> length (run_op o a) = length a.
Proof. intro. now rewrite run_op_fm, length_realfm. Qed.
Lemma run_op_comm o1 o2 a : run_op o1 (run_op o2 a) = run_op o2 (run_op o1 a).
Proof.
  destruct (Nat.eq_dec (length a) 0) as [E|E].
  { destruct a; [|discriminate]. destruct o1, o2; reflexivity. }
  assert (0 < length a)%nat by lia.
  rewrite (run_op_fm o1 (run_op o2 a)) by (now rewrite length_run_op).
  rewrite (run_op_fm o2 (run_op o1 a)) by (now rewrite length_run_op).
  rewrite !length_run_op by auto. rewrite (run_op_fm o2 a), (run_op_fm o1 a) by auto.
  apply real_comm; apply sym_diag_op.
Qed.

(** C11 *)
Lemma rl_odd N D n : Nat.even N = false -> rl N D n = D n.
Proof. intro E. unfold rl, nyq. now rewrite E. Qed.
Lemma dS_mult s t n : Cmult (dS s n) (dS t n) = dS (s + t) n.
Proof. unfold dS. rewrite <- cis_plus. f_equal. ring. Qed.
Lemma dS_0 n : dS 0 n = RtoC 1.
Proof. unfold dS. rewrite Rmult_0_r. apply cis_0. Qed.

Lemma Sinv_S_odd a : Nat.even (length a) = false -> opSinv (opS a) = a.
Proof.
  intro E. assert (0 < length a)%nat as HN by (destruct (length a); [discriminate|lia]).
  rewrite opSinv_fm by (now rewrite length_opS). rewrite length_opS by auto. rewrite opS_fm by auto.
  rewrite real_comp by apply symD_dS. apply real_id. intros n Hn. rewrite rl_odd by auto.
  rewrite dS_mult. replace (hstep (length a) / 2 + - hstep (length a) / 2) with 0 by field. apply dS_0.
Qed.
Lemma S_Sinv_odd a : Nat.even (length a) = false -> opS (opSinv a) = a.
Proof.
  intro E. assert (0 < length a)%nat as HN by (destruct (length a); [discriminate|lia]).
  rewrite opS_fm by (now rewrite length_opSinv). rewrite length_opSinv by auto. rewrite opSinv_fm by auto.
  rewrite real_comp by apply symD_dS. apply real_id. intros n Hn. rewrite rl_odd by auto.
  rewrite dS_mult. replace (- hstep (length a) / 2 + hstep (length a) / 2) with 0 by field. apply dS_0.
Qed.

Lemma cos_half_nyq N : (0 < N)%nat -> Nat.even N = true -> cos (IZR (- Z.of_nat (N/2)) * (hstep N / 2)) = 0.
Proof.
  intros HN E. replace (IZR (- Z.of_nat (N / 2)) * (hstep N / 2)) with (- (PI/2)).
  - rewrite cos_neg. apply cos_PI2.
  - rewrite <- (xg_nyq_half N HN E). rewrite opp_IZR. field.
Qed.

(** the projection onto everything but the alternating vector *)
Definition notnyq (N : nat) (n : Z) : C := if nyq N n then RtoC 0 else RtoC 1.

Lemma cos_PI_Z k : cos (IZR k * PI) = if Z.even k then 1 else -1.
Proof.
  destruct (Z.even k) eqn:E.
  - apply Z.even_spec in E. destruct E as [q ->]. rewrite <- cos_0, <- (cos_period_Z 0 q). f_equal.
    rewrite mult_IZR. ring.
  - assert (Z.odd k = true) as O by (rewrite <- Z.negb_even, E; reflexivity).
    apply Z.odd_spec in O. destruct O as [q ->]. rewrite <- cos_PI, <- (cos_period_Z PI q). f_equal.
    rewrite plus_IZR, mult_IZR. ring.
Qed.
Lemma pow_m1_Z n : (-1) ^ n = if Nat.even n then 1 else -1.
Proof.
  induction n as [|n IH]; [reflexivity|]. rewrite Nat.even_succ, <- Nat.negb_even. simpl pow. rewrite IH.
  destruct (Nat.even n); simpl; ring.
Qed.
Lemma cos_PI_nat n : cos (INR n * PI) = (-1) ^ n.
Proof.
  rewrite INR_IZR_INZ, cos_PI_Z, pow_m1_Z.
  replace (Z.even (Z.of_nat n)) with (Nat.even n); [reflexivity|].
  destruct (Nat.even n) eqn:E; symmetry.
  - apply Nat.even_spec in E. destruct E as [q ->]. apply Z.even_spec. exists (Z.of_nat q). lia.
  - assert (Nat.odd n = true) as O by (unfold Nat.odd; now rewrite E).
    apply Nat.odd_spec in O. destruct O as [q ->].
    rewrite <- Z.negb_odd. replace (Z.odd (Z.of_nat (2 * q + 1))) with true; [reflexivity|].
    symmetry. apply Z.odd_spec. exists (Z.of_nat q). lia.
Qed.

Lemma cos_nyq_diff N j m : (0 < N)%nat -> Nat.even N = true ->
  cos (IZR (- Z.of_nat (N/2)) * (xg N j - xg N m)) = (-1) ^ j * (-1) ^ m.
Proof.
  intros HN E. pose proof (xg_nyq_half N HN E) as HP.
  replace (IZR (- Z.of_nat (N/2)) * (xg N j - xg N m)) with (- (INR j * PI - INR m * PI)).
  - rewrite cos_neg, cos_minus. rewrite !cos_PI_nat. rewrite (INR_IZR_INZ j), sin_IZR_PI. ring.
  - rewrite <- HP. unfold xg. rewrite opp_IZR. ring.
Qed.

Lemma nth_notnyq a j : Nat.even (length a) = true -> (j < length a)%nat ->
  nth j (realv (fm (notnyq (length a)) (cplxv a))) 0 =
  nth j a 0 - (-1) ^ j * (Rsum (length a) (fun m => (-1) ^ m * nth m a 0) / INR (length a)).
Proof.
  intros E Hj. set (N := length a) in *. assert (INR N <> 0) as HI by (apply INR_neq0; lia).
  rewrite nth_real_fm by auto. fold N.
  rewrite (Rsum_ext _ _ (fun m => nth m a 0 * alphaS N (xg N j - xg N m)
        - nth m a 0 * (/ INR N * ((-1) ^ j * (-1) ^ m)))).
  - rewrite Rsum_minus. rewrite (Rsum_single N j); auto.
    + rewrite alphaS_card, Nat.eqb_refl by auto. rewrite Rmult_1_r. f_equal.
      rewrite (Rsum_ext _ _ (fun m => ((-1) ^ j / INR N) * ((-1) ^ m * nth m a 0))).
      * rewrite Rsum_scal. field. auto.
      * intros. field. auto.
    + intros i Hi Hne. rewrite alphaS_card by auto. destruct (Nat.eqb_spec j i); [lia|ring].
  - intros m Hm. rewrite <- Rmult_minus_distr_l. f_equal.
    unfold kernC, alphaS. rewrite Re_mult_RtoC, Re_Csum, <- Rmult_minus_distr_l. f_equal.
    rewrite <- (cos_nyq_diff N j m) by (auto; lia).
    assert (Rsum N (fun i => if nyq N (fz N i) then cos (IZR (fz N i) * (xg N j - xg N m)) else 0) =
      cos (IZR (- Z.of_nat (N / 2)) * (xg N j - xg N m))) as <-.
    + rewrite (Rsum_single N 0); [| lia |].
      * unfold nyq. rewrite E. replace (fz N 0) with (- Z.of_nat (N/2))%Z by (unfold fz; lia).
        now rewrite Z.eqb_refl.
      * intros i Hi Hne. unfold nyq. rewrite E. simpl.
        destruct (Z.eqb_spec (fz N i) (- Z.of_nat (N/2))) as [E'|]; [|reflexivity]. unfold fz in E'. lia.
    + rewrite <- Rsum_minus. apply Rsum_ext. intros i Hi. unfold notnyq.
      destruct (nyq N (fz N i)); simpl; ring.
Qed.

Lemma rl_dS_nyq N s n : (0 < N)%nat -> s = hstep N / 2 \/ s = - hstep N / 2 -> nyq N n = true -> rl N (dS s) n = RtoC 0.
Proof.
  intros HN Hs En. unfold rl. rewrite En. unfold nyq in En. apply andb_prop in En as [E Ez].
  apply Z.eqb_eq in Ez. subst n. f_equal. unfold dS, cis; simpl. destruct Hs as [-> | ->].
  - now apply cos_half_nyq.
  - rewrite <- (cos_half_nyq N HN E), <- cos_neg. f_equal. field.
Qed.

Lemma S_comp_even s t a : (0 < length a)%nat -> (s = hstep (length a) / 2 \/ s = - hstep (length a) / 2) -> s + t = 0 ->
  realv (fm (dS t) (cplxv (realv (fm (dS s) (cplxv a))))) = realv (fm (notnyq (length a)) (cplxv a)).
Proof.
  intros HN Hs Hst. rewrite real_comp by apply symD_dS. f_equal. apply fm_ext. intros n Hn. unfold notnyq.
  destruct (nyq (length a) n) eqn:En.
  - rewrite rl_dS_nyq by auto. apply Cmult_0_l.
  - unfold rl. rewrite En, dS_mult, Hst. apply dS_0.
Qed.

Definition drop_alternating (a : list R) : list R :=
  tab (length a) (fun j => nth j a 0 - (-1) ^ j * (Rsum (length a) (fun m => (-1) ^ m * nth m a 0) / INR (length a))).

Lemma notnyq_drop a : Nat.even (length a) = true -> realv (fm (notnyq (length a)) (cplxv a)) = drop_alternating a.
Proof.
  intro E. apply list_eq_nth with (d := 0); [unfold drop_alternating; now rewrite length_tab, length_realfm|].
  rewrite length_realfm. intros j Hj. rewrite nth_notnyq by auto. unfold drop_alternating. now rewrite nth_tab.
Qed.

Lemma Sinv_S_even a : (0 < length a)%nat -> Nat.even (length a) = true -> opSinv (opS a) = drop_alternating a.
Proof.
  intros HN E. rewrite opSinv_fm by (now rewrite length_opS). rewrite length_opS by auto. rewrite opS_fm by auto.
  rewrite S_comp_even by (auto; field). now apply notnyq_drop.
Qed.
Lemma S_Sinv_even a : (0 < length a)%nat -> Nat.even (length a) = true -> opS (opSinv a) = drop_alternating a.
Proof.
  intros HN E. rewrite opS_fm by (now rewrite length_opSinv). rewrite length_opSinv by auto. rewrite opSinv_fm by auto.
  rewrite S_comp_even by (auto; field). now apply notnyq_drop.
Qed.

(** S and Sinv evaluate the interpolant *)
Lemma nth_opS a j : (j < length a)%nat ->
  nth j (opS a) 0 = interp a (xg (length a) j + hstep (length a) / 2).
Proof.
  intro Hj. rewrite opS_fm by lia. rewrite nth_real_fm by auto. unfold interp.
  apply Rsum_ext. intros m Hm. f_equal. unfold dS. rewrite kern_S. f_equal. ring.
Qed.
Lemma nth_opSinv a j : (j < length a)%nat ->
  nth j (opSinv a) 0 = interp a (xg (length a) j - hstep (length a) / 2).
Proof.
  intro Hj. rewrite opSinv_fm by lia. rewrite nth_real_fm by auto. unfold interp.
  apply Rsum_ext. intros m Hm. f_equal. unfold dS. rewrite kern_S. f_equal. field.
Qed.

Lemma interp_cont a x : continuous (interp a) x.
Proof.
  unfold interp. apply (continuous_Rsum (length a) (fun m x => nth m a 0 * alphaS (length a) (x - xg (length a) m))).
  intros i Hi. apply (continuous_scal_r (nth i a 0) (fun x => alphaS (length a) (x - xg (length a) i))).
  apply (continuous_comp (fun x => x - xg (length a) i) (alphaS (length a))); [|apply alphaS_cont].
  apply continuous_derivable. auto_derive. auto.
Qed.

Lemma RInt_interp v a b :
  RInt (interp v) a b = Rsum (length v) (fun m => nth m v 0 *
     RInt (alphaS (length v)) (a - xg (length v) m) (b - xg (length v) m)).
Proof.
  unfold interp. rewrite RInt_Rsum.
  - apply Rsum_ext. intros m Hm. rewrite RInt_scal_R.
    + f_equal. exact (RInt_shift (alphaS (length v)) (- xg (length v) m) a b (alphaS_cont (length v))).
    + apply ex_RInt_cont_all. intro x.
      apply (continuous_comp (fun x => x - xg (length v) m) (alphaS (length v))); [|apply alphaS_cont].
      apply continuous_derivable. auto_derive. auto.
  - intros i Hi. apply ex_RInt_cont_all. intro x.
    apply (continuous_scal_r (nth i v 0) (fun x => alphaS (length v) (x - xg (length v) i))).
    apply (continuous_comp (fun x => x - xg (length v) i) (alphaS (length v))); [|apply alphaS_cont].
    apply continuous_derivable. auto_derive. auto.
Qed.

Lemma nth_real_I v x0 x1 j : (j < length v)%nat ->
  nth j (realv (fm (dI x0 x1) (cplxv v))) 0 = RInt (interp v) (xg (length v) j + x0) (xg (length v) j + x1).
Proof.
  intro Hj. rewrite nth_real_fm by auto. rewrite RInt_interp. apply Rsum_ext. intros m Hm.
  f_equal. unfold dI. rewrite kern_I. f_equal; ring.
Qed.

Lemma nth_opH a j : (j < length a)%nat ->
  nth j (opH a) 0 = RInt (interp a) (xg (length a) j - hstep (length a) / 2) (xg (length a) j + hstep (length a) / 2).
Proof.
  intro Hj. rewrite opH_fm by lia.
  rewrite (fm_ext _ (dI (- hstep (length a) / 2) (hstep (length a) / 2))).
  - rewrite nth_real_I by auto. f_equal. field.
  - intros n _. unfold dH, dI. now rewrite I_entry_sym.
Qed.

(** the histopolation kernel *)
Definition betaS (N : nat) (x : R) : R := / INR N * Rsum N (fun i => / wH N (fz N i) * cos (IZR (fz N i) * x)).

Lemma kern_Hinv N x : (0 < N)%nat -> Re (kernC N (fun n => Cinv (dH N n)) x) = betaS N x.
Proof.
  intro HN. unfold kernC, betaS. rewrite Re_mult_RtoC, Re_Csum. f_equal. apply Rsum_ext. intros i Hi.
  unfold dH. rewrite Cinv_RtoC by (apply wH_neq0; auto; now apply fz_in). rewrite Re_mult_RtoC. reflexivity.
Qed.

Definition histo (v : list R) (x : R) : R :=
  Rsum (length v) (fun m => nth m v 0 * betaS (length v) (x - xg (length v) m)).

Lemma nth_opHinv a j : (j < length a)%nat -> nth j (opHinv a) 0 = histo a (xg (length a) j).
Proof.
  intro Hj. rewrite opHinv_fm by lia. rewrite nth_real_fm by auto. unfold histo.
  apply Rsum_ext. intros m Hm. now rewrite kern_Hinv by lia.
Qed.

Lemma betaS_derivable N x : ex_derive (betaS N) x.
Proof.
  unfold betaS. apply ex_derive_scal. generalize (fz N). generalize (wH N).
  intros w g. induction N as [|N IH]; cbn [Rsum].
  - apply ex_derive_const.
  - apply (ex_derive_plus (fun y => Rsum N (fun i => / w (g i) * cos (IZR (g i) * y)))); [apply IH|]. auto_derive. auto.
Qed.
Lemma betaS_cont N x : continuous (betaS N) x.
Proof. apply continuous_derivable, betaS_derivable. Qed.

Lemma is_RInt_cos_cell N n y :
  is_RInt (fun t => cos (IZR n * t)) (y - hstep N / 2) (y + hstep N / 2) (wH N n * cos (IZR n * y)).
Proof.
  unfold wH. destruct (Z.eqb_spec n 0) as [->|E].
  - apply (is_RInt_ext_all (fun _ => 1)).
    + intro t. rewrite Rmult_0_l. now rewrite cos_0.
    + replace (hstep N * cos (0 * y)) with ((y + hstep N / 2 - (y - hstep N / 2)) * 1); [apply is_RInt_const_R|].
      rewrite Rmult_0_l, cos_0. field.
  - assert (IZR n <> 0) as Hn by (intro H; apply E; now apply eq_IZR in H).
    apply (is_RInt_ext_all (fun t => cos (IZR n * t + 0))); [intro; f_equal; ring|].
    replace (2 * sin (IZR n * (hstep N / 2)) / IZR n * cos (IZR n * y)) with
      ((sin (IZR n * (y + hstep N / 2) + 0) - sin (IZR n * (y - hstep N / 2) + 0)) / IZR n); [now apply RInt_cos_lin|].
    rewrite !Rplus_0_r, !Rmult_plus_distr_l, Rmult_minus_distr_l, sin_plus, sin_minus. field. auto.
Qed.

Lemma is_RInt_betaS_cell N y : (0 < N)%nat ->
  is_RInt (betaS N) (y - hstep N / 2) (y + hstep N / 2) (alphaS N y).
Proof.
  intro HN. unfold betaS, alphaS. apply is_RInt_scal_R.
  apply (is_RInt_Rsum N (fun i t => / wH N (fz N i) * cos (IZR (fz N i) * t))). intros i Hi.
  replace (cos (IZR (fz N i) * y)) with (/ wH N (fz N i) * (wH N (fz N i) * cos (IZR (fz N i) * y))).
  - apply is_RInt_scal_R, is_RInt_cos_cell.
  - field. apply wH_neq0; auto. now apply fz_in.
Qed.

Lemma betaS_even N x : betaS N (- x) = betaS N x.
Proof.
  unfold betaS. f_equal. apply Rsum_ext. intros i _. f_equal.
  replace (IZR (fz N i) * - x) with (- (IZR (fz N i) * x)) by ring. apply cos_neg.
Qed.
Lemma betaS_period N x k : betaS N (x + 2 * IZR k * PI) = betaS N x.
Proof.
  unfold betaS. f_equal. apply Rsum_ext. intros i _. f_equal.
  rewrite <- (cos_period_Z (IZR (fz N i) * x) (fz N i * k)). f_equal. rewrite mult_IZR. ring.
Qed.

Lemma histo_cont a x : continuous (histo a) x.
Proof.
  unfold histo. apply (continuous_Rsum (length a) (fun m x => nth m a 0 * betaS (length a) (x - xg (length a) m))).
  intros i Hi. apply (continuous_scal_r (nth i a 0) (fun x => betaS (length a) (x - xg (length a) i))).
  apply (continuous_comp (fun x => x - xg (length a) i) (betaS (length a))); [|apply betaS_cont].
  apply continuous_derivable. auto_derive. auto.
Qed.

(** betaS interval integral, shifted *)
Lemma RInt_betaS_shift N c y : (0 < N)%nat ->
  is_RInt (fun x => betaS N (x - c)) (y - hstep N / 2) (y + hstep N / 2) (alphaS N (y - c)).
Proof.
  intro HN. rewrite <- (is_RInt_unique _ _ _ _ (is_RInt_betaS_cell N (y - c) HN)).
  replace (y - c - hstep N / 2) with (y - hstep N/2 + - c) by ring.
  replace (y - c + hstep N / 2) with (y + hstep N/2 + - c) by ring.
  rewrite <- RInt_shift by apply betaS_cont. apply (RInt_correct (fun t => betaS N (t + - c))).
  apply ex_RInt_cont_all. intro x.
  apply (continuous_comp (fun x => x + - c) (betaS N)); [|apply betaS_cont].
  apply continuous_derivable. auto_derive. auto.
Qed.

Lemma is_RInt_histo_cell v y : (0 < length v)%nat ->
  is_RInt (histo v) (y - hstep (length v) / 2) (y + hstep (length v) / 2) (interp v y).
Proof.
  intro HN. unfold histo, interp.
  apply (is_RInt_Rsum (length v) (fun m x => nth m v 0 * betaS (length v) (x - xg (length v) m))).
  intros m Hm. apply is_RInt_scal_R. now apply RInt_betaS_shift.
Qed.

(** From here on the operators are used through the lemmas above. *)
Global Opaque opH opHinv opS opSinv opI opIinv.
