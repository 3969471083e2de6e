(** C85: resampling on the doubled grid, half-edge integrals, and the alternative form of alpha0. *)
From Coq Require Import ZArith Reals List Lia Lra Arith.
From Coq Require Import ZifyNat.
From Coquelicot Require Import Coquelicot.
From Verif Require Import Model.Num Model.Np Model.Spectral Model.Basis Spec.Trig Proofs.ListLemmas Proofs.Sums Proofs.RIntLemmas Proofs.Fourier Proofs.Kernels Proofs.Trig Proofs.Ops
  Proofs.BasisP Proofs.Exact Proofs.Cheb1 Proofs.Refine Proofs.FourierK Props.Spectral.
Import ListNotations.
Local Open Scope R_scope.
Ltac Zify.zify_post_hook ::= Z.div_mod_to_equations.

(** gamma(N, k) is the integral of beta_{N,k} over the half edge [0, h/2] *)
Theorem C85_gamma_integral (N k : nat) : (0 < N)%nat -> is_RInt (beta N (INR k)) 0 (PI / INR N) (gamma N k).
Proof.
  intro HN. assert (INR N <> 0) as N0 by now apply INR_neq0. pose proof PI_RGT_0 as HPI.
  assert (sin (INR k * PI) = 0) as Es by (rewrite INR_IZR_INZ; apply sin_IZR_PI).
  assert (cos (INR k * PI) = (-1) ^ k) as Ec by apply cos_PI_nat.
  assert (forall M, (2 * M < 2 * N)%nat -> is_RInt (fun x => Rsum M (fun i => INR (S i) * cos (INR (S i) * (x - 2 * PI / INR N * INR k)) / sin (INR (S i) * PI / INR N) / INR N)) 0 (PI / INR N)
     (Rsum M (fun i => (sin (2 * INR (S i) * INR k * PI / INR N) - sin ((2 * INR k - 1) * INR (S i) * PI / INR N)) / sin (INR (S i) * PI / INR N) / INR N))) as Sm.
  { intros M HM. apply (is_RInt_Rsum M (fun i x => INR (S i) * cos (INR (S i) * (x - 2 * PI / INR N * INR k)) / sin (INR (S i) * PI / INR N) / INR N)). intros m Hm.
    destruct (Nat.eq_dec N 1) as [->|H1]; [lia|].
    assert (sin (INR (S m) * PI / INR N) <> 0) as S0.
    { apply Rgt_not_eq. apply sin_gt_0.
      - apply Rdiv_lt_0_compat; [apply Rmult_lt_0_compat; [apply lt_0_INR; lia|auto]|apply lt_0_INR; lia].
      - apply (Rmult_lt_reg_r (INR N)); [apply lt_0_INR; lia|]. unfold Rdiv. rewrite Rmult_assoc, Rinv_l, Rmult_1_r by auto. rewrite Rmult_comm. apply Rmult_lt_compat_l; auto. apply lt_INR. lia. }
    generalize dependent (INR (S m)). intros M0 S0.
    evar_last. { apply (is_RInt_derive (fun x => sin (M0 * (x - 2 * PI / INR N * INR k)) / sin (M0 * PI / INR N) / INR N)).
      - intros x _. auto_derive; [auto|]. unfold Rdiv, Rminus in *. field. auto.
      - intros x _. apply continuous_derivable. auto_derive; auto. }
    change (minus ?a ?b) with (a - b)%R. cbv beta zeta.
    replace (M0 * (PI / INR N - 2 * PI / INR N * INR k)) with (- ((2 * INR k - 1) * M0 * PI / INR N)) by (field; auto).
    replace (M0 * (0 - 2 * PI / INR N * INR k)) with (- (2 * M0 * INR k * PI / INR N)) by (field; auto). rewrite !sin_neg.
    field. auto. }
  unfold gamma, beta. destruct (Nat.even N) eqn:Ev.
  - apply (is_RInt_ext (fun x => 1 / (2 * PI) - cos (INR N * (x - 2 * PI / INR N * INR k) / 2) / 4 + Rsum (N / 2) (fun i => INR (S i) * cos (INR (S i) * (x - 2 * PI / INR N * INR k)) / sin (INR (S i) * PI / INR N) / INR N))).
    { intros x _. unfold beta0. rewrite Ev. reflexivity. }
    apply (is_RInt_plus (fun x => 1 / (2 * PI) - cos (INR N * (x - 2 * PI / INR N * INR k) / 2) / 4)); [|apply Sm; lia].
    apply (is_RInt_minus (fun x => 1 / (2 * PI)) (fun x => cos (INR N * (x - 2 * PI / INR N * INR k) / 2) / 4)).
    + evar_last; [apply (is_RInt_const (V := R_NormedModule))|]. change (scal ?a ?b) with (a * b)%R. field. split; auto; lra.
    + evar_last. { apply (is_RInt_derive (fun x => sin (INR N * (x - 2 * PI / INR N * INR k) / 2) / (2 * INR N)) (fun x => cos (INR N * (x - 2 * PI / INR N * INR k) / 2) / 4)).
      - intros x _. auto_derive; auto. unfold Rdiv, Rminus. field. auto.
      - intros x _. apply continuous_derivable. auto_derive; auto. }
      change (minus ?a ?b) with (a - b)%R. cbv beta.
      replace (INR N * (PI / INR N - 2 * PI / INR N * INR k) / 2) with (PI / 2 - INR k * PI) by (field; auto).
      replace (INR N * (0 - 2 * PI / INR N * INR k) / 2) with (- (INR k * PI)) by (field; auto).
      rewrite sin_neg, sin_minus, Es, Ec, cos_PI2, sin_PI2. field. auto.
  - apply (is_RInt_ext (fun x => 1 / (2 * PI) + Rsum ((N - 1) / 2) (fun i => INR (S i) * cos (INR (S i) * (x - 2 * PI / INR N * INR k)) / sin (INR (S i) * PI / INR N) / INR N))).
    { intros x _. unfold beta0. rewrite Ev. rewrite Rmult_0_l, Rplus_0_r. reflexivity. }
    apply (is_RInt_plus (fun x => 1 / (2 * PI))); [|apply Sm; lia].
    evar_last; [apply (is_RInt_const (V := R_NormedModule))|]. change (scal ?a ?b) with (a * b)%R. field. split; auto; lra.
Qed.

(** refine(a) are the values of the interpolant of a on the grid with twice as many points *)
Theorem C85_refine (a : list R) (p : R -> R) : (0 < length a)%nat -> trig_interpolant (length a) p -> samples a p ->
  let N := length a in refine a = tab (2 * N) (fun j => p (2 * PI * INR j / INR (2 * N))).
Proof.
  intros HN Hp Hs N. assert (INR N <> 0) as N0 by now apply INR_neq0.
  assert (INR (2 * N) = 2 * INR N) as E2 by (rewrite mult_INR; simpl; ring).
  unfold refine. apply list_eq_nth with (d := 0); rewrite length_weave by (rewrite length_opS by auto; lia); rewrite length_opS by auto; rewrite ?length_tab; [lia|].
  intros j Hj. rewrite nth_tab by lia. destruct (Nat.Even_or_Odd j) as [[i ->]|[i ->]].
  - rewrite nth_weave_even by (rewrite length_opS by auto; lia). rewrite Hs by lia. fold N. f_equal. rewrite E2, mult_INR. simpl (INR 2). field. auto.
  - rewrite nth_weave_odd by (rewrite length_opS by auto; lia). rewrite nth_opS by lia. rewrite <- (interp_unique a p HN Hp Hs). f_equal. fold N. unfold xg, hstep. rewrite E2, plus_INR, mult_INR. simpl (INR 2). simpl (INR 1). field. auto.
Qed.
(** the same values are taken by refining twice *)
Theorem C85_refine_twice (a : list R) : (0 < length a)%nat ->
  exists p, trig_interpolant (length a) p /\ samples a p /\
    refine (refine a) = tab (4 * length a) (fun j => p (2 * PI * INR j / INR (4 * length a))).
Proof.
  intros HN. exists (interp a). assert (trig_interpolant (length a) (interp a)) as Hp by now apply interp_trig. split; [exact Hp|]. split; [apply interp_samples|].
  pose proof (C85_refine a _ HN Hp (interp_samples a)) as E. cbv zeta in E.
  assert (length (refine a) = (2 * length a)%nat) as L by (rewrite E; apply length_tab).
  rewrite (C85_refine (refine a) (interp a)); rewrite ?L; try lia.
  - cbv zeta. replace (2 * (2 * length a))%nat with (4 * length a)%nat by lia. reflexivity.
  - apply (trig_degree_interpolant _ (length a / 2)); [lia|]. destruct Hp as (u & v & _ & Q). now exists u, v.
  - intros j Hj. rewrite L in *. rewrite E. rewrite nth_tab by auto. reflexivity.
Qed.

(** half_edge_integrals(f): with q = sum_k f_k beta_{N,k} the histopolant of f (its integrals over the dual cells
    [x_k - h/2, x_k + h/2] are f_k) the real part is the integral of q over the half edge [0, h/2] *)
Lemma betaS_beta N k x : (0 < N)%nat -> beta N (INR k) x = betaS N (x - xg N k).
Proof. intro HN. unfold beta. rewrite beta0_S by auto. f_equal. unfold xg, hstep. ring. Qed.
Lemma half_edge_fm f : (0 < length f)%nat -> half_edge_integrals f = nth 0 (fm (dI 0 (hstep (length f) / 2)) (cplxv (opHinv f))) (RtoC 0).
Proof.
  intro HN. unfold half_edge_integrals. cbv zeta. rewrite opI_fm by (rewrite length_cplxv, length_opHinv; auto). reflexivity.
Qed.
Theorem C85_half_edge_real (f : list R) : (0 < length f)%nat -> let N := length f in
  let q := fun x => Rsum N (fun k => nth k f 0 * beta N (INR k) x) in
  (forall k, (k < N)%nat -> is_RInt q (2 * PI * INR k / INR N - PI / INR N) (2 * PI * INR k / INR N + PI / INR N) (nth k f 0)) /\
  is_RInt q 0 (PI / INR N) (Re (half_edge_integrals f)) /\
  Re (half_edge_integrals f) = Rsum N (fun k => nth k f 0 * gamma N k).
Proof.
  intros HN N q. assert (INR N <> 0) as N0 by now apply INR_neq0.
  assert (PI / INR N = hstep N / 2) as Eh by (unfold hstep; field; auto).
  assert (forall x, histo f x = q x) as Eq.
  { intro x. unfold histo, q. apply Rsum_ext. intros k Hk. rewrite betaS_beta by auto. reflexivity. }
  assert (Re (half_edge_integrals f) = Rsum N (fun k => nth k f 0 * gamma N k)) as G.
  { rewrite half_edge_fm by auto. rewrite <- nth_realv. fold N.
    assert (hstep N = hstep (length (opHinv f))) as -> by (now rewrite length_opHinv).
    rewrite nth_real_I by (rewrite length_opHinv; auto). rewrite length_opHinv by auto. fold N.
    rewrite (RInt_ext _ q) by (intros x _; rewrite <- histo_interp by auto; apply Eq).
    replace (xg N 0 + 0) with 0 by (unfold xg; simpl; ring). replace (xg N 0 + hstep N / 2) with (PI / INR N) by (rewrite Eh; unfold xg; simpl; ring).
    apply is_RInt_unique. apply is_RInt_Rsum. intros k Hk. apply is_RInt_scal_R. now apply C85_gamma_integral. }
  split; [|split; [|exact G]].
  - intros k Hk. rewrite Eh. apply (is_RInt_ext (histo f)); [intros x _; apply Eq|]. evar_last; [apply is_RInt_histo_cell; auto|].
    pose proof (interp_samples f k Hk) as S. symmetry. exact S.
  - rewrite G. apply is_RInt_Rsum. intros k Hk. apply is_RInt_scal_R. now apply C85_gamma_integral.
Qed.
(** The number returned is complex.  It is real for odd N; for even N it carries an imaginary part: the contribution of
    the alternating component of f *)
Theorem C85_half_edge_imaginary (f : list R) : (0 < length f)%nat -> let N := length f in
  Im (half_edge_integrals f) = if Nat.even N then - Rsum N (fun k => (-1) ^ k * nth k f 0) / (2 * INR N) else 0.
Proof.
  intros HN N. assert (INR N <> 0) as N0 by now apply INR_neq0.
  rewrite half_edge_fm by auto. rewrite opHinv_fm by auto. fold N.
  rewrite real_fm by (apply symD_inv; apply symD_dH). fold N. rewrite fm_fm.
  set (D := fun n => Cmult (Cinv (dH N n)) (dI 0 (hstep N / 2) n)).
  rewrite (fm_ext _ D) by (intros n Hn; unfold D; rewrite rl_real by apply Im_Cinv_R; reflexivity).
  assert (symD D) as SD by (apply symD_mult; [apply symD_inv; apply symD_dH|apply symD_dI]).
  rewrite nth_fm by (rewrite length_cplxv; auto). rewrite length_cplxv. fold N.
  assert (forall k, Im (kernC N D (IZR k * hstep N)) = if Nat.even N then / INR N * (Im (D (- Z.of_nat (N / 2))%Z) * cos (IZR (- Z.of_nat (N / 2)) * (IZR k * hstep N))) else 0) as K.
  { intro k. pose proof (f_equal Im (kern_rl N D k HN SD)) as E. cbn [Im RtoC snd] in E.
    assert (kernC N D (IZR k * hstep N) = Cplus (kernC N (rl N D) (IZR k * hstep N)) (Cmult (RtoC (/ INR N)) (Csum N (fun i => if nyq N (fz N i) then Cmult (Cmult Ci (RtoC (Im (D (fz N i))))) (cis (IZR (fz N i) * (IZR k * hstep N))) else RtoC 0)))) as ->.
    { unfold kernC. rewrite <- Cmult_plus_distr_l. f_equal. rewrite <- Csum_plus. apply Csum_ext. intros i Hi. unfold rl. destruct (nyq N (fz N i)); [|ring].
      rewrite <- Cmult_plus_distr_r. f_equal. apply injective_projections; cbn; unfold Re, Im; ring. }
    change (Im (Cplus ?u ?v)) with (Im u + Im v). rewrite E. rewrite Rplus_0_l.
    unfold nyq. destruct (Nat.even N) eqn:Ev.
    - cbn [andb]. replace (Csum N _) with (Csum N (fun i => if Nat.eqb i 0 then Cmult (Cmult Ci (RtoC (Im (D (- Z.of_nat (N / 2))%Z)))) (cis (IZR (- Z.of_nat (N / 2)) * (IZR k * hstep N))) else RtoC 0)).
      + destruct N as [|M] eqn:EN; [lia|]. rewrite <- EN in *. rewrite Csum_at by lia. cbn. unfold Re, Im. ring.
      + apply Csum_ext. intros i Hi. unfold fz. destruct (Nat.eqb_spec i 0) as [->|Hi0].
        * change (Z.of_nat 0 - Z.of_nat (N / 2))%Z with (- Z.of_nat (N / 2))%Z. now rewrite Z.eqb_refl.
        * destruct (Z.eqb_spec (Z.of_nat i - Z.of_nat (N / 2)) (- Z.of_nat (N / 2))); [lia|reflexivity].
    - cbn [andb]. replace (Csum N (fun _ => RtoC 0)) with (RtoC 0); [cbn; ring|]. symmetry. clear. induction N as [|M IH]; [reflexivity|]. cbn [Csum]. rewrite IH. ring. }
  rewrite Im_Csum. destruct (Nat.even N) eqn:Ev.
  - assert (Im (D (- Z.of_nat (N / 2))%Z) = - / 2) as ED.
    { unfold D, dH, dI. assert (exists q, N = 2 * q)%nat as [q Hq] by now apply Nat.even_spec.
      assert (N / 2 = q)%nat as E2 by lia. rewrite E2. assert (0 < q)%nat by lia. assert (INR q <> 0) by now apply INR_neq0.
      assert (INR N = 2 * INR q) as EN by (rewrite Hq, mult_INR; simpl; ring).
      assert (IZR (- Z.of_nat q) = - INR q) as Ez by (rewrite opp_IZR, <- INR_IZR_INZ; reflexivity).
      assert (INR q * (hstep N / 2) = PI / 2) as Eh by (unfold hstep; rewrite EN; field; auto).
      assert (wH N (- Z.of_nat q) = 2 / INR q) as Ew.
      { unfold wH. destruct (Z.eqb_spec (- Z.of_nat q) 0); [lia|]. rewrite Ez. replace (- INR q * (hstep N / 2)) with (- (PI / 2)) by (rewrite <- Eh; ring). rewrite sin_neg, sin_PI2. field. auto. }
      rewrite Ew. rewrite Cinv_RtoC by (unfold Rdiv; apply Rmult_integral_contrapositive_currified; [lra|now apply Rinv_neq_0_compat]).
      rewrite I_entry_eq. destruct (Z.eqb_spec (- Z.of_nat q) 0); [lia|]. rewrite Ez. replace (- INR q * (hstep N / 2)) with (- (PI / 2)) by (rewrite <- Eh; ring).
      rewrite Rmult_0_r, cos_neg, cos_PI2, cos_0. cbn. unfold Im, Re. cbn. field. auto. }
    replace (- Rsum N (fun k => (-1) ^ k * nth k f 0) / (2 * INR N)) with ((- / (2 * INR N)) * Rsum N (fun k => (-1) ^ k * nth k f 0)) by (field; auto).
    rewrite <- Rsum_scal. apply Rsum_ext. intros m Hm. unfold cplxv. rewrite nth_map_ with (d' := 0) by auto.
    replace (xg N 0 - xg N m) with (IZR (- Z.of_nat m) * hstep N) by (unfold xg; rewrite opp_IZR, <- INR_IZR_INZ; simpl; ring).
    change (Im (Cmult (RtoC (nth m f 0)) ?z)) with (nth m f 0 * Im z + 0 * Re z). rewrite K, ED.
    replace (IZR (- Z.of_nat (N / 2)) * (IZR (- Z.of_nat m) * hstep N)) with (IZR (- Z.of_nat (N / 2)) * (xg N 0 - xg N m)) by (unfold xg; rewrite (opp_IZR (Z.of_nat m)), <- (INR_IZR_INZ m); simpl; ring).
    rewrite cos_nyq_diff by auto. rewrite pow_O. field. auto.
  - transitivity (Rsum N (fun _ => 0)).
    + apply Rsum_ext. intros m Hm. unfold cplxv. rewrite nth_map_ with (d' := 0) by auto.
      replace (xg N 0 - xg N m) with (IZR (- Z.of_nat m) * hstep N) by (unfold xg; rewrite opp_IZR, <- INR_IZR_INZ; simpl; ring).
      change (Im (Cmult (RtoC (nth m f 0)) ?z)) with (nth m f 0 * Im z + 0 * Re z). rewrite K. ring.
    + clear. induction N as [|M IH]; [reflexivity|]. cbn [Rsum]. rewrite IH. ring.
Qed.
(** so for even N it is not the number gamma predicts: a doctest with N = 4 instead of 3 would fail *)
Theorem C85_half_edge_real_refuted (N : nat) : (0 < N)%nat -> Nat.even N = true ->
  exists f, length f = N /\ half_edge_integrals f <> RtoC (Rsum N (fun k => nth k f 0 * gamma N k)).
Proof.
  intros HN Ev. exists (tab N (fun k => (-1) ^ k)). split; [apply length_tab|]. intro E. apply (f_equal Im) in E. cbn [Im RtoC snd] in E.
  rewrite C85_half_edge_imaginary in E by (now rewrite length_tab). rewrite length_tab, Ev in E.
  assert (INR N <> 0) as N0 by now apply INR_neq0.
  rewrite (Rsum_ext _ _ (fun _ => 1)) in E by (intros k Hk; rewrite nth_tab by auto; rewrite <- Rpow_mult_distr; replace (-1 * -1) with 1 by ring; apply pow1).
  assert (Rsum N (fun _ => 1) = INR N) as EN by (clear; induction N as [|M IH]; [reflexivity|]; cbn [Rsum]; rewrite IH, S_INR; ring).
  rewrite EN in E. assert (- INR N / (2 * INR N) = - / 2) as E2 by (field; auto). lra.
Qed.

(** alpha0_alt has the two parities the wrong way round: at the interpolation points x_j = 2 pi j/N, j = 0 .. N-1, it
    agrees with alpha0 (the doctests) ... *)
Theorem C85_alpha0_alt_grid (N j : nat) : (j < N)%nat -> let xj := 2 * PI * INR j / INR N in
  alpha0_alt N xj = Some (if Nat.eqb j 0 then 1 else 0) /\ alpha0 N xj = alpha0_alt N xj.
Proof.
  intros Hj xj. assert (0 < N)%nat as HN by lia. assert (INR N <> 0) as N0 by now apply INR_neq0. pose proof PI_RGT_0.
  assert (alpha0_alt N xj = Some (if Nat.eqb j 0 then 1 else 0)) as A.
  { unfold alpha0_alt. destruct (Nat.eqb_spec j 0) as [->|Hj0].
    - destruct (Req_EM_T xj 0) as [|E]; [reflexivity|]. exfalso. apply E. unfold xj. simpl. field. auto.
    - assert (0 < INR N) by (apply lt_0_INR; lia). assert (0 < INR j) by (apply lt_0_INR; lia). assert (INR j < INR N) by (apply lt_INR; lia).
      assert (0 < xj) by (unfold xj; apply Rdiv_lt_0_compat; auto; nra).
      assert (xj < 2 * PI) by (unfold xj; apply (Rmult_lt_reg_r (INR N)); auto; unfold Rdiv; rewrite Rmult_assoc, Rinv_l by auto; nra).
      destruct (Req_EM_T xj 0); [lra|]. destruct (Req_EM_T (sin (xj / 2)) 0) as [E|NE]; [exfalso; pose proof (sin_gt_0 (xj / 2)); lra|].
      f_equal. replace (INR N * xj / 2) with (IZR (Z.of_nat j) * PI) by (unfold xj; rewrite <- INR_IZR_INZ; field; auto). rewrite sin_IZR_PI. field. auto. }
  assert (- (2 * PI) < xj < 2 * PI) as Rg.
  { unfold xj. assert (0 < INR N) by (apply lt_0_INR; lia). assert (0 <= INR j) by apply pos_INR. assert (INR j < INR N) by (apply lt_INR; lia). split.
    - apply Rlt_le_trans with 0; [lra|]. apply Rmult_le_pos; [nra|left; now apply Rinv_0_lt_compat].
    - apply (Rmult_lt_reg_r (INR N)); auto. unfold Rdiv. rewrite Rmult_assoc, Rinv_l by auto. nra. }
  split; [exact A|]. rewrite A. rewrite alpha0_range by auto.
  f_equal. unfold xj. pose proof (alphaS_card N j 0 Hj HN) as C. unfold xg, hstep in C. rewrite <- C. f_equal. simpl. field. auto.
Qed.
(** ... but between them it is a different function, for every N: it changes sign after one period, where alpha0 repeats,
    and half way between the first two points the two differ *)
Theorem C85_alpha0_alt_antiperiodic (N : nat) (x : R) : (0 < N)%nat -> sin (x / 2) <> 0 -> x + 2 * PI <> 0 ->
  (exists y, alpha0_alt N x = Some y /\ alpha0_alt N (x + 2 * PI) = Some (- y)) /\
  (exists y, alpha0 N x = Some y /\ alpha0 N (x + 2 * PI) = Some y).
Proof.
  intros HN S0 X1. assert (INR N <> 0) as N0 by now apply INR_neq0.
  assert ((x + 2 * PI) / 2 = x / 2 + PI) as Eh by field.
  assert (sin ((x + 2 * PI) / 2) <> 0) as S1 by (rewrite Eh, neg_sin; lra).
  assert (x <> 0) as X0 by (intros ->; apply S0; unfold Rdiv; rewrite Rmult_0_l; apply sin_0).
  split.
  - unfold alpha0_alt. destruct (Req_EM_T x 0); [contradiction|]. destruct (Req_EM_T (sin (x / 2)) 0); [contradiction|].
    destruct (Req_EM_T (x + 2 * PI) 0) as [|]; [contradiction|]. destruct (Req_EM_T (sin ((x + 2 * PI) / 2)) 0); [contradiction|]. eexists. split; [reflexivity|]. f_equal.
    rewrite Eh, neg_sin, neg_cos. replace (INR N * (x + 2 * PI) / 2) with (INR N * x / 2 + INR N * PI) by field.
    assert (sin (INR N * PI) = 0) as SN by (rewrite INR_IZR_INZ; apply sin_IZR_PI). rewrite sin_plus, cos_PI_nat, SN, pow_m1_Z.
    destruct (Nat.even N); field; auto.
  - rewrite !alpha0_some by auto. eexists. split; [reflexivity|]. f_equal. replace (x + 2 * PI) with (x + 2 * IZR 1 * PI) by ring. apply alphaS_period.
Qed.
Theorem C85_alpha0_alt_refuted (N : nat) : (0 < N)%nat -> alpha0_alt N (PI / INR N) <> alpha0 N (PI / INR N).
Proof.
  intros HN E. assert (0 < INR N) as Np by (apply lt_0_INR; lia). pose proof PI_RGT_0.
  assert (1 <= INR N) by (apply (le_INR 1); lia).
  assert (0 < PI / INR N) by (apply Rdiv_lt_0_compat; auto). set (x := PI / INR N) in *.
  assert (INR N * x = PI) as Nx by (unfold x; field; lra). assert (x <= PI) by nra.
  assert (0 < sin (x / 2)) as Sp by (apply sin_gt_0; lra).
  assert (cos (x / 2) < 1) as C1. { rewrite <- cos_0. apply cos_decreasing_1; lra. }
  assert (INR N * x / 2 = PI / 2) as Ex by lra.
  unfold alpha0_alt, alpha0 in E. rewrite Ex, sin_PI2, pow_m1_Z in E.
  destruct (Req_EM_T x 0); [lra|]. destruct (Req_EM_T (sin (x / 2)) 0); [lra|].
  destruct (Nat.even N) eqn:Ev.
  - destruct (Req_EM_T (cos (x / 2)) 0) as [Z|Z].
    + injection E as E. assert (1 * (cos (x / 2) * (1 - 1) + (1 + 1)) / sin (x / 2) / INR N / 2 = / (sin (x / 2) * INR N)) as Q by (field; lra).
      rewrite Q in E. assert (0 < / (sin (x / 2) * INR N)) by (apply Rinv_0_lt_compat; nra). lra.
    + injection E as E. unfold tan in E. assert (1 * (cos (x / 2) * (1 - 1) + (1 + 1)) / sin (x / 2) / INR N / 2 = / (sin (x / 2) * INR N)) as Q by (field; lra).
      assert (1 / (sin (x / 2) / cos (x / 2)) / INR N = cos (x / 2) * / (sin (x / 2) * INR N)) as Q2 by (field; lra). rewrite Q, Q2 in E.
      assert (0 < / (sin (x / 2) * INR N)) by (apply Rinv_0_lt_compat; nra). nra.
  - injection E as E. assert (1 * (cos (x / 2) * (1 - -1) + (1 + -1)) / sin (x / 2) / INR N / 2 = cos (x / 2) * / (sin (x / 2) * INR N)) as Q by (field; lra).
    assert (1 / sin (x / 2) / INR N = / (sin (x / 2) * INR N)) as Q2 by (field; lra). rewrite Q, Q2 in E.
    assert (0 < / (sin (x / 2) * INR N)) by (apply Rinv_0_lt_compat; nra). nra.
Qed.
Example C85_instance : trig_interpolant 3 (fun x => 2 + sin x) /\ samples (tab 3 (fun j => 2 + sin (2 * PI * INR j / INR 3))) (fun x => 2 + sin x) /\
  (0 < length ([1; -2; 0; 5]%R))%nat /\ Nat.even (length [1; -2; 0; 5]%R) = true /\ sin (PI / 2) <> 0 /\ PI + 2 * PI <> 0.
Proof.
  pose proof PI_RGT_0. split; [|split; [|split; [cbn; lia|split; [reflexivity|split; [rewrite sin_PI2; lra|lra]]]]].
  - apply (trig_degree_interpolant 3 1); [lia|]. exact (Logic.proj1 C14_instance).
  - exact (Logic.proj2 C14_instance).
Qed.
