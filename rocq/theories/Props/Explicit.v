(** C87: the operators of periodic.py outside the tables: the explicit wedge products, the switch
    between primal and dual 0-forms, and the Toeplitz form of the Hodge star. *)
From Coq Require Import ZArith Reals List Lia Lra Arith Bool.
From Coq Require Import ZifyNat.
From Coquelicot Require Import Coquelicot.
From Verif Require Import Model.Num Model.Np Model.Spectral Model.Basis Model.Grids1 Model.Chebyshev Model.Common Model.Explicit Spec.Trig
  Proofs.ListLemmas Proofs.Sums Proofs.RIntLemmas Proofs.RingSums Proofs.Fourier Proofs.Kernels Proofs.Trig Proofs.TrigAlg Proofs.Ops Proofs.BasisP
  Proofs.Exact Proofs.PeriodicBasis Proofs.Refine Proofs.Cheb1 Proofs.Cheb2 Proofs.Leibniz Props.Decform Props.Refinement Props.Chebyshev Spec.Poly.
Import ListNotations.
Local Open Scope R_scope.
Ltac Zify.zify_post_hook ::= Z.div_mod_to_equations.

Section Low.
Variables (N : nat) (q : R -> R) (K : nat).
Hypotheses (HN : (1 <= N)%nat) (Hq : trig_degree K q) (HK : (2 * K < N)%nat).
Let h := hstep N.
Lemma ti_q s : trig_interpolant N (fun t => q (t + s)).
Proof. apply (trig_degree_interpolant N K); [lia|]. now apply td_shift. Qed.
Lemma ti_q0 : trig_interpolant N q.
Proof. apply (trig_degree_interpolant N K); [lia|auto]. Qed.
Lemma S_low s : opS (tab N (fun j => q (xg N j + s))) = tab N (fun j => q (xg N j + (h / 2 + s))).
Proof.
  rewrite (exact_S _ (fun t => q (t + s))); rewrite ?length_tab; try lia; [|apply ti_q|apply (samples_tab N (fun t => q (t + s))); lia].
  apply tab_ext. intros. f_equal. fold h. ring.
Qed.
Lemma Sinv_low s : opSinv (tab N (fun j => q (xg N j + s))) = tab N (fun j => q (xg N j + (s - h / 2))).
Proof.
  rewrite (exact_Sinv _ (fun t => q (t + s))); rewrite ?length_tab; try lia; [|apply ti_q|apply (samples_tab N (fun t => q (t + s))); lia].
  apply tab_ext. intros. f_equal. fold h. ring.
Qed.
Lemma tab0 : tab N (fun j => q (xg N j)) = tab N (fun j => q (xg N j + 0)).
Proof. apply tab_ext. intros. f_equal. ring. Qed.
Lemma SinvS_low : opSinv (opS (tab N (fun j => q (xg N j)))) = tab N (fun j => q (xg N j)).
Proof. rewrite tab0, S_low, Sinv_low. apply tab_ext. intros. f_equal. ring. Qed.
Lemma SSinv_low : opS (opSinv (tab N (fun j => q (xg N j)))) = tab N (fun j => q (xg N j)).
Proof. rewrite tab0, Sinv_low, S_low. apply tab_ext. intros. f_equal. ring. Qed.
Lemma SH_low : opS (opH (tab N (fun j => q (xg N j)))) = tab N (fun i => RInt q (xg N i) (xg N (S i))).
Proof.
  transitivity (opH (opS (tab N (fun j => q (xg N j))))); [apply (run_op_comm oS oH)|]. rewrite tab0, S_low.
  rewrite (exact_H _ (fun t => q (t + (h / 2 + 0)))); rewrite ?length_tab; try lia; [|apply ti_q|apply (samples_tab N (fun t => q (t + (h / 2 + 0)))); lia].
  fold h. apply tab_ext. intros i Hi. rewrite (RInt_ext (fun t => q (t + (h / 2 + 0))) (fun t => q (t + h / 2))) by (intros; f_equal; ring).
  rewrite RInt_shift by (intro; now apply (td_cont K)). rewrite xg_S. fold h. f_equal; lra.
Qed.
Lemma dens_low : opHinv (opSinv (tab N (fun i => RInt q (xg N i) (xg N (S i))))) = tab N (fun j => q (xg N j)).
Proof.
  rewrite <- SH_low. set (v := tab N (fun j => q (xg N j))). assert (length v = N) as L by apply length_tab.
  assert (opSinv (opS (opH v)) = opH (opSinv (opS v))) as ->.
  { change (run_op oSinv (run_op oS (run_op oH v)) = run_op oH (run_op oSinv (run_op oS v))). now rewrite (run_op_comm oS oH), (run_op_comm oSinv oH). }
  unfold v at 1. rewrite SinvS_low. fold v. apply Hinv_H. lia.
Qed.
End Low.

Lemma P0_tab N (f : R -> R) : (1 <= N)%nat -> P0 (periodic_default N) f = tab N (fun j => f (xg N j)).
Proof. intro. rewrite pd_cells by lia. unfold P0, proj0. cbn [verts]. now rewrite map_tab. Qed.
Lemma P1_tab N (f : R -> R) : (1 <= N)%nat -> P1 (periodic_default N) f = tab N (fun i => RInt f (xg N i) (xg N (S i))).
Proof. intro. rewrite pd_cells by lia. unfold P1, Grids1.proj1. cbn [edges fst snd]. now rewrite zipw_tab. Qed.
Lemma sp_refine_T0 : sp_refine = T0_periodic. Proof. reflexivity. Qed.
Lemma sp_refine_ok N p : (1 <= N)%nat -> trig_interpolant N p -> sp_refine (tab N (fun j => p (xg N j))) = Ok (tab (N + N) (fun j => p (xg (N + N) j))).
Proof.
  intros HN Hp. rewrite sp_refine_T0, (T0_val N) by (auto; apply length_tab || lia). f_equal. apply tab_ext. intros j Hj. symmetry.
  apply interp_unique; rewrite ?length_tab; auto. apply samples_tab. lia.
Qed.

(** On the default periodic grid with vertex samples of p (a trigonometric interpolant) and edge integrals
    of q (resolved by the grid) the product w01 is the edge integrals of p*q; the associative product
    _w01 is the edge integrals of the function that agrees with p*q at the vertices. *)
Theorem C87_values N p q K : (1 <= N)%nat -> trig_interpolant N p -> trig_degree K q -> (2 * K < N)%nat ->
  let c := periodic_default N in let '(w00, w01, w01a) := wedge_explicit in
  w00 (P0 c p) (P0 c q) = Ok (P0 c (fun x => p x * q x)) /\
  w01 (P0 c p) (P1 c q) = Ok (P1 c (fun x => p x * q x)) /\
  forall r L, trig_degree L r -> (2 * L < N)%nat -> P0 c r = P0 c (fun x => p x * q x) ->
    w01a (P0 c p) (P1 c q) = Ok (P1 c r).
Proof.
  intros HN Hp Hq HK c. cbn [wedge_explicit]. unfold c. rewrite !P0_tab, !P1_tab by auto. unfold w00. split; [|split].
  - rewrite np_bin_eq by now rewrite !length_tab. now rewrite zipw_tab.
  - unfold w01. rewrite sp_refine_ok by auto. cbn [bind].
    rewrite (spec_ok opSinv) by (rewrite length_tab; lia). cbn [bind].
    rewrite (spec_ok opHinv) by (rewrite length_opSinv; rewrite length_tab; lia). cbn [bind]. rewrite (dens_low N q K HN Hq HK).
    rewrite sp_refine_ok by (auto; now apply (ti_q0 N q K)). cbn [bind]. rewrite np_bin_eq by now rewrite !length_tab. rewrite zipw_tab. cbn [bind].
    set (v := tab (N + N) (fun i => p (xg (N + N) i) * q (xg (N + N) i))). assert (length v = (N + N)%nat) as Lv by apply length_tab.
    rewrite (spec_ok opH) by lia. cbn [bind]. rewrite (spec_ok opS) by (rewrite length_opH; lia). cbn [bind].
    assert (trig_degree (N / 2 + K) (fun t => p t * q t)) as Hpq by (apply td_mult; auto; now apply ti_td).
    unfold v. rewrite (SH_low (N + N) (fun t => p t * q t) (N / 2 + K)) by (auto; lia).
    rewrite pair_sum_tab. f_equal. apply tab_ext. intros i Hi.
    assert (0 < INR N) as PN by (apply lt_0_INR; lia).
    replace (xg (N + N) (2 * i)) with (xg N i) by (unfold xg, hstep; rewrite mult_INR, plus_INR; cbn [INR]; field; try split; apply Rgt_not_eq; lra).
    replace (xg (N + N) (S (2 * i + 1))) with (xg N (S i)) by (unfold xg, hstep; replace (S (2 * i + 1)) with (2 * S i)%nat by lia; rewrite mult_INR, plus_INR; cbn [INR]; field; try split; apply Rgt_not_eq; lra).
    replace (S (2 * i)) with (2 * i + 1)%nat by lia.
    apply (RInt_Chasles_cont (fun t => p t * q t)); intro; now apply (td_cont (N / 2 + K)).
  - intros r L Hr HL Er. rewrite P0_tab in Er by auto. rewrite P1_tab by auto. unfold w01_assoc.
    rewrite (spec_ok opSinv) by (rewrite length_tab; lia). cbn [bind].
    rewrite (spec_ok opHinv) by (rewrite length_opSinv; rewrite length_tab; lia). cbn [bind]. rewrite (dens_low N q K HN Hq HK).
    rewrite np_bin_eq by now rewrite !length_tab. rewrite zipw_tab. cbn [bind]. rewrite <- Er.
    rewrite (spec_ok opH) by (rewrite length_tab; lia). cbn [bind]. rewrite (spec_ok opS) by (rewrite length_opH; rewrite length_tab; lia).
    now rewrite (SH_low N r L) by auto.
Qed.

(** For arrays: on odd numbers of points (for even numbers, when the alternating sum of beta vanishes)
    the explicit products are the entries of the table of wedge products. *)
Lemma SSinv_id N b : length b = N -> (1 <= N)%nat -> (Nat.even N = true -> Rsum N (fun m => (-1) ^ m * nth m b 0) = 0) -> opS (opSinv b) = b.
Proof.
  intros L HN H. destruct (Nat.even N) eqn:E.
  - rewrite S_Sinv_even by (rewrite L; auto || lia). unfold drop_alternating. rewrite L, H by auto. apply tab_nth; auto. intros. lra.
  - apply S_Sinv_odd. now rewrite L.
Qed.
Theorem C87_table N a b : (1 <= N)%nat -> length a = N -> length b = N ->
  (Nat.even N = true -> Rsum N (fun m => (-1) ^ m * nth m b 0) = 0) ->
  exists w0 w1, dget wkey_eqb (wedge refine_periodic) ((0%nat, true), (0%nat, true), true) = Ok w0 /\
    dget wkey_eqb (wedge refine_periodic) ((0%nat, true), (1%nat, true), true) = Ok w1 /\
    let '(v0, v1, _) := wedge_explicit in v0 a b = w0 a b /\ v1 a b = w1 a b.
Proof.
  intros HN La Lb H. rewrite !W_entry by (cbn; lia). eexists _, _. split; [reflexivity|]. split; [reflexivity|]. cbn [wedge_explicit]. split; [reflexivity|].
  cbn [direct Nat.eqb Bool.eqb andb]. unfold get_w, w01. cbn [refine_periodic wrap_refine rT rU tget dget]. cbn -[T0_periodic T1_periodic U1_periodic sp_refine np_bin spec].
  rewrite sp_refine_T0. destruct (T0_periodic a) as [A|]; [|reflexivity]. cbn [bind].
  unfold T1_periodic, T0d_periodic, T0_periodic. rewrite !(spec_ok opSinv b), !(spec_ok opHinv b) by lia. cbn [bind].
  assert (length (opSinv b) = N) as L1 by (rewrite length_opSinv; lia). assert (length (opHinv b) = N) as L2 by (rewrite length_opHinv; lia).
  rewrite (spec_ok opHinv (opSinv b)), (spec_ok opSinv (opHinv b)) by lia. cbn [bind].
  assert (length (opHinv (opSinv b)) = N) as L3 by (rewrite length_opHinv; lia). rewrite (spec_ok opS) by lia. cbn [bind].
  assert (opS (opHinv (opSinv b)) = opHinv b) as ->.
  { change (run_op oS (run_op oHinv (opSinv b)) = opHinv b). rewrite (run_op_comm oS oHinv). change (opHinv (opS (opSinv b)) = opHinv b). now rewrite (SSinv_id N). }
  assert (opSinv (opHinv b) = opHinv (opSinv b)) as -> by apply (run_op_comm oSinv oHinv).
  destruct (interweave _ _) as [B|]; [|reflexivity]. cbn [bind]. destruct (np_bin Rmult A B) as [P|]; [|reflexivity]. cbn [bind]. unfold U1_periodic. f_equal.
  destruct P as [|x P]; [reflexivity|]. set (v := x :: P). assert (0 < length v)%nat as Hv by (unfold v; cbn; lia).
  rewrite (spec_ok opH), (spec_ok opS v) by auto. cbn [bind]. rewrite (spec_ok opS), (spec_ok opH) by (rewrite ?length_opS, ?length_opH; auto). f_equal. apply (run_op_comm oS oH).
Qed.

Definition alternating (N : nat) : list R := tab N (fun m => (-1) ^ m).
Lemma alt_cos N m : (1 <= N)%nat -> Nat.even N = true -> (-1) ^ m = cos (INR (N / 2) * xg N m).
Proof.
  intros HN E. apply Nat.even_spec in E as [k ->]. replace (2 * k / 2)%nat with k by lia. rewrite <- cos_PI_nat. f_equal. unfold xg, hstep. rewrite mult_INR. cbn [INR].
  field. apply INR_neq0. lia.
Qed.
Lemma ti_alt N : (1 <= N)%nat -> Nat.even N = true -> trig_interpolant N (fun t => cos (INR (N / 2) * t)).
Proof. intros HN E. apply (ti_ext N _ (fun t => 1 * cos (INR (N / 2) * t))); [intro; ring|]. now apply ti_nyq. Qed.
Lemma half_alt N i : (1 <= N)%nat -> Nat.even N = true -> cos (INR (N / 2) * (xg N i - hstep N / 2)) = 0 /\ cos (INR (N / 2) * (xg N i + hstep N / 2)) = 0.
Proof.
  intros HN E. pose proof E as E'. apply Nat.even_spec in E' as [k Ek]. assert (N / 2 = k)%nat as -> by lia.
  assert (INR k * (hstep N / 2) = PI / 2) as E1. { unfold hstep. rewrite Ek, mult_INR. cbn [INR]. field. apply INR_neq0. lia. }
  assert (INR k * xg N i = INR i * PI) as E2. { unfold xg, hstep. rewrite Ek, mult_INR. cbn [INR]. field. apply INR_neq0. lia. }
  assert (sin (INR i * PI) = 0) as Es by (rewrite INR_IZR_INZ; apply sin_IZR_PI).
  rewrite Rmult_minus_distr_l, Rmult_plus_distr_l, E1, E2, cos_minus, cos_plus, cos_PI2, Es. lra.
Qed.
Lemma Sinv_alt N : (1 <= N)%nat -> Nat.even N = true -> opSinv (alternating N) = tab N (fun _ => 0) /\ opS (alternating N) = tab N (fun _ => 0).
Proof.
  intros HN E. assert (length (alternating N) = N) as L by apply length_tab.
  assert (samples (alternating N) (fun t => cos (INR (N / 2) * t))) as Hs.
  { intros j Hj. rewrite L in *. unfold alternating. rewrite nth_tab by auto. rewrite (alt_cos N) by auto. f_equal. f_equal. unfold xg, hstep. field. apply INR_neq0. lia. }
  split.
  - rewrite (exact_Sinv _ (fun t => cos (INR (N / 2) * t))); rewrite ?L; auto; [|now apply ti_alt]. apply tab_ext. intros. now apply half_alt.
  - rewrite (exact_S _ (fun t => cos (INR (N / 2) * t))); rewrite ?L; auto; [|now apply ti_alt]. apply tab_ext. intros. now apply half_alt.
Qed.
Lemma td0 : trig_degree 0 (fun _ => 0). Proof. apply td_const. Qed.
Lemma RInt_zero (a b : R) : RInt (fun _ => 0) a b = 0.
Proof. rewrite (is_RInt_unique _ _ _ _ (is_RInt_const_R 0 a b)). apply Rmult_0_r. Qed.
Lemma zero_ops N : (1 <= N)%nat -> opSinv (tab N (fun _ => 0)) = tab N (fun _ => 0) /\ opS (tab N (fun _ => 0)) = tab N (fun _ => 0) /\ opH (tab N (fun _ => 0)) = tab N (fun _ => 0).
Proof.
  intro HN. split; [exact (Sinv_low N (fun _ => 0) 0 HN td0 ltac:(lia) 0)|]. split; [exact (S_low N (fun _ => 0) 0 HN td0 ltac:(lia) 0)|].
  rewrite (exact_H _ (fun _ => 0)); rewrite ?length_tab; auto; [|apply (ti_q0 N (fun _ => 0) 0); auto; apply td0|].
  - apply tab_ext. intros. apply RInt_zero.
  - intros j Hj. rewrite length_tab in Hj. now rewrite nth_tab.
Qed.
Lemma w01_dep a b b' : opSinv b = opSinv b' -> (0 < length b)%nat -> (0 < length b')%nat -> w01 a b = w01 a b' /\ w01_assoc a b = w01_assoc a b'.
Proof. intros E L L'. unfold w01, w01_assoc. rewrite !(spec_ok opSinv) by auto. cbn [bind]. now rewrite E. Qed.

(** For an even number of points w01 ignores the alternating component of its second argument: the
    alternating form is multiplied to 0 by everything, while the table's product with the constant 1 keeps it. *)
Theorem C87_table_refuted N : (1 <= N)%nat -> Nat.even N = true ->
  exists b w1, length b = N /\ dget wkey_eqb (wedge refine_periodic) ((0%nat, true), (1%nat, true), true) = Ok w1 /\
    (forall a, length a = N -> let '(_, v1, v2) := wedge_explicit in v1 a b = Ok (tab N (fun _ => 0)) /\ v2 a b = Ok (tab N (fun _ => 0))) /\
    w1 (ones N) b = Ok b /\ b <> tab N (fun _ => 0).
Proof.
  intros HN E. exists (alternating N). assert (length (alternating N) = N) as L by apply length_tab.
  destruct (C35_one_neutral never Periodic N true 1 true (alternating N) HN ltac:(lia) L) as (w & Ew & Hw). exists w. split; [auto|]. split; [exact Ew|]. split; [|split; [exact Hw|]].
  - intros a La. cbn [wedge_explicit].
    assert (P1 (periodic_default N) (fun _ => 0) = tab N (fun _ => 0)) as EP by (rewrite P1_tab by auto; apply tab_ext; intros; apply RInt_zero).
    assert (P0 (periodic_default N) (interp a) = a) as Ea. { rewrite P0_tab by auto. apply tab_nth; auto. intros j Hj. rewrite <- La. now apply interp_grid; rewrite La. }
    destruct (w01_dep a (alternating N) (P1 (periodic_default N) (fun _ => 0))) as [-> ->].
    { rewrite EP. destruct (zero_ops N HN) as (-> & _). now apply Sinv_alt. }
    { lia. } { rewrite EP, length_tab. lia. }
    destruct (C87_values N (interp a) (fun _ => 0) 0 HN) as (_ & V1 & V2); [rewrite <- La; apply interp_trig; lia|apply td0|lia|]. cbn [wedge_explicit] in V1, V2.
    rewrite Ea in V1, V2. split.
    + rewrite V1. f_equal. rewrite P1_tab by auto. apply tab_ext. intros. transitivity (RInt (fun _ => 0) (xg N i) (xg N (S i))); [|apply RInt_zero]. apply RInt_ext. intros. apply Rmult_0_r.
    + rewrite (V2 (fun _ => 0) 0%nat); [now rewrite EP|apply td0|lia|]. rewrite !P0_tab by auto. apply tab_ext. intros. ring.
  - intro X. apply (f_equal (fun l => nth 0 l 0)) in X. unfold alternating in X. rewrite !nth_tab in X by lia. cbn in X. lra.
Qed.

Lemma zipw_assoc (a b c : list R) : zipw Rmult a (zipw Rmult b c) = zipw Rmult (zipw Rmult a b) c.
Proof. revert b c. induction a as [|x a IH]; intros [|y b] [|z c]; auto. cbn. now rewrite IH, Rmult_assoc. Qed.
Lemma w01_assoc_ok N a b : (1 <= N)%nat -> length a = N -> length b = N ->
  w01_assoc a b = Ok (opS (opH (zipw Rmult a (opHinv (opSinv b))))) /\ length (opS (opH (zipw Rmult a (opHinv (opSinv b))))) = N.
Proof.
  intros HN La Lb. assert (length (opSinv b) = N) as L1 by (rewrite length_opSinv; lia). assert (length (opHinv (opSinv b)) = N) as L2 by (rewrite length_opHinv; lia).
  assert (length (zipw Rmult a (opHinv (opSinv b))) = N) as L3 by (rewrite length_zipw; lia).
  assert (length (opH (zipw Rmult a (opHinv (opSinv b)))) = N) as L4 by (rewrite length_opH; lia). split; [|rewrite length_opS; lia].
  unfold w01_assoc. rewrite (spec_ok opSinv) by lia. cbn [bind]. rewrite (spec_ok opHinv) by lia. cbn [bind]. rewrite np_bin_eq by lia. cbn [bind].
  rewrite (spec_ok opH) by lia. cbn [bind]. now rewrite (spec_ok opS) by lia.
Qed.

(** the associative implementation is associative, with unit 1, on odd numbers of points .. *)
Theorem C87_associative N a b c : Nat.even N = false -> length a = N -> length b = N -> length c = N ->
  let '(v0, _, v2) := wedge_explicit in
  exists ab bc x, v0 a b = Ok ab /\ v2 b c = Ok bc /\ v2 ab c = Ok x /\ v2 a bc = Ok x /\ length x = N /\ v2 (ones N) c = Ok c.
Proof.
  intros E La Lb Lc. cbn [wedge_explicit]. assert (1 <= N)%nat as HN by (destruct N; [discriminate|lia]).
  destruct (w01_assoc_ok N b c HN Lb Lc) as (E1 & L1). set (x := opS (opH (zipw Rmult b (opHinv (opSinv c))))) in *.
  assert (length (zipw Rmult a b) = N) as Lab by (rewrite length_zipw; lia). assert (length (opHinv (opSinv c)) = N) as L2 by (rewrite length_opHinv; rewrite length_opSinv; lia).
  destruct (w01_assoc_ok N (zipw Rmult a b) c HN Lab Lc) as (E2 & L3). destruct (w01_assoc_ok N a x HN La L1) as (E3 & _).
  exists (zipw Rmult a b), x, (opS (opH (zipw Rmult (zipw Rmult a b) (opHinv (opSinv c))))).
  split; [unfold w00; apply np_bin_eq; lia|]. split; [auto|]. split; [auto|]. split; [|split; auto].
  - rewrite E3. f_equal. unfold x. set (g := zipw Rmult b (opHinv (opSinv c))). assert (length g = N) as Lg by (unfold g; rewrite length_zipw; lia).
    assert (length (opH g) = N) as Lh by (rewrite length_opH; lia). rewrite Sinv_S_odd by now rewrite Lh. rewrite Hinv_H by lia. unfold g. now rewrite zipw_assoc.
  - assert (length (ones N : list R) = N) as Lo by (unfold ones; apply repeat_length). destruct (w01_assoc_ok N (ones N) c HN Lo Lc) as (-> & _). f_equal.
    assert (zipw Rmult (ones N) (opHinv (opSinv c)) = opHinv (opSinv c)) as ->.
    { rewrite <- L2 at 1. generalize (opHinv (opSinv c)). intro l. clear. unfold ones. induction l as [|y l IH]; [reflexivity|]. cbn [length repeat zipw]. rewrite IH. f_equal. change (1 * y = y). ring. }
    rewrite H_Hinv by (rewrite length_opSinv; lia). now rewrite S_Sinv_odd by now rewrite Lc.
Qed.

(** .. and not on even numbers of points *)
Theorem C87_associative_refuted N : (1 <= N)%nat -> Nat.even N = true ->
  exists a b c ab bc l r, length a = N /\ length b = N /\ length c = N /\
  let '(v0, _, v2) := wedge_explicit in v0 a b = Ok ab /\ v2 b c = Ok bc /\ v2 ab c = Ok l /\ v2 a bc = Ok r /\ l <> r.
Proof.
  intros HN E. cbn [wedge_explicit]. set (c1 := P1 (periodic_default N) (fun _ => 1)). set (al := alternating N). assert (length al = N) as La by apply length_tab.
  assert (length c1 = N) as Lc by (unfold c1; rewrite P1_tab by auto; apply length_tab).
  assert (trig_degree 0 (fun _ => 1)) as T1 by apply td_const.
  assert (opHinv (opSinv c1) = tab N (fun _ => 1)) as D1. { unfold c1. rewrite P1_tab by auto. now apply (dens_low N (fun _ => 1) 0 HN T1 ltac:(lia)). }
  destruct (zero_ops N HN) as (Z1 & Z2 & Z3). destruct (Sinv_alt N HN E) as (A1 & A2).
  assert (zipw Rmult al (tab N (fun _ => 1)) = al) as M1. { unfold al, alternating. rewrite zipw_tab. apply tab_ext. intros. ring. }
  assert (w01_assoc al c1 = Ok (tab N (fun _ => 0))) as E1.
  { destruct (w01_assoc_ok N al c1 HN La Lc) as (-> & _). rewrite D1, M1. f_equal. transitivity (opH (opS al)); [apply (run_op_comm oS oH)|]. unfold al. now rewrite A2. }
  exists al, al, c1, (tab N (fun _ => 1)), (tab N (fun _ => 0)), c1, (tab N (fun _ => 0)). do 3 (split; [auto|]). split; [|split; [exact E1|split; [|split]]].
  - unfold w00. rewrite np_bin_eq by auto. f_equal. unfold al, alternating. rewrite zipw_tab. apply tab_ext. intros i _. rewrite <- Rpow_mult_distr. replace (-1 * -1) with 1 by ring. apply pow1.
  - destruct (w01_assoc_ok N (tab N (fun _ => 1)) c1 HN (length_tab _ _) Lc) as (-> & _). rewrite D1, zipw_tab. f_equal.
    unfold c1. rewrite P1_tab by auto. rewrite <- (SH_low N (fun _ => 1) 0 HN T1 ltac:(lia)). do 2 f_equal. apply tab_ext. intros. ring.
  - destruct (w01_assoc_ok N al (tab N (fun _ => 0)) HN La (length_tab _ _)) as (-> & _). rewrite Z1. f_equal.
    assert (opHinv (tab N (fun _ => 0)) = tab N (fun _ => 0)) as ->. { rewrite <- Z3 at 1. apply Hinv_H. rewrite length_tab. lia. }
    unfold al, alternating. rewrite zipw_tab. rewrite (tab_ext N _ (fun _ => 0)) by (intros; ring). now rewrite Z3, Z2.
  - intro X. apply (f_equal (fun l => nth 0 l 0)) in X. unfold c1 in X. rewrite P1_tab in X by auto. rewrite !nth_tab in X by lia.
    rewrite (is_RInt_unique _ _ _ _ (is_RInt_const_R 1 (xg N 0) (xg N 1))) in X. rewrite xg_S in X. pose proof (hstep_pos N HN). lra.
Qed.

(** w01 has the unit 1 but is not associative: on every odd number of points other than 1, products of the
    fastest resolved oscillation differ. *)
Theorem C87_w01_unit N c : Nat.even N = false -> length c = N -> let '(_, v1, _) := wedge_explicit in v1 (ones N) c = Ok c.
Proof.
  intros E Lc. cbn [wedge_explicit]. assert (1 <= N)%nat as HN by (destruct N; [discriminate|lia]).
  assert (length (ones N : list R) = N) as Lo by (unfold ones; apply repeat_length).
  destruct (C87_table N (ones N) c HN Lo Lc) as (w0 & w1 & _ & Ew & T); [congruence|]. cbn [wedge_explicit] in T. destruct T as (_ & ->).
  destruct (C35_one_neutral never Periodic N true 1 true c HN ltac:(lia) Lc) as (w & Ew' & Hw). cbn [refine_of] in Ew'. rewrite Ew in Ew'. injection Ew' as <-. exact Hw.
Qed.
Theorem C87_w01_not_associative N : Nat.even N = false -> (3 <= N)%nat ->
  exists a b c ab bc l r, length a = N /\ length b = N /\ length c = N /\
  let '(v0, v1, _) := wedge_explicit in v0 a b = Ok ab /\ v1 b c = Ok bc /\ v1 ab c = Ok l /\ v1 a bc = Ok r /\ l <> r.
Proof.
  intros E HN. cbn [wedge_explicit]. assert (exists m, N = 2 * m + 1)%nat as (m & Em). { destruct (Nat.Even_or_Odd N) as [X|[m X]]; [apply Nat.even_spec in X; congruence|now exists m]. }
  set (c := periodic_default N). set (f := fun t => cos (INR m * t)). set (v := fun t => / 2 + / 2 * cos t). set (u := fun _ : R => 1).
  assert (trig_degree m f) as Hf. { apply (td_ext m _ (fun t => cos (INR m * t + 0))); [intro; unfold f; f_equal; ring|]. now apply td_cos_nat. }
  assert (trig_degree 0 u) as Hu by apply td_const.
  assert (trig_degree 1 v) as Hv. { apply (td_plus 1 (fun _ => / 2) (fun t => / 2 * cos t)); [apply td_const|apply (td_scal 1 (/ 2) (fun t => cos t)), td_cos1]. }
  assert (forall K g, (2 * K < N)%nat -> trig_degree K g -> trig_interpolant N g) as TI by (intros K g HK Hg; apply (ti_q0 N g K); auto; lia).
  assert (forall x, f x * u x = f x) as Efu by (intro; unfold u; ring). assert (forall x, v x * u x = v x) as Evu by (intro; unfold u; ring).
  destruct (C87_values N f f m ltac:(lia) ltac:(apply (TI m); auto; lia) Hf ltac:(lia)) as (V0 & V1 & _).
  destruct (C87_values N f u 0 ltac:(lia) ltac:(apply (TI m); auto; lia) Hu ltac:(lia)) as (_ & V2 & _).
  destruct (C87_values N v u 0 ltac:(lia) ltac:(apply (TI 1%nat); auto; lia) Hu ltac:(lia)) as (_ & V3 & _). cbn [wedge_explicit] in V0, V1, V2, V3. fold c in V0, V1, V2, V3.
  assert (forall g g', (forall x : R, g x = g' x) -> P1 c g = P1 c g') as P1e. { intros g g' H. unfold c. rewrite !P1_tab by lia. apply tab_ext. intros. apply RInt_ext. auto. }
  rewrite (P1e (fun x => f x * u x) f Efu) in V2. rewrite (P1e (fun x => v x * u x) v Evu) in V3.
  assert (P0 c (fun x => f x * f x) = P0 c v) as EP.
  { unfold c. rewrite !P0_tab by lia. apply tab_ext. intros j Hj. unfold f, v.
    assert (cos (2 * (INR m * xg N j)) = cos (xg N j)) as C2.
    { replace (2 * (INR m * xg N j)) with (- xg N j + 2 * INR j * PI). { rewrite cos_period. apply cos_neg. }
      unfold xg, hstep. rewrite Em, plus_INR, mult_INR. cbn [INR]. pose proof (pos_INR m). field. lra. }
    rewrite cos_2a_cos in C2. lra. }
  exists (P0 c f), (P0 c f), (P1 c u), (P0 c v), (P1 c f), (P1 c v), (P1 c (fun x => f x * f x)).
  assert (forall g, length (P0 c g) = N /\ length (P1 c g) = N) as LL by (intro g; unfold c; rewrite P0_tab, P1_tab, !length_tab by lia; auto).
  split; [apply LL|]. split; [apply LL|]. split; [apply LL|]. split; [now rewrite V0, EP|]. split; [exact V2|]. split; [exact V3|]. split; [exact V1|].
  intro X. apply (f_equal (fun l => nth 0 l 0)) in X. unfold c in X. rewrite !P1_tab in X by lia. rewrite !nth_tab in X by lia. rewrite xg_0 in X.
  assert (0 < INR m) as Pm by (apply lt_0_INR; lia).
  rewrite (is_RInt_unique _ _ _ _ (is_RInt_der (fun x => / 2 * x + / 2 * sin x) v 0 (xg N 1) ltac:(intro x; unfold v; auto_derive; [auto|ring]) ltac:(intro x; now apply (td_cont 1)))) in X.
  rewrite (is_RInt_unique _ _ _ _ (is_RInt_der (fun x => / 2 * x + sin (2 * (INR m * x)) / (4 * INR m)) (fun x => f x * f x) 0 (xg N 1)
     ltac:(intro x; unfold f; auto_derive; [auto|]; rewrite cos_2a_cos; field; lra) ltac:(intro x; apply (td_cont (m + m)); now apply td_mult))) in X.
  rewrite xg_S, xg_0, Rplus_0_l in X. replace (2 * (INR m * 0)) with 0 in X by ring. rewrite sin_0 in X.
  assert (sin (2 * (INR m * hstep N)) = - sin (hstep N)) as Es.
  { replace (2 * (INR m * hstep N)) with (- hstep N + 2 * INR 1 * PI). { rewrite sin_period. apply sin_neg. }
    unfold hstep. rewrite Em, plus_INR, mult_INR. cbn [INR]. field. pose proof (pos_INR m). lra. }
  rewrite Es in X. assert (0 < sin (hstep N)) as Ps.
  { apply sin_gt_0; [now apply hstep_pos; lia|]. unfold hstep. pose proof PI_RGT_0. assert (3 <= INR N) as H3 by (replace 3 with (INR 3) by (cbn; ring); apply le_INR; lia).
    apply (Rmult_lt_reg_r (INR N)); [lra|]. field_simplify; [nra|lra]. }
  assert (0 < sin (hstep N) / (4 * INR m)) as Q by (apply Rdiv_lt_0_compat; lra).
  unfold Rdiv in X, Q. rewrite Ropp_mult_distr_l_reverse in X. lra.
Qed.

(** the Toeplitz matrix of the default grid is the Hodge star of primal 0-forms *)
Lemma col_val n i : (i < n)%nat -> nth i (P1d (periodic_default n) (tot (alpha0 n))) 0 = RInt (alphaS n) (xg n i - hstep n / 2) (xg n i + hstep n / 2).
Proof.
  intro Hi. rewrite pd_cells by lia. unfold P1d, Grids1.proj1. cbn [edges_dual fst snd]. rewrite zipw_tab, nth_tab by auto.
  pose proof (xg_range n i Hi). pose proof (hstep_pos n ltac:(lia)). apply RInt_ext. intros x Hx. rewrite Rmin_left, Rmax_right in Hx by lra.
  unfold tot. rewrite alpha0_range by (lia || lra). reflexivity.
Qed.
Lemma len_col n : (1 <= n)%nat -> length (P1d (periodic_default n) (tot (alpha0 n))) = n.
Proof. intro. rewrite pd_cells by lia. unfold P1d, Grids1.proj1. cbn [edges_dual fst snd]. now rewrite zipw_tab, length_tab. Qed.
Lemma RInt_alphaS_period n a b : RInt (alphaS n) (a + 2 * PI) (b + 2 * PI) = RInt (alphaS n) a b.
Proof.
  rewrite <- (RInt_shift (alphaS n)) by (intro; apply alphaS_cont). apply RInt_ext. intros x _. replace (2 * PI) with (2 * IZR 1 * PI) by ring. apply alphaS_period.
Qed.
Theorem C87_hodge_toeplitz n f : (1 <= n)%nat -> length f = n ->
  let m := hodge_star_toeplitz n (periodic_default n) in
  length m = n /\ (forall i, (i < n)%nat -> length (nth i m []) = n) /\
  matvec m f = H0_periodic f /\
  forall i j, (i < n)%nat -> (j < n)%nat ->
    nth j (nth i m []) 0 = nth ((i + n - j) mod n) (P1d (periodic_default n) (tot (alpha0 n))) 0.
Proof.
  intros Hn Lf m. set (col := P1d (periodic_default n) (tot (alpha0 n))) in *. assert (length col = n) as Lc by now apply len_col.
  set (row := firstn 1 col ++ rev (skipn 1 col)). assert (length row = n) as Lr. { unfold row. rewrite app_length, rev_length, firstn_length, skipn_length. lia. }
  assert (forall k, (1 <= k < n)%nat -> nth k row 0 = nth (n - k) col 0) as Hrow.
  { intros k Hk. unfold row. rewrite app_nth2 by (rewrite firstn_length; lia). rewrite firstn_length, Lc. rewrite rev_nth by (rewrite skipn_length; lia). rewrite skipn_length, Lc.
    rewrite nth_skipn_. f_equal. lia. }
  assert (m = tab n (fun i => tab n (fun j => if Nat.leb j i then nth (i - j) col 0 else nth (j - i) row 0))) as Em.
  { unfold m, hodge_star_toeplitz. fold col. fold row. unfold toeplitz. now rewrite Lc, Lr. }
  assert (forall i j, (i < n)%nat -> (j < n)%nat -> nth j (nth i m []) 0 = nth ((i + n - j) mod n) col 0) as Ent.
  { intros i j Hi Hj. rewrite Em, nth_tab by auto. rewrite nth_tab by auto. destruct (Nat.leb_spec j i).
    - f_equal. replace (i + n - j)%nat with (i - j + 1 * n)%nat by lia. rewrite Nat.mod_add, Nat.mod_small; lia.
    - rewrite Hrow by lia. f_equal. rewrite Nat.mod_small; lia. }
  split; [rewrite Em; apply length_tab|]. split; [intros i Hi; rewrite Em, nth_tab by auto; apply length_tab|]. split; [|exact Ent].
  unfold matvec, H0_periodic. apply (nth_ext _ _ 0 0).
  { rewrite map_length, Em, length_tab. rewrite length_opH; lia. }
  intros i Hi. rewrite map_length, Em, length_tab in Hi. rewrite nth_opH by lia. rewrite RInt_interp, Lf.
  rewrite (nth_indep _ 0 (lsum (zipw Rmult [] f))) by (rewrite map_length, Em, length_tab; auto). rewrite (map_nth (fun r => lsum (zipw Rmult r f))).
  assert (nth i m [] = tab n (fun j => nth ((i + n - j) mod n) col 0)) as ->.
  { apply (nth_ext _ _ 0 0); [rewrite Em, nth_tab, !length_tab by auto; reflexivity|]. intros j Hj. rewrite Em, nth_tab, length_tab in Hj by auto. rewrite Ent, nth_tab by auto. reflexivity. }
  assert (f = tab n (fun j => nth j f 0)) as Ef by (symmetry; now apply tab_nth). rewrite Ef at 1. rewrite zipw_tab.
  rewrite lsum_tab, bsum_Rsum. apply Rsum_ext. intros j Hj. rewrite Rmult_comm. f_equal. unfold col. rewrite col_val by (apply Nat.mod_upper_bound; lia).
  destruct (Nat.le_gt_cases j i).
  - replace ((i + n - j) mod n)%nat with (i - j)%nat by (replace (i + n - j)%nat with (i - j + 1 * n)%nat by lia; rewrite Nat.mod_add, Nat.mod_small; lia).
    replace (xg n (i - j)) with (xg n i - xg n j) by (unfold xg; rewrite minus_INR by lia; ring). f_equal; ring.
  - replace ((i + n - j) mod n)%nat with (i + n - j)%nat by (rewrite Nat.mod_small; lia).
    replace (xg n (i + n - j)) with (xg n i - xg n j + 2 * PI) by (unfold xg, hstep; rewrite minus_INR, plus_INR by lia; field; apply INR_neq0; lia).
    symmetry; rewrite <- RInt_alphaS_period. f_equal; ring.
Qed.

(** switch(): the maps between primal and dual 0-forms carry the vertex samples of a resolved function to its
    samples at the dual vertices and back *)
Theorem C87_switch N q K : (1 <= N)%nat -> trig_degree K q -> (2 * K < N)%nat ->
  let c := periodic_default N in let '(s, t) := switch_periodic in
  s (P0 c q) = Ok (P0d c q) /\ t (P0d c q) = Ok (P0 c q).
Proof.
  intros HN Hq HK c. cbn [switch_periodic]. unfold c. rewrite P0_tab by auto.
  assert (P0d (periodic_default N) q = tab N (fun j => q (xg N j + hstep N / 2))) as ->. { rewrite pd_cells by lia. unfold P0d, proj0. cbn [verts_dual]. now rewrite map_tab. }
  rewrite !spec_ok by (rewrite length_tab; lia). split; f_equal.
  - rewrite (tab0 N q), (S_low N q K) by auto. apply tab_ext. intros. f_equal. ring.
  - rewrite (Sinv_low N q K) by auto. apply tab_ext. intros. f_equal. ring.
Qed.
Theorem C87_switch_chebyshev n : (2 <= n)%nat -> exists c, chebyshev_default n = Ok c /\ let '(s, t) := switch_cheb in
  (forall q, polynomial (n - 1) q -> s (P0 c q) = Ok (P0d c q)) /\
  (forall q, polynomial (n - 2) q -> t (P0d c q) = Ok (P0 c q)) /\
  (forall f, length f = (n - 1)%nat -> bind (t f) s = Ok f).
Proof. intro Hn. destruct (C30_interpolation n Hn) as (c & E & H1 & _ & H2 & _ & H3). exists c. cbn [switch_cheb]. auto. Qed.
(** "the operator is only invertible if they have the same size" is not sufficient: on an even periodic
    grid both kinds have the same size and the switch sends the alternating form to 0 *)
Theorem C87_switch_refuted N : (1 <= N)%nat -> Nat.even N = true -> let '(s, t) := switch_periodic in
  grid_N Periodic N 0 true = grid_N Periodic N 0 false /\
  exists f g, length f = N /\ length g = N /\ f <> g /\ s f = s g /\ t f = t g.
Proof.
  intros HN E. cbn [switch_periodic]. split; [reflexivity|]. exists (alternating N), (tab N (fun _ => 0)). assert (length (alternating N) = N) as L by apply length_tab.
  split; [auto|]. split; [apply length_tab|]. split.
  - intro X. apply (f_equal (fun l => nth 0 l 0)) in X. unfold alternating in X. rewrite !nth_tab in X by lia. cbn in X. lra.
  - rewrite !spec_ok by (rewrite ?L, ?length_tab; lia). destruct (zero_ops N HN) as (Z1 & Z2 & _). destruct (Sinv_alt N HN E) as (A1 & A2). now rewrite Z1, Z2, A1, A2.
Qed.

(** a concrete case of the hypotheses: three points, p = q = cos *)
Example C87_instance : let c := periodic_default 3 in let '(v0, v1, v2) := wedge_explicit in
  v1 (P0 c cos) (P1 c cos) = Ok (P1 c (fun x => cos x * cos x)) /\
  v2 (P0 c cos) (P1 c cos) = Ok (P1 c (fun x => / 2 + / 2 * cos x)) /\
  matvec (hodge_star_toeplitz 3 c) [1; 0; 2] = H0_periodic [1; 0; 2].
Proof.
  intro c. cbn [wedge_explicit]. assert (trig_interpolant 3 cos) as Hc by (apply (ti_q0 3 cos 1); try lia; apply td_cos1).
  destruct (C87_values 3 cos cos 1 ltac:(lia) Hc td_cos1 ltac:(lia)) as (_ & V1 & V2). cbn [wedge_explicit] in V1, V2. split; [exact V1|]. split.
  - apply (V2 _ 1%nat); [|lia|].
    + apply (td_plus 1 (fun _ => / 2) (fun t => / 2 * cos t)); [apply td_const|apply (td_scal 1 (/ 2) (fun t => cos t)), td_cos1].
    + rewrite !P0_tab by lia. apply tab_ext. intros j Hj.
      assert (cos (2 * xg 3 j) = cos (xg 3 j)) as C2.
      { replace (2 * xg 3 j) with (- xg 3 j + 2 * INR j * PI). { rewrite cos_period. apply cos_neg. } unfold xg, hstep. cbn [INR]. field. }
      rewrite cos_2a_cos in C2. lra.
  - destruct (C87_hodge_toeplitz 3 [1; 0; 2] ltac:(lia) eq_refl) as (_ & _ & H & _). exact H.
Qed.
