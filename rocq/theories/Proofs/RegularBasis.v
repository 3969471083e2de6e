(** Basis functions, reconstruction and Hodge star of the default regular grid (C22, C23). *)
From Coq Require Import ZArith Reals List Lia Lra Arith.
From Coq Require Import ZifyNat.
From Coquelicot Require Import Coquelicot.
From Verif Require Import Model.Num Model.Np Model.Spectral Model.Basis Model.Grids1 Model.Regular Spec.Trig Proofs.ListLemmas Proofs.Sums
  Proofs.Fourier Proofs.RIntLemmas Proofs.Kernels Proofs.Trig Proofs.Ops Proofs.BasisP Proofs.Grids1P Proofs.GridsThm Proofs.RingSums Proofs.Mirror Proofs.Symm Proofs.RegularP Proofs.PeriodicBasis.
Import ListNotations.
Local Open Scope R_scope.
Ltac Zify.zify_post_hook ::= Z.div_mod_to_equations.

(** integrals of functions symmetric about a point *)
Lemma RInt_refl (g : R -> R) c a b : (forall x, continuous g x) -> (forall x, g (2 * c - x) = g x) ->
  RInt g a b = RInt g (2 * c - b) (2 * c - a).
Proof.
  intros Hc Hs. assert (is_RInt g (2 * c - b) (2 * c - a) (RInt g a b)) as P.
  { apply (is_RInt_ext (fun y => scal (-1) (opp (g (-1 * y + 2 * c))))).
    - intros x _. unfold scal, opp. simpl. unfold mult. simpl. rewrite <- (Hs x). replace (-1 * x + 2 * c) with (2 * c - x) by ring. ring.
    - assert (is_RInt (fun y => scal (-1) (g (-1 * y + 2 * c))) (2 * c - b) (2 * c - a) (RInt g b a)) as Q.
      { apply (is_RInt_comp_lin g (-1) (2 * c) (2 * c - b) (2 * c - a)).
        replace (-1 * (2 * c - b) + 2 * c) with b by ring. replace (-1 * (2 * c - a) + 2 * c) with a by ring.
        apply (RInt_correct g). now apply ex_RInt_cont_all. }
      apply is_RInt_opp in Q. rewrite <- (opp_RInt_swap g b a) by (now apply ex_RInt_cont_all).
      apply (is_RInt_ext (fun y => opp (scal (-1) (g (-1 * y + 2 * c))))); [|exact Q].
      intros x _. unfold scal, opp. simpl. unfold mult. simpl. ring. }
  symmetry. now apply is_RInt_unique.
Qed.
Lemma RInt_half (g : R -> R) c d : (forall x, continuous g x) -> (forall x, g (2 * c - x) = g x) ->
  RInt g (c - d) c = / 2 * RInt g (c - d) (c + d) /\ RInt g c (c + d) = / 2 * RInt g (c - d) (c + d).
Proof.
  intros Hc Hs. assert (RInt g (c - d) c = RInt g c (c + d)) as E.
  { rewrite (RInt_refl g c) by auto. f_equal; ring. }
  assert (RInt g (c - d) c + RInt g c (c + d) = RInt g (c - d) (c + d)) as E2.
  { apply (RInt_Chasles g); now apply ex_RInt_cont_all. }
  lra.
Qed.

Section Reg.
Variable n : nat.
Hypothesis Hn : (2 <= n)%nat.
Let N := (2 * (n - 1))%nat.
Let HN : (0 < N)%nat. Proof. unfold N. lia. Qed.

Lemma hstep_N : hstep N = PI / INR (n - 1).
Proof. unfold hstep, N. rewrite mult_INR. simpl (INR 2). field. apply INR_neq0. lia. Qed.
Lemma xg_mid : xg N (n - 1) = PI.
Proof. unfold xg. rewrite hstep_N. field. apply INR_neq0. lia. Qed.
Lemma xg_ref i : (i <= N)%nat -> xg N (N - i) = 2 * PI - xg N i.
Proof. intro H. rewrite <- (xg_n N HN). unfold xg. rewrite minus_INR by auto. ring. Qed.
Lemma xg_le_PI i : (i < n)%nat -> 0 <= xg N i <= PI.
Proof. intro H. split; [rewrite <- (xg_0 N)|rewrite <- xg_mid]; apply xg_le; lia. Qed.
Lemma xg_lt_PI i : (i < n - 1)%nat -> 0 <= xg N i /\ xg N i + hstep N <= PI.
Proof. intro H. split; [rewrite <- (xg_0 N); apply xg_le; lia|]. rewrite <- xg_S, <- xg_mid. apply xg_le; lia. Qed.

Definition tdual (i : nat) : R := if Nat.eqb i 0 then 0 else if Nat.eqb i n then PI else xg N (i - 1) + hstep N / 2.
Lemma rd_cells : exists c, regular_default n = Ok c /\
  verts c = tab n (xg N) /\ edges c = (tab (n - 1) (xg N), tab (n - 1) (fun i => xg N (S i))) /\
  verts_dual c = tab (n - 1) (fun i => xg N i + hstep N / 2) /\
  edges_dual c = (tab n tdual, tab n (fun i => tdual (S i))).
Proof.
  unfold regular_default. destruct (regular_cells_tab n 0 PI Hn PI_RGT_0) as (c & E & Ec). exists c. split; [exact E|]. cbv zeta in Ec. subst c.
  cbn [verts edges verts_dual edges_dual].
  assert ((PI - 0) / INR (n - 1) = hstep N) as Eh by (rewrite hstep_N; f_equal; ring).
  assert (forall i, pp (n - 1) 0 PI i = xg N i) as Ep by (intro i; unfold pp; rewrite Eh; unfold xg; ring).
  assert (forall i, (if Nat.eqb i 0 then 0 else if Nat.eqb i n then PI else pp (n - 1) 0 PI (i - 1) + / 2 * ((PI - 0) / INR (n - 1))) = tdual i) as Et.
  { intro i. unfold tdual. rewrite Ep, Eh. destruct (Nat.eqb i 0), (Nat.eqb i n); auto. lra. }
  repeat split; repeat match goal with |- (_, _) = (_, _) => f_equal end; apply tab_ext; intros; rewrite ?Et, ?Ep, ?Eh; auto; lra.
Qed.

(** the bases, as sums of shifted kernels *)
Lemma kappa0_val i x : (i < n)%nat -> 0 <= x <= PI ->
  kappa0 n i x = Some (alphaS N (x - xg N i) + (if (Nat.eqb i 0 || Nat.eqb i (n - 1))%bool then 0 else alphaS N (x + xg N i))).
Proof.
  intros Hi Hx. pose proof (xg_le_PI i Hi). pose proof PI_RGT_0. unfold kappa0, alpha. replace (2 * n - 2)%nat with N by (unfold N; lia).
  replace (2 * PI / INR N * INR i) with (xg N i) by (unfold xg, hstep; ring).
  rewrite (alpha0_range N (x - xg N i)) by (auto; lra).
  destruct (Nat.eqb_spec i 0), (Nat.eqb_spec i (n - 1)); cbn [orb]; rewrite ?Rplus_0_r; auto.
  assert (0 < xg N i < PI) as Hxi.
  { pose proof (hstep_pos N HN). split; [|destruct (xg_lt_PI i ltac:(lia)); lra].
    assert (xg N 1 <= xg N i) by (apply xg_le; lia). unfold xg in *. simpl in *. lra. }
  rewrite (alpha0_range N (2 * PI - x - xg N i)) by (auto; lra). simpl. do 2 f_equal.
  rewrite <- alphaS_even. rewrite <- (alphaS_period N (x + xg N i) (-1)). f_equal. ring.
Qed.
Lemma kappad0_val i x : (i < n - 1)%nat -> 0 <= x <= PI ->
  kappad0 n i x = Some (alphaS N (x - (xg N i + hstep N / 2)) + alphaS N (x + (xg N i + hstep N / 2))).
Proof.
  intros Hi Hx. pose proof (xg_lt_PI i Hi). pose proof PI_RGT_0. pose proof (hstep_pos N HN). unfold kappad0, alpha. replace (2 * n - 2)%nat with N by (unfold N; lia).
  replace (2 * PI / INR N * (INR i + / 2)) with (xg N i + hstep N / 2) by (unfold xg, hstep; field; apply INR_neq0; auto).
  rewrite !alpha0_range by (auto; lra). simpl. do 2 f_equal.
  rewrite <- alphaS_even. rewrite <- (alphaS_period N (x + _) (-1)). f_equal. ring.
Qed.
Lemma beta_ref c x : betaS N (2 * PI - x - c) = betaS N (x + c).
Proof. rewrite <- betaS_even. rewrite <- (betaS_period N (x + c) (-1)). f_equal. ring. Qed.
Lemma kappa1s_val i x : kappa1_symm n i x = betaS N (x - (xg N i + hstep N / 2)) + betaS N (x + (xg N i + hstep N / 2)).
Proof.
  unfold kappa1_symm, beta. replace (2 * n - 2)%nat with N by (unfold N; lia). rewrite !beta0_S by auto.
  replace (2 * PI / INR N * (INR i + / 2)) with (xg N i + hstep N / 2) by (unfold xg, hstep; field; apply INR_neq0; auto).
  f_equal. apply beta_ref.
Qed.
Lemma kappad1s_val i x : kappad1_symm n i x = betaS N (x - xg N i) + betaS N (x + xg N i).
Proof.
  unfold kappad1_symm, beta. replace (2 * n - 2)%nat with N by (unfold N; lia). rewrite !beta0_S by auto.
  replace (2 * PI / INR N * INR i) with (xg N i) by (unfold xg, hstep; ring).
  f_equal. apply beta_ref.
Qed.

(** folded interpolants: K is alphaS N or betaS N *)
Section Fold.
Variable K : R -> R.
Hypothesis Ke : forall x, K (- x) = K x.
Hypothesis Kp : forall x k, K (x + 2 * IZR k * PI) = K x.
Definition conv (v : list R) (x : R) := Rsum N (fun m => nth m v 0 * K (x - xg N m)).
Lemma conv_mirror0 a x : length a = n -> conv (mirror0 1 a) x =
  Rsum n (fun i => nth i a 0 * (K (x - xg N i) + (if (Nat.eqb i 0 || Nat.eqb i (n - 1))%bool then 0 else K (x + xg N i)))).
Proof.
  intro L. unfold conv. unfold N at 1. rewrite <- L. rewrite (Rsum_mirror0 1 a (fun m => K (x - xg N m))) by lia. rewrite L. fold N.
  apply Rsum_ext. intros i Hi. do 2 f_equal. destruct (_ || _)%bool; auto. rewrite Rmult_1_l. rewrite xg_ref by (unfold N; lia).
  rewrite <- (Kp (x + xg N i) (-1)). f_equal. ring.
Qed.
Lemma conv_mirror1 s a x : length a = (n - 1)%nat -> conv (mirror1 s a) (x - hstep N / 2) =
  Rsum (n - 1) (fun i => nth i a 0 * (K (x - (xg N i + hstep N / 2)) + s * K (x + (xg N i + hstep N / 2)))).
Proof.
  intro L. unfold conv. unfold N at 1. rewrite <- L. rewrite (Rsum_mirror1 s a (fun m => K (x - hstep N / 2 - xg N m))). rewrite L. fold N.
  apply Rsum_ext. intros i Hi. f_equal. f_equal; [f_equal; ring|]. f_equal.
  replace (N - 1 - i)%nat with (N - S i)%nat by lia. rewrite xg_ref, xg_S by (unfold N; lia).
  rewrite <- (Kp (x + (xg N i + hstep N / 2)) (-1)). f_equal. field.
Qed.
Lemma conv_period v x : conv v (x + 2 * PI) = conv v x.
Proof. unfold conv. apply Rsum_ext. intros. f_equal. rewrite <- (Kp (x - _) 1). f_equal. ring. Qed.
Lemma conv_even0 a x : length a = n -> conv (mirror0 1 a) (- x) = conv (mirror0 1 a) x.
Proof.
  intro L. rewrite !conv_mirror0 by auto. apply Rsum_ext. intros i Hi. f_equal.
  destruct (Nat.eqb_spec i 0) as [->|]; [cbn [orb]; rewrite xg_0; rewrite <- (Ke (- x - 0)); f_equal; f_equal; ring|].
  destruct (Nat.eqb_spec i (n - 1)) as [->|]; cbn [orb].
  - rewrite !Rplus_0_r, xg_mid. rewrite <- (Ke (- x - PI)), <- (Kp (x - PI) 1). f_equal. ring.
  - rewrite Rplus_comm. f_equal; [rewrite <- Ke|rewrite <- Ke]; f_equal; ring.
Qed.
Lemma conv_even1 s a x : s * s = 1 -> length a = (n - 1)%nat -> conv (mirror1 s a) (- x - hstep N / 2) = s * conv (mirror1 s a) (x - hstep N / 2).
Proof.
  intros Hs L. rewrite !conv_mirror1 by auto. rewrite <- Rsum_scal. apply Rsum_ext. intros i Hi.
  rewrite <- (Ke (- x - (xg N i + hstep N / 2))), <- (Ke (- x + (xg N i + hstep N / 2))).
  replace (- (- x - (xg N i + hstep N / 2))) with (x + (xg N i + hstep N / 2)) by ring.
  replace (- (- x + (xg N i + hstep N / 2))) with (x - (xg N i + hstep N / 2)) by ring.
  replace (K (x + (xg N i + hstep N / 2))) with ((s * s) * K (x + (xg N i + hstep N / 2))) at 1 by (rewrite Hs; ring). ring.
Qed.
End Fold.

Lemma len_m0 s (a : list R) : length a = n -> length (mirror0 s a) = N.
Proof. intro L. rewrite length_mirror0' by lia. now rewrite L. Qed.
Lemma len_m1 s (a : list R) : length a = (n - 1)%nat -> length (mirror1 s a) = N.
Proof. intro L. rewrite length_mirror1. now rewrite L. Qed.
Lemma interp_conv0 a x : length a = n -> interp (mirror0 1 a) x = conv (alphaS N) (mirror0 1 a) x.
Proof. intro L. unfold interp. now rewrite (len_m0 1 a L). Qed.
Lemma interp_conv1 s a x : length a = (n - 1)%nat -> interp (mirror1 s a) x = conv (alphaS N) (mirror1 s a) x.
Proof. intro L. unfold interp. now rewrite (len_m1 s a L). Qed.
Lemma histo_conv0 a x : length a = n -> histo (mirror0 1 a) x = conv (betaS N) (mirror0 1 a) x.
Proof. intro L. unfold histo. now rewrite (len_m0 1 a L). Qed.
Lemma histo_conv1 s a x : length a = (n - 1)%nat -> histo (mirror1 s a) x = conv (betaS N) (mirror1 s a) x.
Proof. intro L. unfold histo. now rewrite (len_m1 s a L). Qed.

Definition R_regular := R_form (B_regular n) (sizes_interval n).
(** f/A_diag *)
Definition divA (a : list R) : list R := tab n (fun i => nth i a 0 / Aw n i).
Lemma Rr0 a x : length a = n -> 0 <= x <= PI -> R_regular 0 true a x = Some (interp (mirror0 1 a) x).
Proof.
  intros L Hx. unfold R_regular. rewrite (R_form_some _ _ 0 true a x (fun i => alphaS N (x - xg N i) + (if (Nat.eqb i 0 || Nat.eqb i (n - 1))%bool then 0 else alphaS N (x + xg N i)))).
  - f_equal. rewrite interp_conv0 by auto. rewrite (conv_mirror0 (alphaS N) (alphaS_even N) (alphaS_period N)) by auto. reflexivity.
  - intros i Hi. now apply kappa0_val.
Qed.
Lemma Rr0d a x : length a = (n - 1)%nat -> 0 <= x <= PI -> R_regular 0 false a x = Some (interp (mirror1 1 a) (x - hstep N / 2)).
Proof.
  intros L Hx. unfold R_regular. rewrite (R_form_some _ _ 0 false a x (fun i => alphaS N (x - (xg N i + hstep N / 2)) + alphaS N (x + (xg N i + hstep N / 2)))).
  - f_equal. rewrite interp_conv1 by auto. rewrite (conv_mirror1 (alphaS N) (alphaS_even N) (alphaS_period N)) by auto. apply Rsum_ext. intros. now rewrite Rmult_1_l.
  - intros i Hi. now apply kappad0_val.
Qed.
Lemma Rr1 a x : length a = (n - 1)%nat -> R_regular 1 true a x = Some (histo (mirror1 1 a) (x - hstep N / 2)).
Proof.
  intros L. unfold R_regular. rewrite (R_form_some _ _ 1 true a x (fun i => betaS N (x - (xg N i + hstep N / 2)) + betaS N (x + (xg N i + hstep N / 2)))).
  - f_equal. rewrite histo_conv1 by auto. rewrite (conv_mirror1 (betaS N) (betaS_even N) (betaS_period N)) by auto. apply Rsum_ext. intros. now rewrite Rmult_1_l.
  - intros i Hi. simpl. unfold somef. now rewrite kappa1s_val.
Qed.
Lemma len_divA a : length (divA a) = n. Proof. apply length_tab. Qed.
Lemma Rr1d a x : length a = n -> R_regular 1 false a x = Some (histo (mirror0 1 (divA a)) x).
Proof.
  intros L. unfold R_regular. rewrite (R_form_some _ _ 1 false a x (fun i => betaS N (x - xg N i) + betaS N (x + xg N i))).
  - f_equal. rewrite histo_conv0 by (apply len_divA). rewrite (conv_mirror0 (betaS N) (betaS_even N) (betaS_period N)) by (apply len_divA). apply Rsum_ext.
    intros i Hi. unfold divA. simpl in Hi. rewrite nth_tab by auto. unfold Aw. destruct (Nat.eqb_spec i 0) as [->|]; cbn [orb].
    + rewrite xg_0, Rminus_0_r, !Rplus_0_r. field.
    + destruct (Nat.eqb_spec i (n - 1)) as [->|]; [|field].
      rewrite xg_mid. replace (betaS N (x + PI)) with (betaS N (x - PI)) by (rewrite <- (betaS_period N (x - PI) 1); f_equal; ring). field.
  - intros i Hi. simpl. unfold somef. now rewrite kappad1s_val.
Qed.

(** Hodge stars *)
Lemma fm_dH_real v : (0 < length v)%nat -> fm (dH (length v)) (cplxv v) = cplxv (opH v).
Proof.
  intro L. rewrite opH_fm by auto. rewrite real_fm by apply symD_dH. apply fm_ext. intros k _. now rewrite rl_real.
Qed.
Lemma fm_dHi_real v : (0 < length v)%nat -> fm (dHi (length v)) (cplxv v) = cplxv (opHinv v).
Proof.
  intro L. rewrite opHinv_fm by auto. rewrite real_fm by (apply symD_inv, symD_dH). apply fm_ext. intros k _. rewrite rl_real; [reflexivity|].
  apply Im_Cinv_R.
Qed.
Lemma firstn_tab {A} k m (f : nat -> A) : (k <= m)%nat -> firstn k (tab m f) = tab k f.
Proof. intro H. unfold tab. rewrite firstn_map. f_equal. clear - H. revert m H. generalize 0%nat. induction k as [|k IH]; intros s [|m] H; simpl; auto; try lia. f_equal. apply IH. lia. Qed.
Lemma H0r_real a : length a = n -> H0_regular (cplxv a) = Ok (cplxv (tab n (fun i => nth i (opH (mirror0 1 a)) 0 * Aw n i))).
Proof.
  intro L. rewrite H0_regular_val by (rewrite length_cplxv; lia). rewrite length_cplxv, L. f_equal.
  rewrite <- cplxv_mirror0. fold N. rewrite <- (len_m0 1 a L). rewrite fm_dH_real by (rewrite len_m0; auto).
  rewrite (list_tab 0 (opH (mirror0 1 a))). rewrite length_opH by (rewrite len_m0; auto). rewrite (len_m0 1 a L).
  unfold cplxv. rewrite !map_tab. unfold unmirror0. rewrite length_tab. replace (N / 2 + 1)%nat with n by (unfold N; lia).
  rewrite firstn_tab by (unfold N; lia). unfold vmul. rewrite zipw_tab. apply tab_ext. intros i Hi. rewrite nth_tab by (unfold N; lia). change (@nmul C NumC) with Cmult. now rewrite RtoC_mult.
Qed.
Lemma vdiv_divA a : length a = n -> vdiv (cplxv a) (cplxv (tab n (Aw n))) = cplxv (divA a).
Proof.
  intro L. rewrite (list_tab 0 a), L. unfold cplxv, divA. rewrite !map_tab. unfold vdiv. rewrite zipw_tab. apply tab_ext. intros i Hi.
  rewrite nth_tab by auto. rewrite <- RtoC_div by apply Aw_neq0. reflexivity.
Qed.
Lemma H1dr_real a : length a = n -> H1d_regular (cplxv a) = Ok (cplxv (tab n (fun i => nth i (opHinv (mirror0 1 (divA a))) 0))).
Proof.
  intro L. rewrite H1d_regular_val by (rewrite length_cplxv; lia). rewrite length_cplxv, L. f_equal. rewrite vdiv_divA by auto.
  pose proof (len_divA a) as Ld. set (b := divA a) in *.
  rewrite <- cplxv_mirror0. fold N. rewrite <- (len_m0 1 b Ld). rewrite fm_dHi_real by (rewrite len_m0; auto).
  rewrite (list_tab 0 (opHinv (mirror0 1 b))). rewrite length_opHinv by (rewrite len_m0; auto). rewrite (len_m0 1 b Ld).
  unfold cplxv. rewrite !map_tab. unfold unmirror0. rewrite length_tab. replace (N / 2 + 1)%nat with n by (unfold N; lia).
  rewrite firstn_tab by (unfold N; lia). apply tab_ext. intros i Hi. now rewrite nth_tab by (unfold N; lia).
Qed.
Lemma H0dr_real a : length a = (n - 1)%nat -> H0d_regular (cplxv a) = Ok (cplxv (tab (n - 1) (fun i => nth i (opH (mirror1 1 a)) 0))).
Proof.
  intro L. rewrite H0d_regular_val by (rewrite length_cplxv; lia). rewrite length_cplxv, L. f_equal.
  rewrite <- cplxv_mirror1. fold N. rewrite <- (len_m1 1 a L). rewrite fm_dH_real by (rewrite len_m1; auto).
  rewrite (list_tab 0 (opH (mirror1 1 a))). rewrite length_opH by (rewrite len_m1; auto). rewrite (len_m1 1 a L).
  unfold cplxv. rewrite !map_tab. unfold unmirror1. rewrite length_tab. replace (N / 2)%nat with (n - 1)%nat by (unfold N; lia).
  rewrite firstn_tab by (unfold N; lia). apply tab_ext. intros i Hi. now rewrite nth_tab by (unfold N; lia).
Qed.
Lemma H1r_real a : length a = (n - 1)%nat -> H1_regular (cplxv a) = Ok (cplxv (tab (n - 1) (fun i => nth i (opHinv (mirror1 1 a)) 0))).
Proof.
  intro L. rewrite H1_regular_val by (rewrite length_cplxv; lia). rewrite length_cplxv, L. f_equal.
  rewrite <- cplxv_mirror1. fold N. rewrite <- (len_m1 1 a L). rewrite fm_dHi_real by (rewrite len_m1; auto).
  rewrite (list_tab 0 (opHinv (mirror1 1 a))). rewrite length_opHinv by (rewrite len_m1; auto). rewrite (len_m1 1 a L).
  unfold cplxv. rewrite !map_tab. unfold unmirror1. rewrite length_tab. replace (N / 2)%nat with (n - 1)%nat by (unfold N; lia).
  rewrite firstn_tab by (unfold N; lia). apply tab_ext. intros i Hi. now rewrite nth_tab by (unfold N; lia).
Qed.

(** integrals over the dual cells of functions even about 0 and pi *)
Lemma RInt_dual (g : R -> R) j : (j < n)%nat -> (forall x, continuous g x) -> (forall x, g (- x) = g x) -> (forall x, g (x + 2 * PI) = g x) ->
  RInt g (tdual j) (tdual (S j)) = Aw n j * RInt g (xg N j - hstep N / 2) (xg N j + hstep N / 2).
Proof.
  intros Hj Hc He Hp. unfold tdual, Aw. change (Nat.eqb (S j) 0) with false. cbv iota. replace (S j - 1)%nat with j by lia.
  destruct (Nat.eqb_spec j 0) as [->|Hj0]; cbn [orb].
  - destruct (Nat.eqb_spec 1 n); [lia|]. rewrite xg_0.
    destruct (RInt_half g 0 (hstep N / 2) Hc) as [_ E]; [intro x; rewrite <- He; f_equal; ring|].
    etransitivity; [|etransitivity; [exact E|]]; [|f_equal; f_equal; ring]. f_equal; ring.
  - destruct (Nat.eqb_spec j n); [lia|]. destruct (Nat.eqb_spec j (n - 1)) as [Ej|Ej].
    + destruct (Nat.eqb_spec (S j) n); [|lia]. 
      destruct (RInt_half g PI (hstep N / 2) Hc) as [E _]; [intro x; rewrite <- He, <- Hp; f_equal; ring|].
      rewrite Ej, xg_mid. etransitivity; [|exact E]. f_equal.
      rewrite <- xg_mid. replace (n - 1)%nat with (S (n - 1 - 1)) at 2 by lia. rewrite xg_S. field.
    + destruct (Nat.eqb_spec (S j) n); [lia|]. rewrite Rmult_1_l. f_equal. replace j with (S (j - 1)) at 2 by lia. rewrite xg_S. field.
Qed.
Lemma tdual_range j : (j < n)%nat -> 0 <= tdual j <= tdual (S j) /\ tdual (S j) <= PI.
Proof.
  intro Hj. pose proof PI_RGT_0. pose proof (hstep_pos N HN). unfold tdual. change (Nat.eqb (S j) 0) with false. cbv iota. replace (S j - 1)%nat with j by lia.
  pose proof (xg_le_PI j Hj).
  destruct (Nat.eqb_spec (S j) n).
  - destruct (Nat.eqb_spec j 0); [lra|]. destruct (Nat.eqb_spec j n); [lia|]. destruct (xg_lt_PI (j - 1) ltac:(lia)). lra.
  - destruct (xg_lt_PI j ltac:(lia)). destruct (Nat.eqb_spec j 0); [lra|]. destruct (Nat.eqb_spec j n); [lia|].
    destruct (xg_lt_PI (j - 1) ltac:(lia)). pose proof (xg_S N (j - 1)) as E. replace (S (j - 1)) with j in E by lia. lra.
Qed.
End Reg.
