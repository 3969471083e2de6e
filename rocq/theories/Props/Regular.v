(** C22-C23: the regular grid. *)
From Coq Require Import ZArith Reals List Lia Lra Arith.
From Coq Require Import ZifyNat.
From Coquelicot Require Import Coquelicot.
From Verif Require Import Model.Num Model.Np Model.Spectral Model.Basis Model.Grids1 Model.Regular Spec.Trig Proofs.ListLemmas Proofs.Sums
  Proofs.Fourier Proofs.RIntLemmas Proofs.Kernels Proofs.Trig Proofs.Ops Proofs.BasisP Proofs.Grids1P Proofs.GridsThm Proofs.RingSums Proofs.Mirror Proofs.Symm Proofs.RegularP Proofs.PeriodicBasis Proofs.RegularBasis.
Import ListNotations.
Local Open Scope R_scope.
Ltac Zify.zify_post_hook ::= Z.div_mod_to_equations.

(** C22 (complex arrays; n = length f for H0/H1d, n = length f + 1 for H0d/H1) *)
Theorem C22_regular_hodge_inverse (f : list C) :
  ((2 <= length f)%nat -> bind (H0_regular f) H1d_regular = Ok f /\ bind (H1d_regular f) H0_regular = Ok f) /\
  ((1 <= length f)%nat -> bind (H0d_regular f) H1_regular = Ok f /\ bind (H1_regular f) H0d_regular = Ok f).
Proof. split; intro L; (split; [first [now apply reg_inv0|now apply reg_inv1]|first [now apply reg_inv0'|now apply reg_inv1']]). Qed.
Example C22_instance : bind (H0_regular [RtoC 1; RtoC 5; Ci]) H1d_regular = Ok [RtoC 1; RtoC 5; Ci].
Proof. apply C22_regular_hodge_inverse. simpl. lia. Qed.

(** C23 *)
Theorem C23_regular_cardinal n i j : (2 <= n)%nat -> exists c, regular_default n = Ok c /\
  ((i < n)%nat -> (j < n)%nat -> kappa0 n i (nth j (verts c) 0) = Some (if Nat.eqb i j then 1 else 0)) /\
  ((i < n - 1)%nat -> (j < n - 1)%nat -> kappad0 n i (nth j (verts_dual c) 0) = Some (if Nat.eqb i j then 1 else 0)) /\
  ((i < n - 1)%nat -> (j < n - 1)%nat ->
     RInt (kappa1_symm n i) (nth j (fst (edges c)) 0) (nth j (snd (edges c)) 0) = if Nat.eqb i j then 1 else 0) /\
  ((i < n)%nat -> (j < n)%nat ->
     RInt (kappad1_symm n i) (nth j (fst (edges_dual c)) 0) (nth j (snd (edges_dual c)) 0) = if Nat.eqb i j then 1 else 0).
Proof.
  intro Hn. destruct (rd_cells n Hn) as (c & E & Ev & Ee & Evd & Eed). exists c. split; [exact E|].
  set (N := (2 * (n - 1))%nat) in *. assert (0 < N)%nat as HN by (unfold N; lia). pose proof (hstep_pos N HN).
  assert (INR N <> 0) by now apply INR_neq0.
  assert (forall a b, alphaS N (xg N a + xg N b) = if Z.eqb ((Z.of_nat a + Z.of_nat b) mod Z.of_nat N) 0 then 1 else 0) as Ap.
  { intros a b. rewrite <- alphaS_grid by auto. f_equal. unfold xg. rewrite plus_IZR, <- !INR_IZR_INZ. ring. }
  repeat split; intros Hi Hj.
  - rewrite Ev, nth_tab by auto. rewrite kappa0_val by (auto; now apply xg_le_PI). f_equal. fold N.
    rewrite alphaS_card by (unfold N; lia). rewrite (Nat.eqb_sym j i), Ap.
    destruct (Nat.eqb_spec i 0), (Nat.eqb_spec i (n - 1)); cbn [orb]; try ring.
    destruct (Z.eqb_spec ((Z.of_nat j + Z.of_nat i) mod Z.of_nat N) 0); [|ring]. exfalso.
    destruct (Zmod_range N (Z.of_nat j + Z.of_nat i) HN e); unfold N in *; lia.
  - rewrite Evd, nth_tab by auto. pose proof (xg_lt_PI n Hn j Hj) as [Xa Xb]. fold N in Xa, Xb. rewrite kappad0_val by (auto; fold N; lra). f_equal. fold N.
    replace (xg N j + hstep N / 2 - (xg N i + hstep N / 2)) with (xg N j - xg N i) by ring.
    replace (xg N j + hstep N / 2 + (xg N i + hstep N / 2)) with (xg N j + xg N (S i)) by (rewrite xg_S; field).
    rewrite alphaS_card by (unfold N; lia). rewrite (Nat.eqb_sym j i), Ap.
    destruct (Z.eqb_spec ((Z.of_nat j + Z.of_nat (S i)) mod Z.of_nat N) 0); [|ring]. exfalso.
    destruct (Zmod_range N (Z.of_nat j + Z.of_nat (S i)) HN e); unfold N in *; lia.
  - rewrite Ee. cbn [fst snd]. rewrite !nth_tab by auto.
    rewrite (RInt_ext _ (fun x => betaS N (x - (xg N i + hstep N / 2)) + betaS N (x - - (xg N i + hstep N / 2)))).
    2:{ intros x _. rewrite kappa1s_val by auto. fold N. f_equal. f_equal. ring. }
    rewrite RInt_plus_R by (apply ex_RInt_cont_all; intro x; apply (continuous_comp (fun x => x - _) (betaS N)); [apply continuous_derivable; auto_derive; auto|apply betaS_cont]).
    replace (xg N (S j)) with (xg N j + hstep N / 2 + hstep N / 2) by (rewrite xg_S; field).
    replace (xg N j) with (xg N j + hstep N / 2 - hstep N / 2) at 1 3 by ring.
    rewrite (is_RInt_unique _ _ _ _ (RInt_betaS_shift N (xg N i + hstep N / 2) (xg N j + hstep N / 2) HN)).
    rewrite (is_RInt_unique _ _ _ _ (RInt_betaS_shift N (- (xg N i + hstep N / 2)) (xg N j + hstep N / 2) HN)).
    replace (xg N j + hstep N / 2 - (xg N i + hstep N / 2)) with (xg N j - xg N i) by ring.
    replace (xg N j + hstep N / 2 - - (xg N i + hstep N / 2)) with (xg N j + xg N (S i)) by (rewrite xg_S; field).
    rewrite alphaS_card by (unfold N; lia). rewrite (Nat.eqb_sym j i), Ap.
    destruct (Z.eqb_spec ((Z.of_nat j + Z.of_nat (S i)) mod Z.of_nat N) 0); [|apply Rplus_0_r]. exfalso.
    destruct (Zmod_range N (Z.of_nat j + Z.of_nat (S i)) HN e); unfold N in *; lia.
  - rewrite Eed. cbn [fst snd]. rewrite !nth_tab by auto.
    assert (forall x, continuous (kappad1_symm n i) x) as Hc.
    { intro x. apply (continuous_ext (fun x => betaS N (x - xg N i) + betaS N (x + xg N i))).
      - intro y. now rewrite kappad1s_val.
      - apply (continuous_plus (fun x => betaS N (x - xg N i)) (fun x => betaS N (x + xg N i)));
         [apply (continuous_comp (fun x => x - _) (betaS N))|apply (continuous_comp (fun x => x + _) (betaS N))]; try apply betaS_cont; apply continuous_derivable; auto_derive; auto. }
    rewrite RInt_dual; auto.
    2:{ intro x. rewrite !kappad1s_val by auto. fold N. rewrite Rplus_comm. f_equal; rewrite <- betaS_even; f_equal; ring. }
    2:{ intro x. rewrite !kappad1s_val by auto. fold N. f_equal; [rewrite <- (betaS_period N (x - xg N i) 1)|rewrite <- (betaS_period N (x + xg N i) 1)]; f_equal; ring. }
    fold N. rewrite (RInt_ext _ (fun x => betaS N (x - xg N i) + betaS N (x - - xg N i))).
    2:{ intros x _. rewrite kappad1s_val by auto. fold N. f_equal. f_equal. ring. }
    rewrite RInt_plus_R by (apply ex_RInt_cont_all; intro x; apply (continuous_comp (fun x => x - _) (betaS N)); [apply continuous_derivable; auto_derive; auto|apply betaS_cont]).
    rewrite !(is_RInt_unique _ _ _ _ (RInt_betaS_shift N _ (xg N j) HN)).
    replace (xg N j - - xg N i) with (xg N j + xg N i) by ring. rewrite alphaS_card by (unfold N; lia). rewrite Ap, (Nat.eqb_sym j i). unfold Aw.
    destruct (Z.eqb_spec ((Z.of_nat j + Z.of_nat i) mod Z.of_nat N) 0).
    + assert (Z.of_nat j + Z.of_nat i = 0 \/ Z.of_nat j + Z.of_nat i = Z.of_nat N)%Z as Hz.
      { destruct (Zmod_range N (Z.of_nat j + Z.of_nat i) HN e) as [|[|]]; unfold N in *; lia. }
      destruct (Nat.eqb_spec i j); [|unfold N in *; lia]. destruct (Nat.eqb_spec j 0), (Nat.eqb_spec j (n - 1)); cbn [orb]; try lra. unfold N in *; lia.
    + destruct (Nat.eqb_spec j 0), (Nat.eqb_spec j (n - 1)), (Nat.eqb_spec i j); cbn [orb]; subst; try lra; exfalso; apply n0.
      * reflexivity.
      * reflexivity.
      * replace (Z.of_nat (n - 1) + Z.of_nat (n - 1))%Z with (Z.of_nat N) by (unfold N; lia). apply Z.mod_same. lia.
Qed.
(** P after R, for arrays of the right lengths *)
Theorem C23_projection_reconstruction n (a b : list R) : (2 <= n)%nat -> length a = n -> length b = (n - 1)%nat ->
  exists c, regular_default n = Ok c /\
  let R := R_form (B_regular n) (sizes_interval n) in
  P0 c (R 0%nat true a) = map Some a /\
  P0d c (R 0%nat false b) = map Some b /\
  P1 c (tot (R 1%nat true b)) = b /\
  P1d c (tot (R 1%nat false a)) = a.
Proof.
  intros Hn La Lb. destruct (rd_cells n Hn) as (c & E & Ev & Ee & Evd & Eed). exists c. split; [exact E|]. cbv zeta. fold (R_regular n).
  set (N := (2 * (n - 1))%nat) in *. assert (0 < N)%nat as HN by (unfold N; lia). pose proof (hstep_pos N HN).
  pose proof (len_m0 n Hn 1 a La) as Lma. pose proof (len_m1 n 1 b Lb) as Lmb. fold N in Lma, Lmb.
  unfold P0, P0d, P1, P1d, proj0, proj1. rewrite Ev, Ee, Evd, Eed. cbn [fst snd]. rewrite !map_tab, !zipw_tab.
  repeat split; [apply tab_some|apply tab_some|apply tab_nth|apply tab_nth]; auto; intros j Hj.
  - rewrite Rr0 by (auto; now apply xg_le_PI). f_equal. fold N. pose proof (interp_grid (mirror0 1 a) j) as G. rewrite Lma in G. rewrite G by (unfold N; lia).
    rewrite nth_mirror0 by lia. destruct (Nat.ltb_spec j (length a)); [reflexivity|lia].
  - destruct (xg_lt_PI n Hn j Hj) as [Xa Xb]. fold N in Xa, Xb. rewrite Rr0d by (auto; fold N; lra). f_equal. fold N.
    replace (xg N j + hstep N / 2 - hstep N / 2) with (xg N j) by ring.
    pose proof (interp_grid (mirror1 1 b) j) as G. rewrite Lmb in G. rewrite G by (unfold N; lia).
    rewrite nth_mirror1 by lia. destruct (Nat.ltb_spec j (length b)); [reflexivity|lia].
  - rewrite (RInt_ext _ (fun x => histo (mirror1 1 b) (x - hstep N / 2))).
    2:{ intros x _. unfold tot. now rewrite Rr1. }
    rewrite RInt_shift_histo, xg_S. replace (xg N j + hstep N - hstep N / 2) with (xg N j + hstep N / 2) by field.
    pose proof (is_RInt_histo_cell (mirror1 1 b) (xg N j)) as Hc. rewrite Lmb in Hc. rewrite (is_RInt_unique _ _ _ _ (Hc HN)).
    pose proof (interp_grid (mirror1 1 b) j) as G. rewrite Lmb in G. rewrite G by (unfold N; lia).
    rewrite nth_mirror1 by lia. destruct (Nat.ltb_spec j (length b)); [reflexivity|lia].
  - pose proof (len_divA n a) as Ld. pose proof (len_m0 n Hn 1 (divA n a) Ld) as Lmd. fold N in Lmd.
    rewrite (RInt_ext _ (histo (mirror0 1 (divA n a)))).
    2:{ intros x _. unfold tot. now rewrite Rr1d. }
    rewrite RInt_dual; auto.
    2:{ intro x. apply histo_cont. }
    2:{ intro x. rewrite !(histo_conv0 n Hn) by auto. apply (conv_even0 n Hn _ (betaS_even N) (betaS_period N)). auto. }
    2:{ intro x. rewrite !(histo_conv0 n Hn) by auto. apply (conv_period n _ (betaS_period N)). }
    fold N. pose proof (is_RInt_histo_cell (mirror0 1 (divA n a)) (xg N j)) as Hc. rewrite Lmd in Hc. rewrite (is_RInt_unique _ _ _ _ (Hc HN)).
    pose proof (interp_grid (mirror0 1 (divA n a)) j) as G. rewrite Lmd in G. rewrite G by (unfold N; lia).
    rewrite nth_mirror0 by lia. rewrite Ld. destruct (Nat.ltb_spec j n); [|lia]. unfold divA. rewrite nth_tab by auto. field. apply Aw_neq0.
Qed.
(** the Hodge stars are P after R (the results are real arrays stored as complex ones) *)
Theorem C23_hodge_is_P_R n (a b : list R) : (2 <= n)%nat -> length a = n -> length b = (n - 1)%nat ->
  exists c, regular_default n = Ok c /\
  let R := R_form (B_regular n) (sizes_interval n) in
  H0_regular (cplxv a) = Ok (cplxv (P1d c (tot (R 0%nat true a)))) /\
  H0d_regular (cplxv b) = Ok (cplxv (P1 c (tot (R 0%nat false b)))) /\
  (exists v, P0d c (R 1%nat true b) = map Some v /\ H1_regular (cplxv b) = Ok (cplxv v)) /\
  (exists v, P0 c (R 1%nat false a) = map Some v /\ H1d_regular (cplxv a) = Ok (cplxv v)).
Proof.
  intros Hn La Lb. destruct (rd_cells n Hn) as (c & E & Ev & Ee & Evd & Eed). exists c. split; [exact E|]. cbv zeta. fold (R_regular n).
  set (N := (2 * (n - 1))%nat) in *. assert (0 < N)%nat as HN by (unfold N; lia). pose proof (hstep_pos N HN).
  pose proof (len_m0 n Hn 1 a La) as Lma. pose proof (len_m1 n 1 b Lb) as Lmb. fold N in Lma, Lmb.
  unfold P0, P0d, P1, P1d, proj0, proj1. rewrite Ev, Ee, Evd, Eed. cbn [fst snd]. rewrite !map_tab, !zipw_tab. repeat split.
  - rewrite (H0r_real n Hn) by auto. do 2 f_equal. apply tab_ext. intros j Hj.
    rewrite (RInt_ext _ (interp (mirror0 1 a))).
    2:{ intros x Hx. pose proof (tdual_range n Hn j Hj). rewrite Rmin_left, Rmax_right in Hx by lra. unfold tot. rewrite Rr0 by (auto; lra). reflexivity. }
    rewrite RInt_dual; auto.
    2:{ intro x. apply interp_cont. }
    2:{ intro x. rewrite !(interp_conv0 n Hn) by auto. apply (conv_even0 n Hn _ (alphaS_even N) (alphaS_period N)). auto. }
    2:{ intro x. rewrite !(interp_conv0 n Hn) by auto. apply (conv_period n _ (alphaS_period N)). }
    rewrite nth_opH by (rewrite Lma; unfold N; lia). rewrite Lma. fold N. ring.
  - rewrite (H0dr_real n Hn) by auto. do 2 f_equal. apply tab_ext. intros j Hj. destruct (xg_lt_PI n Hn j Hj) as [Xa Xb]. fold N in Xa, Xb.
    rewrite nth_opH by (rewrite Lmb; unfold N; lia). rewrite Lmb.
    rewrite (RInt_ext (tot _) (fun x => interp (mirror1 1 b) (x - hstep N / 2))).
    2:{ intros x Hx. rewrite xg_S in Hx. rewrite Rmin_left, Rmax_right in Hx by lra. unfold tot. rewrite Rr0d by (auto; lra). reflexivity. }
    rewrite RInt_shift_interp, xg_S. f_equal. field.
  - eexists. split; [|apply (H1r_real n Hn); auto]. rewrite map_tab. apply tab_ext. intros j Hj. rewrite Rr1 by auto. f_equal.
    rewrite nth_opHinv by (rewrite Lmb; unfold N; lia). rewrite Lmb. fold N. f_equal. ring.
  - eexists. split; [|apply (H1dr_real n Hn); auto]. rewrite map_tab. apply tab_ext. intros j Hj. rewrite Rr1d by auto. f_equal.
    pose proof (len_m0 n Hn 1 (divA n a) (len_divA n a)) as Lmd. fold N in Lmd.
    rewrite nth_opHinv by (rewrite Lmd; unfold N; lia). rewrite Lmd. reflexivity.
Qed.
Example C23_instance : exists c, regular_default 3 = Ok c /\ P1d c (tot (R_form (B_regular 3) (sizes_interval 3) 1 false [2;-1;7])) = [2;-1;7].
Proof.
  destruct (C23_projection_reconstruction 3 [2;-1;7] [1;4]) as (c & E & _ & _ & _ & H); [lia|reflexivity|reflexivity|]. now exists c.
Qed.
