(** C89: the discrete Poisson problem for the two Laplacians of spectral.py [laplacian]: kernel, range, unique solvability, and
    exactness of the solution on resolved functions. *)
From Coq Require Import ZArith Reals List Lia Lra Arith Bool.
From Coq Require Import ZifyNat.
From Verif Require Import Model.Sym.
From Coquelicot Require Import Coquelicot.
From Verif Require Import Model.Num Model.Np Model.Spectral Model.Basis Model.Grids1 Model.Regular Model.Chebyshev Model.Common Model.Decform Model.Grid2 Model.Laplacian Spec.Trig Spec.Poly Spec.Resolved Spec.Tiling
  Proofs.ListLemmas Proofs.RingSums Proofs.Sums Proofs.RIntLemmas Proofs.Grids1P Proofs.GridsThm Proofs.TrigAlg Proofs.Lin Proofs.TableLin Proofs.ChebPoly Proofs.Grid2P.
From Verif Require Import Props.Grid1 Props.Chebyshev Props.Lagrange Props.Decform Props.Refinement Props.Basis2 Props.Grid2 Proofs.Exact1 Props.Exact1 Props.Complete1 Proofs.LaplaceP.
Import ListNotations.
Local Open Scope R_scope.
Ltac Zify.zify_post_hook ::= Z.div_mod_to_equations.

Section L.
Variables (close : C -> C -> bool) (k : kind1) (n : nat).
Hypothesis Hw : works close k n.
Notation N d t := (grid_N k n d t).
Lemma bigW : big_enough k n. Proof. exact (Logic.proj1 (works_ok close k n Hw)). Qed.
Definition default_grid : grid1 := match k with Periodic => MkGrid1 Periodic n 0 (2 * PI) | Regular => MkGrid1 Regular n 0 PI | Chebyshev => MkGrid1 Chebyshev n (-1) 1 end.
Lemma default_kd : kd default_grid = k. Proof. unfold default_grid. now destruct k. Qed.
Lemma default_sz : sz default_grid = n. Proof. unfold default_grid. now destruct k. Qed.
Lemma default_ext : default_extent default_grid. Proof. unfold default_grid, default_extent. destruct k; cbn; auto. Qed.
Lemma default_sound : sound close default_grid.
Proof. apply works_good; [exact default_ext|]. rewrite default_kd, default_sz. exact Hw. Qed.
Lemma default_Nd d t : Nd default_grid d t = N d t. Proof. unfold Nd. now rewrite default_kd, default_sz. Qed.
(** the Hodge stars as functions *)
Definition h (d : nat) (t : bool) (f : list R) : list R := match hget close default_grid d t f with Ok v => v | Err _ => [] end.
Lemma h_lin d t : (d <= 1)%nat -> lin (N d t) (N (1 - d) (negb t)) (h d t).
Proof.
  intro Hd. destruct (h_pair close default_grid d t default_sound Hd) as (g & g' & Lg & _ & Eg & _). rewrite !default_Nd in *.
  apply (lin_ext _ _ (h d t) g); auto. intros f L. unfold h. now rewrite Eg.
Qed.
Lemma h_get d t f : (d <= 1)%nat -> length f = N d t -> exists o, tget (dH (dec_of close k)) (d, t) = Ok o /\ o f = Ok (h d t f).
Proof.
  intros Hd L. destruct (h_pair close default_grid d t default_sound Hd) as (g & g' & _ & _ & Eg & _). rewrite default_Nd in Eg. specialize (Eg f L).
  assert (exists o, tget (dH (dec_of close k)) (d, t) = Ok o) as [o Eo] by (destruct k, t, d as [|[|d]]; try lia; eexists; reflexivity).
  exists o. split; auto. unfold h. rewrite Eg. unfold hget in Eg. rewrite default_kd in Eg. rewrite Eo in Eg. exact Eg.
Qed.
Lemma h_inv d t f : (d <= 1)%nat -> length f = N d t -> h (1 - d) (negb t) (h d t f) = f.
Proof.
  intros Hd L. destruct (h_pair close default_grid d t default_sound Hd) as (g & g' & Lg & _ & Eg & Eg' & I). rewrite !default_Nd in *.
  assert (h d t f = g f) as -> by (unfold h; now rewrite Eg). assert (length (g f) = N (1 - d) (negb t)) as L' by exact (lin_len _ _ g f Lg L).
  assert (h (1 - d) (negb t) (g f) = g' (g f)) as -> by (unfold h; now rewrite Eg'). now apply I.
Qed.
Lemma h_len d t f : (d <= 1)%nat -> length f = N d t -> length (h d t f) = N (1 - d) (negb t).
Proof. intros Hd L. exact (lin_len _ _ _ f (h_lin d t Hd) L). Qed.
Lemma h_exact c d t f : (d <= 1)%nat -> cells_of default_grid = Ok c -> resolved k n d t f -> h d t (proj c d t f) = proj c (1 - d) (negb t) f.
Proof.
  intros Hd Ec Rf. destruct (table_H_exact close default_grid c d t f default_ext) as (o & Eo & Ev); rewrite ?default_kd, ?default_sz; auto.
  unfold h, hget. rewrite Eo, Ev. reflexivity.
Qed.
(** the Hodge star of the constant 1 is the lengths of the dual cells: its sum is positive *)
Lemma resolved_one d t : (d <= 1)%nat -> resolved k n d t (fun _ => 1).
Proof.
  intro Hd. pose proof bigW as B. unfold resolved, resolved_periodic, resolved_regular, resolved_chebyshev, cos_degree. destruct k.
  - exists 0%nat. split; [cbn in B; destruct d as [|[|d]], t; unfold grid_N, sizes_periodic; cbn; lia|]. exists (fun _ => 1), (fun _ => 0). intro x. unfold trig. cbn. ring.
  - exists (fun i => match i with O => 1 | _ => 0 end). intro x. rewrite (Rsum_ext _ _ (fun _ => 0)) by (intros; ring). rewrite Rsum_const. ring.
  - apply (poly_mono 0); [lia|]. apply poly_const.
Qed.
Lemma widths_positive c t : cells_of default_grid = Ok c -> forall i, (i < N 1 t)%nat -> nth i (fst (e1 c t)) 0 < nth i (snd (e1 c t)) 0.
Proof.
  intros Ec i Hi. pose proof default_sound as [[Hb Hlt] _]. unfold cells_of in Ec. rewrite default_kd, default_sz in *. destruct t; unfold e1.
  - destruct (C01_primal_cells_tile k n _ _ (smallest k n Hb) Hlt) as (c' & E' & T & _ & _ & L & _). rewrite Ec in E'. injection E' as <-. destruct T as (_ & _ & _ & _ & _ & W). apply W. now rewrite L.
  - assert (k = Periodic \/ k <> Periodic) as [Hk|Hk] by (destruct k; auto; right; discriminate).
    + rewrite Hk in *. destruct (C02_dual_cells_tile_periodic n _ _ Hb Hlt) as (c' & E' & T & _ & _ & L & _). rewrite Ec in E'. injection E' as <-. destruct T as (_ & _ & _ & _ & _ & W). apply W. rewrite L. exact Hi.
    + destruct (C02_dual_cells_tile k n _ _ ltac:(destruct k; auto; congruence) ltac:(destruct k; auto; congruence) Hlt) as (c' & E' & T & _ & _ & L & _). rewrite Ec in E'. injection E' as <-. destruct T as (_ & _ & _ & _ & _ & W). apply W. now rewrite L.
Qed.
Lemma lsum_pos (l : list R) : l <> [] -> (forall i, (i < length l)%nat -> 0 < nth i l 0) -> 0 < lsum l.
Proof.
  induction l as [|a [|b l] IH]; intros Hl H; [congruence| |].
  - rewrite lsum_consR. change (lsum (@nil R)) with 0. pose proof (H 0%nat ltac:(cbn; lia)) as Q. cbn in Q. lra.
  - rewrite lsum_consR. pose proof (H 0%nat ltac:(cbn; lia)) as Q. cbn in Q. assert (0 < lsum (b :: l)) as S; [|lra].
    apply IH; [discriminate|]. intros i Hi. apply (H (S i)). cbn in *. lia.
Qed.
Lemma h_one_pos t : 0 < lsum (h 0 t (cst (N 0 t) 1)).
Proof.
  destruct (good_cells default_grid (Logic.proj1 default_sound)) as (c & Ec & Lc). rewrite !default_Nd in Lc || idtac.
  assert (cst (N 0 t) 1 = proj c 0 t (fun _ => 1)) as ->.
  { destruct (Lc t) as (Lv & _). rewrite default_Nd in Lv. unfold cst. rewrite <- Lv. assert (forall l : list R, repeat 1 (length l) = map (fun _ => 1) l) as M by (induction l as [|x l IH]; cbn; congruence). destruct t; apply M. }
  rewrite (h_exact c) by (auto; apply resolved_one; lia). destruct (Lc (negb t)) as (_ & L1 & L2). rewrite default_Nd in L1, L2.
  assert (proj c (1 - 0) (negb t) (fun _ => 1) = zipw (fun a b => RInt (fun _ => 1) a b) (fst (e1 c (negb t))) (snd (e1 c (negb t)))) as -> by (destruct t; reflexivity).
  pose proof (Nd_pos default_grid 1 (negb t) (Logic.proj1 default_sound)) as Hp. rewrite default_Nd in Hp.
  apply lsum_pos.
  - intro E. apply (f_equal (@length R)) in E. rewrite length_zipw in E. cbn [length] in E. lia.
  - intros i Hi. rewrite length_zipw in Hi. rewrite (nth_zipw _ _ _ _ 0 0 0) by lia. rewrite RInt_const. change (0 < (nth i (snd (e1 c (negb t))) 0 - nth i (fst (e1 c (negb t))) 0) * 1).
    pose proof (widths_positive c (negb t) Ec i ltac:(lia)). lra.
Qed.

(** ** the operators *)
Variables L Ld : op1.
Hypothesis EL : laplacian (dec_of close k) = Ok (L, Ld).
Notation D := (@grid_D0 R _ k). Notation DD := (@grid_D0d R _ k).
Lemma sz_mp : N 1 false = N 0 true /\ N 1 true = N 0 false. Proof. destruct k; split; reflexivity. Qed.
Lemma L_val u : length u = N 0 true -> L u = Ok (h 1 false (DD (h 1 true (D u)))).
Proof.
  intro Lu. pose proof bigW as B. pose proof (len_D0 k n u Lu) as L1. destruct (h_get 1 true (D u) ltac:(lia) L1) as (o1 & E1 & V1). pose proof (h_len 1 true _ ltac:(lia) L1) as L2. cbn [Nat.sub negb] in L2.
  pose proof (len_D0d k n B _ L2) as L3. destruct (h_get 1 false _ ltac:(lia) L3) as (o2 & E2 & V2).
  unfold laplacian, derivative1, hodge_star1 in EL. rewrite E1, E2 in EL.
  destruct (h_get 0 true (cst (N 0 true) 0) ltac:(lia) (length_cst _ _)) as (o3 & E3 & _). destruct (h_get 0 false (cst (N 0 false) 0) ltac:(lia) (length_cst _ _)) as (o4 & E4 & _). rewrite E3, E4 in EL.
  assert (tget (dD (dec_of close k)) (0%nat, true) = Ok (fun f => Ok (RArr (grid_D0 k f))) /\ tget (dD (dec_of close k)) (0%nat, false) = Ok (fun f => Ok (RArr (grid_D0d k f)))) as [T1 T2] by (destruct k; split; reflexivity).
  rewrite T1, T2 in EL. cbn [bind] in EL. injection EL as <- _. unfold darr. cbn [bind as_arr]. rewrite V1. cbn [bind as_arr]. exact V2.
Qed.
Lemma Ld_val u : length u = N 0 false -> Ld u = Ok (h 1 true (D (h 1 false (DD u)))).
Proof.
  intro Lu. pose proof bigW as B. pose proof (len_D0d k n B u Lu) as L1. destruct (h_get 1 false (DD u) ltac:(lia) L1) as (o1 & E1 & V1). pose proof (h_len 1 false _ ltac:(lia) L1) as L2. cbn [Nat.sub negb] in L2.
  pose proof (len_D0 k n _ L2) as L3. destruct (h_get 1 true _ ltac:(lia) L3) as (o2 & E2 & V2).
  unfold laplacian, derivative1, hodge_star1 in EL. rewrite E1, E2 in EL.
  destruct (h_get 0 true (cst (N 0 true) 0) ltac:(lia) (length_cst _ _)) as (o3 & E3 & _). destruct (h_get 0 false (cst (N 0 false) 0) ltac:(lia) (length_cst _ _)) as (o4 & E4 & _). rewrite E3, E4 in EL.
  assert (tget (dD (dec_of close k)) (0%nat, true) = Ok (fun f => Ok (RArr (grid_D0 k f))) /\ tget (dD (dec_of close k)) (0%nat, false) = Ok (fun f => Ok (RArr (grid_D0d k f)))) as [T1 T2] by (destruct k; split; reflexivity).
  rewrite T1, T2 in EL. cbn [bind] in EL. injection EL as _ <-. unfold darr. cbn [bind as_arr]. rewrite V1. cbn [bind as_arr]. exact V2.
Qed.
(** a Hodge star is injective and onto *)
Lemma h_solve d t u b : (d <= 1)%nat -> length u = N d t -> length b = N (1 - d) (negb t) -> (h d t u = b <-> u = h (1 - d) (negb t) b).
Proof.
  intros Hd Lu Lb. split.
  - intros <-. symmetry. now apply h_inv.
  - intros ->. pose proof (h_inv (1 - d) (negb t) b ltac:(lia) Lb) as E. replace (1 - (1 - d))%nat with d in E by lia. rewrite negb_involutive in E. exact E.
Qed.
Lemma h_zero d t : (d <= 1)%nat -> h d t (cst (N d t) 0) = cst (N (1 - d) (negb t)) 0.
Proof. intro Hd. exact (LaplaceP.lin_zeros _ _ _ (h_lin d t Hd)). Qed.

(** L u = b and Ld u = b, with the outermost Hodge star moved to the right hand side *)
Lemma L_solve u b : length u = N 0 true -> length b = N 0 true -> (L u = Ok b <-> DD (h 1 true (D u)) = h 0 true b).
Proof.
  intros Lu Lb. rewrite (L_val u Lu). pose proof (len_D0 k n u Lu) as L1. pose proof (h_len 1 true _ ltac:(lia) L1) as L2. pose proof (len_D0d k n bigW _ L2) as L3.
  pose proof (h_solve 1 false (DD (h 1 true (D u))) b ltac:(lia) L3 Lb) as S. split.
  - intro E. injection E as E. now apply S.
  - intro E. f_equal. now apply S.
Qed.
Lemma Ld_solve u b : length u = N 0 false -> length b = N 0 false -> (Ld u = Ok b <-> D (h 1 false (DD u)) = h 0 false b).
Proof.
  intros Lu Lb. rewrite (Ld_val u Lu). pose proof (len_D0d k n bigW u Lu) as L1. pose proof (h_len 1 false _ ltac:(lia) L1) as L2. pose proof (len_D0 k n _ L2) as L3.
  pose proof (h_solve 1 true (D (h 1 false (DD u))) b ltac:(lia) L3 Lb) as S. split.
  - intro E. injection E as E. now apply S.
  - intro E. f_equal. now apply S.
Qed.
Lemma L_len u b : length u = N 0 true -> L u = Ok b -> length b = N 0 true.
Proof.
  intros Lu E. rewrite (L_val u Lu) in E. injection E as <-. apply (h_len 1 false); [lia|]. apply (len_D0d k n bigW). apply (h_len 1 true); [lia|]. now apply len_D0.
Qed.
Lemma Ld_len u b : length u = N 0 false -> Ld u = Ok b -> length b = N 0 false.
Proof.
  intros Lu E. rewrite (Ld_val u Lu) in E. injection E as <-. apply (h_len 1 true); [lia|]. apply (len_D0 k n). apply (h_len 1 false); [lia|]. now apply (len_D0d k n bigW).
Qed.
Definition constant (u : list R) : Prop := forall i j, (i < length u)%nat -> (j < length u)%nat -> nth i u 0 = nth j u 0.
(** both operators are defined on every 0-form, linear, and 0 on constants *)
Theorem C89_defined : (forall u, length u = N 0 true -> exists b, L u = Ok b /\ length b = N 0 true) /\ (forall u, length u = N 0 false -> exists b, Ld u = Ok b /\ length b = N 0 false).
Proof.
  split; intros u Lu.
  - eexists. split; [exact (L_val u Lu)|]. exact (L_len u _ Lu (L_val u Lu)).
  - eexists. split; [exact (Ld_val u Lu)|]. exact (Ld_len u _ Lu (Ld_val u Lu)).
Qed.
(** c times the Hodge star of 1 sums to zero only for c = 0 *)
Lemma scaled_zero t c : lsum (h 0 t (cst (N 0 t) c)) = 0 -> c = 0.
Proof.
  rewrite (lin_cst _ _ _ c (h_lin 0 t ltac:(lia))). intro E. pose proof (h_one_pos t). apply Rmult_integral in E as [E|E]; lra.
Qed.
Lemma shift_zero t v : length v = N 0 t -> exists c, lsum (h 0 t (axpy c (cst (N 0 t) 1) v)) = 0.
Proof.
  intro Lv. pose proof (h_one_pos t) as P. exists (- lsum (h 0 t v) / lsum (h 0 t (cst (N 0 t) 1))).
  rewrite (lin_shift _ _ _ _ _ (h_lin 0 t ltac:(lia)) Lv), (lsum_axpy (N 1 (negb t))) by (apply (h_len 0 t); auto; apply length_cst). field. lra.
Qed.
Lemma zero_prefix t b : (length b = N 0 t)%nat -> b = cst (N 0 t) 0 -> h 0 t b = cst (N 1 (negb t)) 0.
Proof. intros _ ->. exact (h_zero 0 t ltac:(lia)). Qed.
Lemma h1_ker t u : length u = N 1 t -> h 1 t u = cst (N 0 (negb t)) 0 -> u = cst (N 1 t) 0.
Proof.
  intros Lu E. apply (h_solve 1 t) in E; auto; [|apply length_cst]. rewrite E. pose proof (h_zero 0 (negb t) ltac:(lia)) as Z. rewrite negb_involutive in Z. exact Z.
Qed.
(** the harmonic primal 0-forms are the constants, on every grid *)
Theorem C89_kernel u : length u = N 0 true -> (L u = Ok (zeros (N 0 true)) <-> constant u).
Proof.
  intro Lu. pose proof bigW as B. pose proof (length_cst (N 0 true) 0) as Lz. change (zeros (N 0 true)) with (cst (N 0 true) 0). rewrite (L_solve u _ Lu Lz), (h_zero 0 true) by lia. cbn [Nat.sub negb].
  pose proof (len_D0 k n u Lu) as L1. pose proof (h_len 1 true _ ltac:(lia) L1) as L2. cbn [Nat.sub negb] in L2. split.
  - intro E. assert (k = Periodic \/ k <> Periodic) as [Hk|Hk] by (destruct k; auto; right; discriminate).
    + apply (D0d_ker_periodic k n B _ Hk L2) in E. set (c := nth 0 (h 1 true (D u)) 0) in *. apply (h_solve 1 true) in E; [|lia|exact L1|apply length_cst]. cbn [Nat.sub negb] in E.
      assert (c = 0) as Hc. { apply (scaled_zero false). rewrite <- E. exact (sum_D0_periodic k n B u Hk Lu). }
      rewrite Hc in E. pose proof (h_zero 0 false ltac:(lia)) as Z. cbn [Nat.sub negb] in Z. rewrite Z in E.
      intros i j Hi Hj. rewrite (D0_ker k n B u Lu E). apply cst_constant; rewrite <- (D0_ker k n B u Lu E); assumption.
    + apply (D0d_ker_interval k n B _ Hk L2) in E. apply (h1_ker true (D u) L1) in E.
      intros i j Hi Hj. rewrite (D0_ker k n B u Lu E). apply cst_constant; rewrite <- (D0_ker k n B u Lu E); assumption.
  - intro Hc. rewrite (constant_cst u _ Lu Hc), (D0_cst k n B). pose proof (h_zero 1 true ltac:(lia)) as Z. cbn [Nat.sub negb] in Z. rewrite Z. exact (LaplaceP.lin_zeros _ _ _ (lin_D0d k n (one_le k n B))).
Qed.
(** the equation L u = q is solvable exactly when the integral of q over the grid is zero *)
Theorem C89_range q : length q = N 0 true ->
  exists H0 b, tget (dH (dec_of close k)) (0%nat, true) = Ok H0 /\ H0 q = Ok b /\ ((exists u, length u = N 0 true /\ L u = Ok q) <-> lsum b = 0).
Proof.
  intro Lq. pose proof bigW as B. destruct (h_get 0 true q ltac:(lia) Lq) as (H0 & E0 & V0). exists H0, (h 0 true q). split; auto. split; auto. pose proof (h_len 0 true q ltac:(lia) Lq) as Lb. cbn [Nat.sub negb] in Lb. split.
  - intros (u & Lu & E). apply (L_solve u q Lu Lq) in E. rewrite <- E. apply (sum_D0d k n B). apply (h_len 1 true); [lia|]. now apply len_D0.
  - intro S0. destruct (D0d_image k n B (h 0 true q) Lb S0) as (v & Lv & Ev).
    assert (exists v', length v' = N 0 false /\ DD v' = h 0 true q /\ (k = Periodic -> lsum (h 0 false v') = 0)) as (v' & Lv' & Ev' & Sv').
    { assert (k = Periodic \/ k <> Periodic) as [Hk|Hk] by (destruct k; auto; right; discriminate).
      - destruct (shift_zero false v Lv) as (c & Ec). exists (axpy c (cst (N 0 false) 1) v). split; [rewrite length_axpy, length_cst; rewrite ?length_cst; congruence|]. split; [|intro; exact Ec].
        rewrite (lin_shift _ _ _ c v (lin_D0d k n (one_le k n B)) Lv), (D0d_cst_periodic k n B 1 Hk), Ev. apply (nth_ext _ _ 0 0); [rewrite length_axpy, length_cst; rewrite ?length_cst; congruence|].
        intros i Hi. rewrite length_axpy, length_cst in Hi by (rewrite length_cst; congruence). rewrite nth_axpyR by (rewrite length_cst; congruence). rewrite nth_cst by auto. ring.
      - exists v. split; auto. split; auto. intro; congruence. }
    pose proof (h_len 0 false v' ltac:(lia) Lv') as Lw. cbn [Nat.sub negb] in Lw. destruct (D0_image k n B (h 0 false v') Lw Sv') as (u & Lu & Eu).
    exists u. split; auto. apply (L_solve u q Lu Lq). rewrite Eu. pose proof (h_inv 0 false v' ltac:(lia) Lv') as I. cbn [Nat.sub negb] in I. rewrite I. exact Ev'.
Qed.
(** two solutions differ by a constant *)
Lemma L_sub u v b : length u = N 0 true -> length v = N 0 true -> L u = Ok b -> L v = Ok b -> L (axpy (-1) u v) = Ok (cst (N 0 true) 0).
Proof.
  intros Lu Lv E E'. pose proof bigW as B. assert (length (axpy (-1) u v) = N 0 true) as La by (rewrite length_axpy; congruence). rewrite L_val in * by auto.
  injection E as E. injection E' as E'. f_equal. transitivity (axpy (-1) b b).
  - pose proof (lin_comp (A := R) _ _ _ _ _ (lin_comp (A := R) _ _ _ _ _ (lin_comp (A := R) _ _ _ _ _ (lin_D0 k n) (h_lin 1 true ltac:(lia))) (lin_D0d k n (one_le k n B))) (h_lin 1 false ltac:(lia))) as [_ HL].
    rewrite (HL (-1) u v Lu Lv), E, E'. reflexivity.
  - apply axpy_self. apply (L_len u b Lu). rewrite L_val by auto. now f_equal.
Qed.
Theorem C89_unique_up_to_constant u v b : length u = N 0 true -> length v = N 0 true -> L u = Ok b -> L v = Ok b -> exists c, v = map (Rplus c) u.
Proof.
  intros Lu Lv E E'. pose proof (L_sub u v b Lu Lv E E') as Z. assert (length (axpy (-1) u v) = N 0 true) as La by (rewrite length_axpy; congruence).
  apply (C89_kernel _ La) in Z. exists (nth 0 (axpy (-1) u v) 0). apply (nth_ext _ _ 0 0); [rewrite map_length; congruence|]. intros i Hi.
  pose proof (Z i 0%nat ltac:(lia) ltac:(lia)) as Q. rewrite (nth_axpyR (-1) u v i) in Q by congruence. rewrite (nth_indep (map _ u) 0 (nth 0 (axpy (-1) u v) 0 + 0)) by (rewrite map_length; lia). rewrite map_nth. lra.
Qed.
(** the dual Laplacian, bounded grids (boundary values 0): every equation has exactly one solution *)
Theorem C89_dirichlet q : k <> Periodic -> length q = N 0 false -> exists u, (length u = N 0 false /\ Ld u = Ok q) /\ forall u', length u' = N 0 false -> Ld u' = Ok q -> u' = u.
Proof.
  intros Hk Lq. pose proof bigW as B. pose proof (h_len 0 false q ltac:(lia) Lq) as Lb. cbn [Nat.sub negb] in Lb.
  destruct (D0_image k n B (h 0 false q) Lb ltac:(intro; congruence)) as (w & Lw & Ew). destruct (shift_zero true w Lw) as (c & Ec).
  set (w' := axpy c (cst (N 0 true) 1) w) in *. assert (length w' = N 0 true) as Lw' by (unfold w'; rewrite length_axpy, length_cst; rewrite ?length_cst; congruence).
  pose proof (h_len 0 true w' ltac:(lia) Lw') as Lx. cbn [Nat.sub negb] in Lx. destruct (D0d_image k n B (h 0 true w') Lx Ec) as (u & Lu & Eu). exists u. split.
  - split; auto. apply (Ld_solve u q Lu Lq). rewrite Eu. pose proof (h_inv 0 true w' ltac:(lia) Lw') as I. cbn [Nat.sub negb] in I. rewrite I. unfold w'.
    rewrite (lin_shift _ _ _ c w (lin_D0 k n) Lw), (D0_cst k n B), Ew. apply (nth_ext _ _ 0 0); [rewrite length_axpy, length_cst; rewrite ?length_cst; congruence|].
    intros i Hi. rewrite length_axpy, length_cst in Hi by (rewrite length_cst; congruence). rewrite nth_axpyR by (rewrite length_cst; congruence). rewrite nth_cst by auto. ring.
  - intros u' Lu' E'. apply (Ld_solve u' q Lu' Lq) in E'.
    pose proof (len_D0d k n B u' Lu') as L1. pose proof (h_len 1 false _ ltac:(lia) L1) as L2. cbn [Nat.sub negb] in L2.
    pose proof (len_D0d k n B u Lu) as L1u. pose proof (h_len 1 false _ ltac:(lia) L1u) as L2u. cbn [Nat.sub negb] in L2u.
    set (x := h 1 false (DD u')) in *. set (y := h 1 false (DD u)) in *.
    assert (y = w') as Hy. { unfold y. rewrite Eu. pose proof (h_inv 0 true w' ltac:(lia) Lw') as I. exact I. }
    assert (length (axpy (-1) x w') = N 0 true) as La by (rewrite length_axpy; congruence).
    assert (D (axpy (-1) x w') = cst (N 1 true) 0) as Dz.
    { destruct (lin_D0 k n) as [_ HL]. rewrite (HL (-1) x w' L2 Lw'), E'. unfold w'. rewrite (lin_shift _ _ _ c w (lin_D0 k n) Lw), (D0_cst k n B), Ew.
      replace (axpy c (cst (N 1 true) 0) (h 0 false q)) with (h 0 false q); [now apply axpy_self|]. symmetry. apply (nth_ext _ _ 0 0); [rewrite length_axpy, length_cst; rewrite ?length_cst; congruence|].
      intros i Hi. rewrite length_axpy, length_cst in Hi by (rewrite length_cst; congruence). rewrite nth_axpyR by (rewrite length_cst; congruence). rewrite nth_cst by auto. ring. }
    pose proof (D0_ker k n B _ La Dz) as Ec'. set (e := nth 0 (axpy (-1) x w') 0) in *.
    assert (lsum (h 0 true (axpy (-1) x w')) = 0) as Sz.
    { destruct (h_lin 0 true ltac:(lia)) as [_ HL]. rewrite (HL (-1) x w' L2 Lw'). cbn [Nat.sub negb] in *. rewrite (lsum_axpy (N 1 false)) by (apply (h_len 0 true); auto). rewrite Ec.
      assert (h 0 true x = DD u') as Hx. { unfold x. pose proof (h_inv 1 false (DD u') ltac:(lia) L1) as I. exact I. }
      rewrite Hx, (sum_D0d k n B u' Lu'). ring. }
    rewrite Ec' in Sz. apply (scaled_zero true) in Sz. rewrite Sz in Ec'. pose proof (axpy_zero _ _ _ L2 Lw' Ec') as Exw.
    assert (DD u' = DD u) as Ed. { rewrite <- (h_inv 1 false (DD u') ltac:(lia) L1), <- (h_inv 1 false (DD u) ltac:(lia) L1u). fold x y. now rewrite Exw, Hy. }
    apply (C07_dual_injective k); auto; [destruct k; auto; congruence|congruence].
Qed.
(** the dual Laplacian, periodic grids *)
Theorem C89_kernel_dual_periodic u : k = Periodic -> length u = N 0 false -> (Ld u = Ok (zeros (N 0 false)) <-> constant u).
Proof.
  intros Hk Lu. pose proof bigW as B. pose proof (length_cst (N 0 false) 0) as Lz. change (zeros (N 0 false)) with (cst (N 0 false) 0). rewrite (Ld_solve u _ Lu Lz), (h_zero 0 false) by lia. cbn [Nat.sub negb].
  pose proof (len_D0d k n B u Lu) as L1. pose proof (h_len 1 false _ ltac:(lia) L1) as L2. cbn [Nat.sub negb] in L2. split.
  - intro E. apply (D0_ker k n B _ L2) in E. set (c := nth 0 (h 1 false (DD u)) 0) in *. apply (h_solve 1 false) in E; [|lia|exact L1|apply length_cst]. cbn [Nat.sub negb] in E.
    assert (c = 0) as Hc. { apply (scaled_zero true). rewrite <- E. exact (sum_D0d k n B u Lu). }
    rewrite Hc in E. pose proof (h_zero 0 true ltac:(lia)) as Z. cbn [Nat.sub negb] in Z. rewrite Z in E.
    intros i j Hi Hj. rewrite (D0d_ker_periodic k n B u Hk Lu E). apply cst_constant; rewrite <- (D0d_ker_periodic k n B u Hk Lu E); assumption.
  - intro Hc. rewrite (constant_cst u _ Lu Hc), (D0d_cst_periodic k n B _ Hk). pose proof (h_zero 1 false ltac:(lia)) as Z. cbn [Nat.sub negb] in Z. rewrite Z. exact (LaplaceP.lin_zeros _ _ _ (lin_D0 k n)).
Qed.
Theorem C89_range_dual_periodic q : k = Periodic -> length q = N 0 false ->
  exists H0d b, tget (dH (dec_of close k)) (0%nat, false) = Ok H0d /\ H0d q = Ok b /\ ((exists u, length u = N 0 false /\ Ld u = Ok q) <-> lsum b = 0).
Proof.
  intros Hk Lq. pose proof bigW as B. destruct (h_get 0 false q ltac:(lia) Lq) as (H0 & E0 & V0). exists H0, (h 0 false q). split; auto. split; auto. pose proof (h_len 0 false q ltac:(lia) Lq) as Lb. cbn [Nat.sub negb] in Lb. split.
  - intros (u & Lu & E). apply (Ld_solve u q Lu Lq) in E. rewrite <- E. apply (sum_D0_periodic k n B); auto. apply (h_len 1 false); [lia|]. now apply (len_D0d k n B).
  - intro S0. destruct (D0_image k n B (h 0 false q) Lb (fun _ => S0)) as (v & Lv & Ev). destruct (shift_zero true v Lv) as (c & Ec). set (v' := axpy c (cst (N 0 true) 1) v) in *.
    assert (length v' = N 0 true) as Lv' by (unfold v'; rewrite length_axpy, length_cst; rewrite ?length_cst; congruence).
    assert (D v' = h 0 false q) as Ev'.
    { unfold v'. rewrite (lin_shift _ _ _ c v (lin_D0 k n) Lv), (D0_cst k n B), Ev. apply (nth_ext _ _ 0 0); [rewrite length_axpy, length_cst; rewrite ?length_cst; congruence|].
      intros i Hi. rewrite length_axpy, length_cst in Hi by (rewrite length_cst; congruence). rewrite nth_axpyR by (rewrite length_cst; congruence). rewrite nth_cst by auto. ring. }
    pose proof (h_len 0 true v' ltac:(lia) Lv') as Lw. cbn [Nat.sub negb] in Lw. destruct (D0d_image k n B (h 0 true v') Lw Ec) as (u & Lu & Eu).
    exists u. split; auto. apply (Ld_solve u q Lu Lq). rewrite Eu. pose proof (h_inv 0 true v' ltac:(lia) Lv') as I. cbn [Nat.sub negb] in I. rewrite I. exact Ev'.
Qed.
End L.
(** the operators of the tuples (D0, D0d) = g.derivative() and (H0, H1, H0d, H1d) = g.hodge_star() act on the kinds of cells their names say *)
Theorem C89_tuples close k n c : works close k n -> cells_of (default_grid k n) = Ok c ->
  exists D0 D0d H0 H1 H0d H1d, derivative1 (dec_of close k) = Ok (D0, D0d) /\ hodge_star1 (dec_of close k) = Ok (H0, H1, H0d, H1d) /\
  (forall a, D0 a = Ok (RArr (grid_D0 k a)) /\ D0d a = Ok (RArr (grid_D0d k a))) /\
  (forall f, resolved k n 0 true f -> H0 (P0 c f) = Ok (P1d c f)) /\ (forall f, resolved k n 1 true f -> H1 (P1 c f) = Ok (P0d c f)) /\
  (forall f, resolved k n 0 false f -> H0d (P0d c f) = Ok (P1 c f)) /\ (forall f, resolved k n 1 false f -> H1d (P1d c f) = Ok (P0 c f)).
Proof.
  intros Hw Ec. assert (forall d t f, (d <= 1)%nat -> resolved k n d t f -> exists o, tget (dH (dec_of close k)) (d, t) = Ok o /\ o (proj c d t f) = Ok (proj c (1 - d) (negb t) f)) as X.
  { intros d t f Hd Hf. pose proof (table_H_exact close (default_grid k n) c d t f ltac:(eapply default_ext; eassumption)) as T. unfold default_grid in *. destruct k; now apply T. }
  unfold derivative1, hodge_star1.
  destruct (X 0%nat true _ ltac:(lia) (resolved_one close k n Hw 0 true ltac:(lia))) as (H0 & E0 & _). destruct (X 1%nat true _ ltac:(lia) (resolved_one close k n Hw 1 true ltac:(lia))) as (H1 & E1 & _).
  destruct (X 0%nat false _ ltac:(lia) (resolved_one close k n Hw 0 false ltac:(lia))) as (H0d & E0d & _). destruct (X 1%nat false _ ltac:(lia) (resolved_one close k n Hw 1 false ltac:(lia))) as (H1d & E1d & _).
  assert (tget (dD (dec_of close k)) (0%nat, true) = Ok (fun f => Ok (RArr (grid_D0 k f))) /\ tget (dD (dec_of close k)) (0%nat, false) = Ok (fun f => Ok (RArr (grid_D0d k f)))) as [T1 T2] by (destruct k; split; reflexivity).
  exists (fun f => Ok (RArr (grid_D0 k f))), (fun f => Ok (RArr (grid_D0d k f))), H0, H1, H0d, H1d. rewrite T1, T2, E0, E1, E0d, E1d. cbn [bind]. split; [reflexivity|]. split; [reflexivity|]. split; [auto|].
  split; [|split; [|split]]; intros f Hf.
  - destruct (X 0%nat true f ltac:(lia) Hf) as (o & Eo & Ev). rewrite E0 in Eo. injection Eo as <-. exact Ev.
  - destruct (X 1%nat true f ltac:(lia) Hf) as (o & Eo & Ev). rewrite E1 in Eo. injection Eo as <-. exact Ev.
  - destruct (X 0%nat false f ltac:(lia) Hf) as (o & Eo & Ev). rewrite E0d in Eo. injection Eo as <-. exact Ev.
  - destruct (X 1%nat false f ltac:(lia) Hf) as (o & Eo & Ev). rewrite E1d in Eo. injection Eo as <-. exact Ev.
Qed.

(** ** the solution is exact on resolved functions *)
Lemma axpy_vsub (u v : list R) : length u = length v -> axpy (-1) v u = vsub u v.
Proof.
  intro E. apply (nth_ext _ _ 0 0); unfold vsub; [rewrite length_axpy, length_zipw; lia|]. intros i Hi. rewrite length_axpy in Hi by auto. rewrite nth_axpyR by auto. rewrite (nth_zipw _ _ _ _ 0 0 0) by lia. cbn. ring.
Qed.
Lemma vadd_axpy (u v w : list R) : length u = length v -> vadd u v = w -> u = axpy (-1) v w.
Proof.
  intros E <-. assert (length (vadd u v) = length u) as Lw by (unfold vadd; rewrite length_zipw; lia). apply (nth_ext _ _ 0 0); [rewrite length_axpy; lia|]. intros i Hi. rewrite nth_axpyR by lia. unfold vadd. rewrite (nth_zipw _ _ _ _ 0 0 0) by lia. cbn. ring.
Qed.
Lemma bc_length n a b f bc : (1 <= n)%nat -> boundary_condition n a b f = Ok bc -> length bc = n.
Proof.
  intros Hn E. unfold boundary_condition in E. destruct n as [|[|n]]; [lia| |]; injection E as <-; cbn [length]; auto. rewrite app_length. unfold zeros. rewrite repeat_length. cbn. lia.
Qed.
Section Chebyshev.
Variables (close : C -> C -> bool) (n : nat) (L Ld : op1) (c : cells1) (f f' f'' : R -> R).
Hypothesis Hw : works close Chebyshev n.
Hypothesis EL : laplacian (dec_of close Chebyshev) = Ok (L, Ld).
Hypothesis Ec : make_cells Chebyshev n (-1) 1 = Ok c.
Hypothesis H1 : forall x, is_derive f x (f' x). Hypothesis H2 : forall x, is_derive f' x (f'' x).
Let Hn : (2 <= n)%nat := Logic.proj1 Hw.
Lemma dual_stokes (p p' : R -> R) (bc : list R) d : polynomial d p' -> (forall x : R, is_derive p x (p' x)) -> boundary_condition n (-1) 1 p = Ok bc -> grid_D0d Chebyshev (P0d c p) = axpy (-1) bc (P1d c p').
Proof.
  intros Hp Hd Eb. destruct (C05_stokes_dual Chebyshev n (-1) 1 c p p' ltac:(auto) Hn ltac:(lra) Ec (fun x _ => Hd x) (fun x _ => poly_cont _ _ x Hp)) as (bc' & Eb' & St).
  rewrite Eb in Eb'. injection Eb' as <-. apply vadd_axpy; auto. rewrite (bc_length n _ _ _ _ ltac:(lia) Eb).
  pose proof (proj_length (MkGrid1 Chebyshev n (-1) 1) c 0 false p (conj eq_refl eq_refl) Hn Ec ltac:(lia)) as L0. cbn [kd sz] in L0. cbn [proj] in L0. exact (len_D0d Chebyshev n Hn _ L0).
Qed.
Lemma cheb_len' d t (p : R -> R) : (d <= 1)%nat -> length (proj c d t p) = grid_N Chebyshev n d t.
Proof. intro Hd. exact (proj_length (MkGrid1 Chebyshev n (-1) 1) c d t p (conj eq_refl eq_refl) Hn Ec Hd). Qed.
(** Dirichlet boundary values, given through boundary_condition: for polynomials of degree n the solution is exact *)
Theorem C89_poisson_dirichlet bc : polynomial n f -> boundary_condition n (-1) 1 f = Ok bc ->
  exists H1d H1 w z, tget (dH (dec_of close Chebyshev)) (1%nat, false) = Ok H1d /\ tget (dH (dec_of close Chebyshev)) (1%nat, true) = Ok H1 /\
    H1d bc = Ok w /\ H1 (grid_D0 Chebyshev w) = Ok z /\
    forall u, length u = (n - 1)%nat -> (Ld u = Ok (vsub (P0d c f'') z) <-> u = P0d c f).
Proof.
  intros Pf Eb. pose proof (bc_length n _ _ _ _ ltac:(lia) Eb) as Lb. pose proof (poly_derivative (fun _ => grid_1d close Chebyshev n) _ f f' Pf H1) as Pf'. pose proof (poly_derivative (fun _ => grid_1d close Chebyshev n) _ f' f'' Pf' H2) as Pf''.
  destruct (h_get close Chebyshev n Hw 1 false bc ltac:(lia) Lb) as (o & Eo & Vo). set (w := h close Chebyshev n 1 false bc) in *. pose proof (h_len close Chebyshev n Hw 1 false bc ltac:(lia) Lb) as Lw. fold w in Lw. cbn [Nat.sub negb] in Lw.
  pose proof (len_D0 Chebyshev n w Lw) as LDw. destruct (h_get close Chebyshev n Hw 1 true _ ltac:(lia) LDw) as (o' & Eo' & Vo'). set (z := h close Chebyshev n 1 true (grid_D0 Chebyshev w)) in *.
  pose proof (h_len close Chebyshev n Hw 1 true _ ltac:(lia) LDw) as Lz. fold z in Lz. cbn [Nat.sub negb] in Lz.
  exists o, o', w, z. split; auto. split; auto. split; auto. split; auto.
  assert (Ld (P0d c f) = Ok (vsub (P0d c f'') z)) as Key.
  { rewrite (Ld_val close Chebyshev n Hw L Ld EL (P0d c f) (cheb_len' 0 false f ltac:(lia))). f_equal. rewrite (dual_stokes f f' bc _ Pf' H1 Eb).
    destruct (h_lin close Chebyshev n Hw 1 false ltac:(lia)) as [_ HL1]. rewrite (HL1 (-1) bc (P1d c f') Lb (cheb_len' 1 false f' ltac:(lia))). fold w.
    assert (h close Chebyshev n 1 false (P1d c f') = P0 c f') as ->. { apply (h_exact close Chebyshev n Hw c 1 false f' ltac:(lia) Ec). exact Pf'. }
    destruct (lin_D0 Chebyshev n) as [_ HL2]. rewrite (HL2 (-1) w (P0 c f') Lw (cheb_len' 0 true f' ltac:(lia))).
    rewrite (C04_stokes_primal Chebyshev n (-1) 1 c f' f'' Hn ltac:(lra) Ec (fun x _ => H2 x) (fun x _ => poly_cont _ _ x Pf'') ltac:(discriminate)).
    destruct (h_lin close Chebyshev n Hw 1 true ltac:(lia)) as [_ HL3]. rewrite (HL3 (-1) _ (P1 c f'') LDw (cheb_len' 1 true f'' ltac:(lia))). fold z.
    assert (h close Chebyshev n 1 true (P1 c f'') = P0d c f'') as ->. { apply (h_exact close Chebyshev n Hw c 1 true f'' ltac:(lia) Ec). unfold resolved, resolved_chebyshev. cbn. exact Pf''. }
    apply axpy_vsub. rewrite Lz. exact (cheb_len' 0 false f'' ltac:(lia)). }
  intros u Lu. split; [|intros ->; exact Key]. intro E.
  destruct (C89_dirichlet close Chebyshev n Hw L Ld EL (vsub (P0d c f'') z) ltac:(discriminate)) as (v & _ & U).
  { exact (Ld_len close Chebyshev n Hw L Ld EL (P0d c f) _ (cheb_len' 0 false f ltac:(lia)) Key). }
  rewrite (U u Lu E). symmetry. apply U; auto. exact (cheb_len' 0 false f ltac:(lia)).
Qed.
(** Neumann boundary values (of f') and the value at the first vertex: for polynomials of degree n-1 the solution is exact *)
Theorem C89_poisson_neumann bc : polynomial (n - 1) f -> boundary_condition n (-1) 1 f' = Ok bc ->
  exists H1d w, tget (dH (dec_of close Chebyshev)) (1%nat, false) = Ok H1d /\ H1d bc = Ok w /\
    forall u, length u = n -> (L u = Ok (vsub (P0 c f'') w) /\ nth 0 u 0 = nth 0 (P0 c f) 0 <-> u = P0 c f).
Proof.
  intros Pf Eb. pose proof (bc_length n _ _ _ _ ltac:(lia) Eb) as Lb. pose proof (poly_derivative (fun _ => grid_1d close Chebyshev n) _ f f' Pf H1) as Pf'. pose proof (poly_derivative (fun _ => grid_1d close Chebyshev n) _ f' f'' Pf' H2) as Pf''.
  destruct (h_get close Chebyshev n Hw 1 false bc ltac:(lia) Lb) as (o & Eo & Vo). set (w := h close Chebyshev n 1 false bc) in *. pose proof (h_len close Chebyshev n Hw 1 false bc ltac:(lia) Lb) as Lw. fold w in Lw. cbn [Nat.sub negb] in Lw.
  exists o, w. split; auto. split; auto.
  assert (L (P0 c f) = Ok (vsub (P0 c f'') w)) as Key.
  { rewrite (L_val close Chebyshev n Hw L Ld EL (P0 c f) (cheb_len' 0 true f ltac:(lia))). f_equal.
    rewrite (C04_stokes_primal Chebyshev n (-1) 1 c f f' Hn ltac:(lra) Ec (fun x _ => H1 x) (fun x _ => poly_cont _ _ x Pf') ltac:(discriminate)).
    assert (h close Chebyshev n 1 true (P1 c f') = P0d c f') as ->. { apply (h_exact close Chebyshev n Hw c 1 true f' ltac:(lia) Ec). unfold resolved, resolved_chebyshev. cbn. exact Pf'. }
    rewrite (dual_stokes f' f'' bc _ Pf'' H2 Eb).
    destruct (h_lin close Chebyshev n Hw 1 false ltac:(lia)) as [_ HL1]. rewrite (HL1 (-1) bc (P1d c f'') Lb (cheb_len' 1 false f'' ltac:(lia))). fold w.
    assert (h close Chebyshev n 1 false (P1d c f'') = P0 c f'') as ->. { apply (h_exact close Chebyshev n Hw c 1 false f'' ltac:(lia) Ec). unfold resolved, resolved_chebyshev. cbn. apply (poly_mono (n - 1 - 1 - 1)); auto. lia. }
    apply axpy_vsub. rewrite Lw. exact (cheb_len' 0 true f'' ltac:(lia)). }
  intros u Lu. split; [|intros ->; split; [exact Key|reflexivity]]. intros [E E0].
  destruct (C89_unique_up_to_constant close Chebyshev n Hw L Ld EL (P0 c f) u _ (cheb_len' 0 true f ltac:(lia)) Lu Key E) as [e Ee].
  pose proof (cheb_len' 0 true f ltac:(lia)) as LP. cbn [proj] in LP. cbn [grid_N sizes_interval] in LP.
  assert (e = 0) as He. { rewrite Ee in E0. rewrite (nth_indep (map _ _) 0 (e + 0)) in E0 by (rewrite map_length; lia). rewrite map_nth in E0. lra. }
  rewrite Ee, He. rewrite (map_ext (Rplus 0) (fun x => x)) by (intro; ring). apply map_id.
Qed.
End Chebyshev.
Section Periodic.
Variables (close : C -> C -> bool) (n : nat) (L Ld : op1) (c : cells1) (f f' f'' : R -> R).
Hypothesis Hn : (1 <= n)%nat.
Hypothesis EL : laplacian (dec_of close Periodic) = Ok (L, Ld).
Hypothesis Ec : make_cells Periodic n 0 (2 * PI) = Ok c.
Hypothesis Hf : resolved_periodic n f.
Hypothesis H1 : forall x, is_derive f x (f' x). Hypothesis H2 : forall x, is_derive f' x (f'' x).
(** periodic grids: fixing the first value determines the solution, which is exact on resolved functions *)
Theorem C89_poisson_periodic u : length u = n -> (L u = Ok (P0 c f'') /\ nth 0 u 0 = nth 0 (P0 c f) 0 <-> u = P0 c f).
Proof.
  intro Lu. destruct Hf as (K & HK & Tf). pose proof (td_derivative K f f' Tf H1) as Tf'. pose proof (td_derivative K f' f'' Tf' H2) as Tf''. pose proof PI_RGT_0.
  assert (forall d t p, (d <= 1)%nat -> length (proj c d t p) = n) as Lp by (intros d t p Hd; exact (proj_length (MkGrid1 Periodic n 0 (2 * PI)) c d t p (conj eq_refl eq_refl) Hn Ec Hd)).
  assert (L (P0 c f) = Ok (P0 c f'')) as Key.
  { rewrite (L_val close Periodic n Hn L Ld EL (P0 c f) (Lp 0%nat true f ltac:(lia))). f_equal.
    rewrite (C04_stokes_primal Periodic n 0 (2 * PI) c f f' Hn ltac:(lra) Ec (fun x _ => H1 x) (fun x _ => td_cont K _ x Tf')) by (intros _; rewrite <- (td_periodic K f 0 Tf); f_equal; ring).
    assert (h close Periodic n 1 true (P1 c f') = P0d c f') as ->. { apply (h_exact close Periodic n Hn c 1 true f' ltac:(lia) Ec). exists K. split; auto. }
    rewrite (C05_stokes_dual_periodic n 0 (2 * PI) c f' f'' Hn ltac:(lra) Ec); [|intro x; rewrite <- (td_periodic K f' x Tf'); f_equal; ring|exact H2|intro x; exact (td_cont K _ x Tf'')].
    apply (h_exact close Periodic n Hn c 1 false f'' ltac:(lia) Ec). exists K. split; auto. }
  split; [|intros ->; split; [exact Key|reflexivity]]. intros [E E0].
  destruct (C89_unique_up_to_constant close Periodic n Hn L Ld EL (P0 c f) u _ (Lp 0%nat true f ltac:(lia)) Lu Key E) as [e Ee].
  pose proof (Lp 0%nat true f ltac:(lia)) as LP. cbn [proj] in LP.
  assert (e = 0) as He. { rewrite Ee in E0. rewrite (nth_indep (map _ _) 0 (e + 0)) in E0 by (rewrite map_length; lia). rewrite map_nth in E0. lra. }
  rewrite Ee, He. rewrite (map_ext (Rplus 0) (fun x => x)) by (intro; ring). apply map_id.
Qed.
End Periodic.
(** the hypotheses hold for a Chebyshev grid of 3 vertices and f = x^3 (degree n), and for a periodic grid of 3 and f = sin *)
Example C89_instance : works never Chebyshev 3 /\ (exists L Ld, laplacian (dec_of never Chebyshev) = Ok (L, Ld)) /\ (exists c, make_cells Chebyshev 3 (-1) 1 = Ok c) /\
  polynomial 3 (fun x => x ^ 3) /\ (forall x, is_derive (fun x => x ^ 3) x (3 * x ^ 2)) /\ (forall x, is_derive (fun x => 3 * x ^ 2) x (6 * x)) /\ (exists bc, boundary_condition 3 (-1) 1 (fun x => x ^ 3) = Ok bc) /\
  (exists L Ld, laplacian (dec_of never Periodic) = Ok (L, Ld)) /\ resolved_periodic 3 sin.
Proof.
  split; [exact (Logic.proj1 (proj2 che3_ok))|]. split; [do 2 eexists; reflexivity|]. split; [destruct (C01_primal_cells_tile Chebyshev 3 (-1) 1 ltac:(cbn; lia) ltac:(lra)) as (c & E & _); now exists c|].
  split; [exists (fun i => match i with 3%nat => 1 | _ => 0 end); intro x; cbn; ring|]. split; [intro x; auto_derive; auto; ring|]. split; [intro x; auto_derive; auto; ring|]. split; [eexists; reflexivity|].
  split; [do 2 eexists; reflexivity|]. now apply sin_resolved.
Qed.
(** laplacian(g) returns its two operators on every kind of grid *)
Theorem C89_exists close k : exists L Ld, laplacian (dec_of close k) = Ok (L, Ld).
Proof. destruct k; do 2 eexists; reflexivity. Qed.
