(** C93: Green's identity for the discrete Laplacians of 1D grids and of product grids, their definiteness, and the Poisson problem on product grids. *)
From Coq Require Import ZArith Reals List Lia Lra Arith Bool.
From Coq Require Import ZifyNat ZifyBool.
From Verif Require Import Model.Sym.
From Coquelicot Require Import Coquelicot.
From Verif Require Import Model.Num Model.Np Model.Spectral Model.Basis Model.Grids1 Model.Regular Model.Chebyshev Model.Common Model.Decform Model.Grid2 Model.Laplacian Spec.Trig Spec.Tiling
  Proofs.ListLemmas Proofs.RingSums Proofs.Sums Proofs.Grids1P Proofs.GridsThm Proofs.Lin Proofs.Mirror Proofs.TableLin Proofs.Arr2 Proofs.Grid2P Proofs.Grid2Ops Proofs.LaplaceP Proofs.Cohomology Proofs.Gram Proofs.InjSurj
  Props.Grid1 Props.Grid2 Props.Exact1 Props.Laplacian Props.Cohomology Props.Energy.
Import ListNotations.
Local Open Scope R_scope.
Ltac Zify.zify_post_hook ::= Z.div_mod_to_equations.

(** ** one dimension *)
(** the derivative along primal or dual cells *)
Definition der (k : kind1) (t : bool) (f : list R) : list R := if t then grid_D0 k f else grid_D0d k f.
Lemma adjoint1 k n t a b : big_enough k n -> length a = grid_N k n 0 t -> length b = grid_N k n 0 (negb t) ->
  dot (grid_N k n 0 t) a (der k (negb t) b) = - dot (grid_N k n 1 t) (der k t a) b.
Proof.
  intros B La Lb. pose proof (LaplaceP.smallest k n B) as S. pose proof (N_dual k n 0 t ltac:(lia)) as N0. pose proof (N_dual k n 1 t ltac:(lia)) as N1. cbn [Nat.sub] in N0, N1.
  destruct t; cbn [der negb] in *.
  - pose proof (C06_negative_adjoint (A := R) k n a b S La Lb) as E. change (@nopp R _) with Ropp in E. fold (pairing (grid_D0 k a) b) in E. fold (pairing a (grid_D0d k b)) in E.
    rewrite (pairing_dot _ _ (grid_N k n 1 true)) in E by (rewrite ?(len_D0 k n a La); congruence). rewrite (pairing_dot _ _ (grid_N k n 0 true)) in E by (rewrite ?(len_D0d k n B b Lb); congruence). lra.
  - pose proof (C06_negative_adjoint (A := R) k n b a S Lb La) as E. change (@nopp R _) with Ropp in E. fold (pairing (grid_D0 k b) a) in E. fold (pairing b (grid_D0d k a)) in E.
    rewrite (pairing_dot _ _ (grid_N k n 0 false)) in E by (rewrite ?(len_D0 k n b Lb); congruence). rewrite (pairing_dot _ _ (grid_N k n 1 false)) in E by (rewrite ?(len_D0d k n B a La); congruence). rewrite (dot_sym _ a), (dot_sym _ (grid_D0d k a)). lra.
Qed.
(** Green's identity, on every grid: sum u * H0 (L v) = - sum D u * H1 (D v); t = true: the primal Laplacian L, t = false: the dual one *)
Theorem C93_green close k n L Ld t u v : works close k n -> laplacian (dec_of close k) = Ok (L, Ld) -> length u = grid_N k n 0 t -> length v = grid_N k n 0 t ->
  exists H0 H1 w Hw HDv, tget (Common.dH (dec_of close k)) (0%nat, t) = Ok H0 /\ tget (Common.dH (dec_of close k)) (1%nat, t) = Ok H1 /\
    (if t then L else Ld) v = Ok w /\ H0 w = Ok Hw /\ H1 (der k t v) = Ok HDv /\ pairing u Hw = - pairing (der k t u) HDv.
Proof.
  intros Hw EL Lu Lv. destruct (works_ok close k n Hw) as [B _].
  assert (forall x, length x = grid_N k n 0 t -> length (der k t x) = grid_N k n 1 t) as LD by (intros x Lx; destruct t; [now apply (len_D0 k n)|now apply (len_D0d k n B)]).
  assert (forall x, length x = grid_N k n 0 (negb t) -> length (der k (negb t) x) = grid_N k n 1 (negb t)) as LDd by (intros x Lx; destruct t; [now apply (len_D0d k n B)|now apply (len_D0 k n)]).
  pose proof (h_len close k n Hw 1 t (der k t v) ltac:(lia) (LD v Lv)) as L2. cbn [Nat.sub] in L2. pose proof (LDd _ L2) as L3.
  pose proof (h_len close k n Hw 1 (negb t) _ ltac:(lia) L3) as L4. cbn [Nat.sub] in L4. rewrite negb_involutive in L4.
  destruct (h_get close k n Hw 1 t (der k t v) ltac:(lia) (LD v Lv)) as (H1 & E1 & V1). destruct (h_get close k n Hw 0 t _ ltac:(lia) L4) as (H0 & E0 & V0).
  pose proof (h_inv close k n Hw 1 (negb t) _ ltac:(lia) L3) as I. cbn [Nat.sub] in I. rewrite negb_involutive in I. rewrite I in V0.
  exists H0, H1, (h close k n 1 (negb t) (der k (negb t) (h close k n 1 t (der k t v)))), (der k (negb t) (h close k n 1 t (der k t v))), (h close k n 1 t (der k t v)). split; [exact E0|]. split; [exact E1|]. split; [destruct t; [exact (L_val close k n Hw L Ld EL v Lv)|exact (Ld_val close k n Hw L Ld EL v Lv)]|].
  split; [exact V0|]. split; [exact V1|].
  pose proof (N_dual k n 1 t ltac:(lia)) as N1. pose proof (N_dual k n 0 t ltac:(lia)) as N0. cbn [Nat.sub] in N0, N1.
  rewrite (pairing_dot _ _ (grid_N k n 0 t)) by (congruence || (rewrite LDd by exact L2; exact N0)). rewrite (pairing_dot _ _ (grid_N k n 1 t)) by (congruence || now apply LD). now apply adjoint1.
Qed.
(** which 0-forms have derivative 0 *)
Definition flat_form (k : kind1) (t : bool) (u : list R) : Prop := constant u /\ (k <> Periodic -> t = false -> forall i, nth i u 0 = 0).
Lemma der_ker k n t u : big_enough k n -> length u = grid_N k n 0 t -> ((forall i, nth i (der k t u) 0 = 0) <-> flat_form k t u).
Proof.
  intros B Lu. assert (forall m (l : list R), length l = m -> ((forall i, nth i l 0 = 0) <-> l = cst m 0)) as Z.
  { intros m l Ll. split; [|intros -> i; apply nth_repeat]. intro H. apply (nth_ext _ _ 0 0); [now rewrite length_cst|]. intros i Hi. rewrite H. symmetry. apply nth_cst. lia. }
  unfold flat_form, constant. destruct t; cbn [der].
  - rewrite (Z (grid_N k n 1 true)) by now apply len_D0. split.
    + intro E. split; [|discriminate]. intros i j Hi Hj. rewrite (D0_ker k n B u Lu E). apply cst_constant; rewrite <- (D0_ker k n B u Lu E); assumption.
    + intros [Hc _]. rewrite (constant_cst u _ Lu Hc). apply (D0_cst k n B).
  - rewrite (Z (grid_N k n 1 false)) by now apply (len_D0d k n B). assert (k = Periodic \/ k <> Periodic) as [Hk|Hk] by (destruct k; auto; right; discriminate).
    + split.
      * intro E. split; [|congruence]. intros i j Hi Hj. rewrite (D0d_ker_periodic k n B u Hk Lu E). apply cst_constant; rewrite <- (D0d_ker_periodic k n B u Hk Lu E); assumption.
      * intros [Hc _]. rewrite (constant_cst u _ Lu Hc). now apply (D0d_cst_periodic k n B).
    + split.
      * intro E. pose proof (D0d_ker_interval k n B u Hk Lu E) as E'. split; [|intros _ _; now apply (Z (grid_N k n 0 false))]. intros i j Hi Hj. rewrite E'. apply cst_constant; rewrite <- E'; assumption.
      * intros [_ Hz]. apply (Z (grid_N k n 0 false) u Lu) in Hz; auto. rewrite Hz. exact (LaplaceP.lin_zeros _ _ _ (lin_D0d k n (one_le k n B))).
Qed.
(** on periodic and regular grids the Laplacians are self-adjoint and negative for the inner products of C92, and 0 only on constants (on 0, for the dual
    Laplacian of an interval) *)
Theorem C93_negative close k n L Ld t u v : k <> Chebyshev -> big_enough k n -> laplacian (dec_of close k) = Ok (L, Ld) -> length u = grid_N k n 0 t -> length v = grid_N k n 0 t ->
  exists H0 Lu Lv HLu HLv, tget (Common.dH (dec_of close k)) (0%nat, t) = Ok H0 /\ (if t then L else Ld) u = Ok Lu /\ (if t then L else Ld) v = Ok Lv /\ H0 Lu = Ok HLu /\ H0 Lv = Ok HLv /\
    pairing u HLv = pairing v HLu /\ pairing u HLu <= 0 /\ (pairing u HLu = 0 <-> flat_form k t u).
Proof.
  intros Hk B EL Lu Lv. assert (works close k n) as Hw by (destruct k; [exact B|exact B|congruence]).
  destruct (C93_green close k n L Ld t u v Hw EL Lu Lv) as (H0 & H1 & w & Hv & Dv & E0 & E1 & V & V0 & V1 & P).
  destruct (C93_green close k n L Ld t v u Hw EL Lv Lu) as (H0' & H1' & w' & Hu & Du & E0' & E1' & V' & V0' & V1' & P'). rewrite E0 in E0'. injection E0' as <-. rewrite E1 in E1'. injection E1' as <-.
  destruct (C93_green close k n L Ld t u u Hw EL Lu Lu) as (H0'' & H1'' & w'' & Hu' & Du' & E0'' & E1'' & V'' & V0'' & V1'' & P''). rewrite E0 in E0''. injection E0'' as <-. rewrite E1 in E1''. injection E1'' as <-.
  rewrite V' in V''. injection V'' as <-. rewrite V0' in V0''. injection V0'' as <-. rewrite V1' in V1''. injection V1'' as <-.
  exists H0, w', w, Hu, Hv. repeat (split; [assumption|]).
  assert (forall x, length x = grid_N k n 0 t -> length (der k t x) = grid_N k n 1 t) as LD by (intros x Lx; destruct t; [now apply (len_D0 k n)|now apply (len_D0d k n B)]).
  destruct (C92_inner_product close k n 1 t Hk B ltac:(lia)) as (H1' & E1' & IP). rewrite E1 in E1'. injection E1' as <-.
  destruct (IP (der k t u) (der k t v) (LD u Lu) (LD v Lv)) as (A1 & A2 & X1 & X2 & Sy & Po & De & _). rewrite V1' in X1. injection X1 as <-. rewrite V1 in X2. injection X2 as <-.
  split; [rewrite P, P'; lra|]. split; [lra|]. rewrite <- (der_ker k n t u B Lu), <- De. split; intro; lra.
Qed.

(** ** product grids *)
(** the Laplacian H D H D of a 0-form: b = f.D.H.D.H *)
Definition lap (G : grid2) (t : bool) (f b : list R) : Prop := exists u v w, deriv G 0 t f u /\ star G 1 t u v /\ deriv G 1 (negb t) v w /\ star G 2 (negb t) w b.
Lemma adjoint_dv g t a b : good g -> length a = Nd g 0 t -> length b = Nd g 0 (negb t) -> dot (Nd g 0 t) a (dv g (negb t) b) = - dot (Nd g 1 t) (dv g t a) b.
Proof. intros [B _]. exact (adjoint1 (kd g) (sz g) t a b B). Qed.
Section P.
Variables (close : C -> C -> bool) (gx gy : grid1) (G : grid2) (t : bool).
Hypothesis Sx : sound close gx. Hypothesis Sy : sound close gy. Hypothesis EG : product close gx gy = Ok G.
Notation mx := (Nd gx 0 t). Notation nx := (Nd gx 1 t). Notation my := (Nd gy 0 t). Notation ny := (Nd gy 1 t).
Notation dx := (dv gx t). Notation dy := (dv gy t). Notation dxd := (dv gx (negb t)). Notation dyd := (dv gy (negb t)).
Let Gx : good gx := Logic.proj1 Sx. Let Gy : good gy := Logic.proj1 Sy.
Variables hx0 hx1 hy0 hy1 : list R -> list R.
Definition hok (g : grid1) (d : nat) (h : list R -> list R) : Prop := lin (Nd g d t) (Nd g d t) h /\ forall a, length a = Nd g d t -> hget close g d t a = Ok (h a).
Hypothesis Hx0 : hok gx 0 hx0. Hypothesis Hx1 : hok gx 1 hx1. Hypothesis Hy0 : hok gy 0 hy0. Hypothesis Hy1 : hok gy 1 hy1.
Definition fx (F : nat -> nat -> R) := oncols my hy0 (onrows nx hx1 (onrows mx dx F)).
Definition fy (F : nat -> nat -> R) := onrows mx hx0 (oncols ny hy1 (oncols my dy F)).
Definition Wf (F : nat -> nat -> R) i j : R := oncols ny dyd (fy F) i j + onrows nx dxd (fx F) i j.
Lemma X0 : Nd gx 1 (negb t) = mx. Proof. exact (Nd_dual gx 0 t ltac:(lia)). Qed.
Lemma X1 : Nd gx 0 (negb t) = nx. Proof. exact (Nd_dual gx 1 t ltac:(lia)). Qed.
Lemma Y0 : Nd gy 1 (negb t) = my. Proof. exact (Nd_dual gy 0 t ltac:(lia)). Qed.
Lemma Y1 : Nd gy 0 (negb t) = ny. Proof. exact (Nd_dual gy 1 t ltac:(lia)). Qed.
Lemma ldx : lin mx nx dx. Proof. now apply lin_dv. Qed.
Lemma ldy : lin my ny dy. Proof. now apply lin_dv. Qed.
Lemma ldxd : lin nx mx dxd. Proof. rewrite <- X0, <- X1. now apply lin_dv. Qed.
Lemma ldyd : lin ny my dyd. Proof. rewrite <- Y0, <- Y1. now apply lin_dv. Qed.
Lemma star1 U V w : star G 1 t (flat my nx U ++ flat ny mx V) w <-> w = flat ny mx (fun i j => - onrows mx hx0 (oncols ny hy1 V) i j) ++ flat my nx (oncols my hy0 (onrows nx hx1 U)).
Proof.
  destruct (H1_flat close gx gy Gx Gy t hx0 hx1 hy0 hy1) as (o & Eo & Ho).
  { intros d h [[= <- <-]|[[= <- <-]|[]]]; rewrite Nd_dual by lia; assumption. }
  { intros d h [[= <- <-]|[[= <- <-]|[]]]; rewrite Nd_dual by lia; assumption. }
  rewrite X0, X1, Y0, Y1 in Ho. unfold star. rewrite (hodge_field close gx gy G Gx Gy EG). split.
  - intros (H & EH & V'). rewrite Eo in EH. injection EH as <-. rewrite Ho in V'. congruence.
  - intros ->. exists o. split; [exact Eo|apply Ho].
Qed.
(** deriv, star, deriv of f: the array w of f.D.H.D *)
Lemma stiff f w : isform G 0 t f -> ((exists u v, deriv G 0 t f u /\ star G 1 t u v /\ deriv G 1 (negb t) v w) <-> w = flat my mx (Wf (ent mx f))).
Proof.
  intro Ff. pose proof (form0 close gx gy G t Gx Gy EG f Ff) as Ef.
  assert (forall w', deriv G 1 (negb t) (flat ny mx (fun i j => - fy (ent mx f) i j) ++ flat my nx (fx (ent mx f))) w' <-> w' = flat my mx (Wf (ent mx f))) as D1.
  { intro w'. pose proof (deriv1 close gx gy G (negb t) Gx Gy EG (fun i j => - fy (ent mx f) i j) (fx (ent mx f)) w') as Q. rewrite X0, X1, Y0, Y1 in Q. rewrite Q.
    assert (flat my mx (fun i j => - oncols ny dyd (fun i j => - fy (ent mx f) i j) i j + onrows nx dxd (fx (ent mx f)) i j) = flat my mx (Wf (ent mx f))) as ->; [|reflexivity].
    apply flat_ext. intros i j Hi Hj. unfold Wf. rewrite (oncols_opp ny my dyd) by (auto using ldyd). ring. }
  split.
  - intros (u & v & H0 & H1 & H2). rewrite Ef in H0. apply (deriv0 close gx gy G t Gx Gy EG) in H0. subst u. apply star1 in H1. subst v. now apply D1 in H2.
  - intros ->. eexists _, _. split; [rewrite Ef at 1; now apply (deriv0 close gx gy G t Gx Gy EG)|]. split; [now apply star1|]. now apply D1.
Qed.
Lemma lap_iff f b : isform G 0 t f -> isform G 0 t b -> (lap G t f b <-> star G 0 t b (flat my mx (Wf (ent mx f)))).
Proof.
  intros Ff Fb. split.
  - intros (u & v & w & D0 & S1 & D1 & S2). assert (w = flat my mx (Wf (ent mx f))) as -> by (apply stiff; auto; now exists u, v).
    assert (isform G 2 (negb t) (flat my mx (Wf (ent mx f)))) as F2. { apply (isform_len close gx gy G (negb t) Gx Gy EG); [lia|]. cbn [N2]. now rewrite length_flat, X0, Y0. }
    destruct (C44_hodge close gx gy G 2 (negb t) _ Sx Sy EG ltac:(lia) F2) as (H & H' & g & EH & EH' & V & LV & I). rewrite negb_involutive in EH'. cbn [Nat.sub Nat.eqb] in *.
    destruct S2 as (H2 & E2 & V2). rewrite EH in E2. injection E2 as <-. rewrite V in V2. injection V2 as <-. now exists H'.
  - intros (H & EH & V). assert (exists u v, deriv G 0 t f u /\ star G 1 t u v /\ deriv G 1 (negb t) v (flat my mx (Wf (ent mx f)))) as (u & v & D0 & S1 & D1) by now apply stiff.
    exists u, v, (flat my mx (Wf (ent mx f))). repeat (split; [assumption|]).
    destruct (C44_hodge close gx gy G 0 t _ Sx Sy EG ltac:(lia) Fb) as (H0 & H' & g & E0 & E' & V0 & LV & I). cbn [Nat.sub Nat.eqb] in *. rewrite EH in E0. injection E0 as <-. rewrite V in V0. injection V0 as <-. now exists H'.
Qed.
Lemma lap_total f : isform G 0 t f -> exists b, isform G 0 t b /\ lap G t f b.
Proof.
  intro Ff. assert (exists u v, deriv G 0 t f u /\ star G 1 t u v /\ deriv G 1 (negb t) v (flat my mx (Wf (ent mx f)))) as (u & v & D0 & S1 & D1) by now apply stiff.
  assert (isform G 2 (negb t) (flat my mx (Wf (ent mx f)))) as F2. { apply (isform_len close gx gy G (negb t) Gx Gy EG); [lia|]. cbn [N2]. now rewrite length_flat, X0, Y0. }
  destruct (C44_hodge close gx gy G 2 (negb t) _ Sx Sy EG ltac:(lia) F2) as (H & H' & g & EH & EH' & V & LV & I). rewrite negb_involutive in LV. exists g. split; [exact LV|]. exists u, v, (flat my mx (Wf (ent mx f))). repeat (split; [assumption|]). now exists H.
Qed.
(** Green's identity for the array w *)
Lemma green_flat A F : dot (my * mx) (flat my mx A) (flat my mx (Wf F)) =
  - (dot (my * nx) (flat my nx (onrows mx dx A)) (flat my nx (fx F)) + dot (ny * mx) (flat ny mx (oncols my dy A)) (flat ny mx (fy F))).
Proof.
  rewrite !dot_flat. unfold Wf.
  rewrite (Rsum_ext my _ (fun i => Rsum mx (fun j => A i j * oncols ny dyd (fy F) i j) + Rsum mx (fun j => A i j * onrows nx dxd (fx F) i j))) by (intros i Hi; rewrite <- Rsum_plus; apply Rsum_ext; intros; ring).
  rewrite Rsum_plus. rewrite Ropp_plus_distr, Rplus_comm. f_equal.
  - rewrite <- Rsum_opp. apply Rsum_ext. intros i Hi.
    pose proof (adjoint_dv gx t (tab mx (A i)) (tab nx (fx F i)) Gx (length_tab _ _)) as Q. rewrite X1, length_tab in Q. specialize (Q eq_refl).
    unfold dot in Q. rewrite (Rsum_ext mx _ (fun j => nth j (tab mx (A i)) 0 * nth j (dxd (tab nx (fx F i))) 0)) by (intros j Hj; now rewrite nth_tab). rewrite Q. f_equal. apply Rsum_ext. intros j Hj. now rewrite nth_tab.
  - rewrite (Rsum_swap my mx), (Rsum_swap ny mx), <- Rsum_opp. apply Rsum_ext. intros j Hj.
    pose proof (adjoint_dv gy t (tab my (fun i => A i j)) (tab ny (fun i => fy F i j)) Gy (length_tab _ _)) as Q. rewrite Y1, length_tab in Q. specialize (Q eq_refl).
    unfold dot in Q. rewrite (Rsum_ext my _ (fun i => nth i (tab my (fun i => A i j)) 0 * nth i (dyd (tab ny (fun i => fy F i j))) 0)) by (intros i Hi; now rewrite nth_tab). rewrite Q. f_equal. apply Rsum_ext. intros i Hi. now rewrite nth_tab.
Qed.
Lemma pairing2_turned u v U V : length u = (my * nx)%nat -> length v = (ny * mx)%nat ->
  pairing2 gx gy 1 t (u ++ v) (flat ny mx (fun i j => - V i j) ++ flat my nx U) = dot (my * nx) u (flat my nx U) + dot (ny * mx) v (flat ny mx V).
Proof.
  intros Lu Lv. unfold pairing2, horizontal. cbn [Nat.eqb]. rewrite X0, Y1. rewrite !firstn_app_exact, !skipn_app, !skipn_all2, !length_flat, Lu, !Nat.sub_diag by (rewrite ?length_flat; lia). cbn [skipn app].
  rewrite (skipn_all2 u) by lia. cbn [app]. rewrite (pairing_dot _ _ (my * nx)), (pairing_dot _ _ (ny * mx)) by (rewrite ?length_flat; auto). unfold Rminus. f_equal. unfold dot. rewrite <- Rsum_opp. apply Rsum_ext. intros i Hi. rewrite <- (flat_opp ny mx V). rewrite (nth_map_ Ropp _ i 0 0) by (rewrite length_flat; lia). ring.
Qed.
Lemma green2 f g : isform G 0 t f -> isform G 0 t g ->
  exists b Hb Dg Df HDf, isform G 0 t b /\ lap G t f b /\ star G 0 t b Hb /\ deriv G 0 t g Dg /\ deriv G 0 t f Df /\ star G 1 t Df HDf /\ Hb = flat my mx (Wf (ent mx f)) /\ pairing g Hb = - pairing2 gx gy 1 t Dg HDf.
Proof.
  intros Ff Fg. destruct (lap_total f Ff) as (b & Fb & Lb). pose proof (form0 close gx gy G t Gx Gy EG f Ff) as Ef. pose proof (form0 close gx gy G t Gx Gy EG g Fg) as Eg.
  exists b, (flat my mx (Wf (ent mx f))), (flat my nx (onrows mx dx (ent mx g)) ++ flat ny mx (oncols my dy (ent mx g))), (flat my nx (onrows mx dx (ent mx f)) ++ flat ny mx (oncols my dy (ent mx f))),
    (flat ny mx (fun i j => - fy (ent mx f) i j) ++ flat my nx (fx (ent mx f))).
  split; [exact Fb|]. split; [exact Lb|]. split; [now apply lap_iff|].
  split; [rewrite Eg at 1; now apply (deriv0 close gx gy G t Gx Gy EG)|]. split; [rewrite Ef at 1; now apply (deriv0 close gx gy G t Gx Gy EG)|]. split; [now apply star1|]. split; [reflexivity|].
  rewrite (pairing_dot _ _ (my * mx)) by (rewrite ?length_flat; auto; rewrite Eg; apply length_flat). rewrite Eg at 1. rewrite green_flat. f_equal. symmetry. apply pairing2_turned; apply length_flat.
Qed.
Lemma ent_flatR r c F i j : (i < r)%nat -> (j < c)%nat -> ent c (flat r c F) i j = F i j. Proof. intros. unfold ent. now apply Grid2P.nth_flat. Qed.
Lemma lin_W : lin (my * mx) (my * mx) (fun f => flat my mx (Wf (ent mx f))).
Proof.
  set (ry := fun f : list R => flat my mx (oncols ny dyd (ent mx (flat ny mx (onrows mx hx0 (ent mx (flat ny mx (oncols ny hy1 (ent mx (flat ny mx (oncols my dy (ent mx f)))))))))))).
  set (rx := fun f : list R => flat my mx (onrows nx dxd (ent nx (flat my nx (oncols my hy0 (ent nx (flat my nx (onrows nx hx1 (ent nx (flat my nx (onrows mx dx (ent mx f)))))))))))).
  apply (lin_ext _ _ _ (fun f => vadd (ry f) (rx f))).
  - intros f Lf. unfold ry, rx, vadd. rewrite flat_zip. apply flat_ext. intros i j Hi Hj. unfold Wf. change (@nadd R _) with Rplus. f_equal.
    + apply oncols_ext. intros i1 Hi1. rewrite ent_flatR by auto. unfold fy. apply onrows_ext. intros j1 Hj1. rewrite ent_flatR by auto. apply oncols_ext. intros i2 Hi2. rewrite ent_flatR by auto. reflexivity.
    + apply onrows_ext. intros i1 Hi1. rewrite ent_flatR by auto. unfold fx. apply oncols_ext. intros j1 Hj1. rewrite ent_flatR by auto. apply onrows_ext. intros i2 Hi2. rewrite ent_flatR by auto. reflexivity.
  - apply lin_vadd.
    + pose proof (lin_cols mx my ny dy ldy) as A. pose proof (lin_cols mx ny ny hy1 (Logic.proj1 Hy1)) as B. pose proof (lin_rows ny mx mx hx0 (Logic.proj1 Hx0)) as C. pose proof (lin_cols mx ny my dyd ldyd) as D.
      exact (lin_comp (A := R) _ _ _ _ _ (lin_comp (A := R) _ _ _ _ _ (lin_comp (A := R) _ _ _ _ _ A B) C) D).
    + pose proof (lin_rows my mx nx dx ldx) as A. pose proof (lin_rows my nx nx hx1 (Logic.proj1 Hx1)) as B. pose proof (lin_cols nx my my hy0 (Logic.proj1 Hy0)) as C. pose proof (lin_rows my nx mx dxd ldxd) as D.
      exact (lin_comp (A := R) _ _ _ _ _ (lin_comp (A := R) _ _ _ _ _ (lin_comp (A := R) _ _ _ _ _ A B) C) D).
Qed.
End P.

Lemma hok_exists close g t d : sound close g -> (d <= 1)%nat -> exists h, hok close t g d h.
Proof. intros Sg Hd. destruct (h_pair close g d t Sg Hd) as (h & h' & Lh & _ & Eh & _). exists h. split; [|exact Eh]. now rewrite (Nd_dual g d t Hd) in Lh. Qed.
Lemma deriv_fun G d t f g g' : deriv G d t f g -> deriv G d t f g' -> g = g'. Proof. intros (D & E & V) (D' & E' & V'). congruence. Qed.
Lemma star_fun G d t f g g' : star G d t f g -> star G d t f g' -> g = g'. Proof. intros (D & E & V) (D' & E' & V'). congruence. Qed.
Lemma lap_fun G t f b b' : lap G t f b -> lap G t f b' -> b = b'.
Proof.
  intros (u & v & w & H1 & H2 & H3 & H4) (u' & v' & w' & K1 & K2 & K3 & K4). rewrite (deriv_fun _ _ _ _ _ _ K1 H1) in *. rewrite (star_fun _ _ _ _ _ _ K2 H2) in *. rewrite (deriv_fun _ _ _ _ _ _ K3 H3) in *. exact (star_fun _ _ _ _ _ _ H4 K4).
Qed.
(** Green's identity on product grids: the sum of g * H (Lap f) is minus the sum of (D g) * H (D f) *)
Theorem C93_green_2d close gx gy G t f g : sound close gx -> sound close gy -> product close gx gy = Ok G -> isform G 0 t f -> isform G 0 t g ->
  exists Lf HLf Df Dg HDf, lap G t f Lf /\ star G 0 t Lf HLf /\ deriv G 0 t f Df /\ deriv G 0 t g Dg /\ star G 1 t Df HDf /\ pairing g HLf = - pairing2 gx gy 1 t Dg HDf.
Proof.
  intros Sx Sy EG Ff Fg. destruct (hok_exists close gx t 0 Sx ltac:(lia)) as (hx0 & Hx0). destruct (hok_exists close gx t 1 Sx ltac:(lia)) as (hx1 & Hx1).
  destruct (hok_exists close gy t 0 Sy ltac:(lia)) as (hy0 & Hy0). destruct (hok_exists close gy t 1 Sy ltac:(lia)) as (hy1 & Hy1).
  destruct (green2 close gx gy G t Sx Sy EG hx0 hx1 hy0 hy1 Hx0 Hx1 Hy0 Hy1 f g Ff Fg) as (b & Hb & Dg & Df & HDf & _ & A1 & A2 & A3 & A4 & A5 & _ & A6). exists b, Hb, Df, Dg, HDf. auto 10.
Qed.
Section N.
Variables (close : C -> C -> bool) (gx gy : grid1) (G : grid2) (t : bool).
Hypothesis Gx : good gx. Hypothesis Gy : good gy. Hypothesis Kx : kd gx <> Chebyshev. Hypothesis Ky : kd gy <> Chebyshev. Hypothesis EG : product close gx gy = Ok G.
Let Sx : sound close gx := sound_x close gx Gx Kx. Let Sy : sound close gy := sound_y close gy Gy Ky.
(** on products of periodic and regular grids the Laplacian of 0-forms is self-adjoint and negative for the inner product of C92, and the energy is 0 only for constants (for 0, when one
    of the axes has boundary ends the dual 0-forms vanish at) *)
Theorem C93_negative_2d f g : isform G 0 t f -> isform G 0 t g ->
  exists Lf Lg HLf HLg, lap G t f Lf /\ lap G t g Lg /\ star G 0 t Lf HLf /\ star G 0 t Lg HLg /\
    pairing f HLg = pairing g HLf /\ pairing f HLf <= 0 /\ (pairing f HLf = 0 <-> constant f /\ (~ (free gx t /\ free gy t) -> forall i, nth i f 0 = 0)).
Proof.
  intros Ff Fg. destruct (C93_green_2d close gx gy G t f g Sx Sy EG Ff Fg) as (Lf & HLf & Df & Dg & HDf & A1 & A2 & A3 & A4 & A5 & A6).
  destruct (C93_green_2d close gx gy G t g f Sx Sy EG Fg Ff) as (Lg & HLg & Dg' & Df' & HDg & B1 & B2 & B3 & B4 & B5 & B6). pose proof (deriv_fun _ _ _ _ _ _ A4 B3) as <-. pose proof (deriv_fun _ _ _ _ _ _ A3 B4) as <-.
  destruct (C93_green_2d close gx gy G t f f Sx Sy EG Ff Ff) as (Lf' & HLf' & Df' & Df'' & HDf' & C1 & C2 & C3 & C4 & C5 & C6). pose proof (lap_fun _ _ _ _ _ A1 C1) as <-. pose proof (star_fun _ _ _ _ _ _ A2 C2) as <-.
  pose proof (deriv_fun _ _ _ _ _ _ A3 C3) as <-. pose proof (deriv_fun _ _ _ _ _ _ A3 C4) as <-. pose proof (star_fun _ _ _ _ _ _ A5 C5) as <-.
  assert (forall x Dx, isform G 0 t x -> deriv G 0 t x Dx -> isform G 1 t Dx) as FD.
  { intros x Dx Fx H. rewrite (form0 close gx gy G t Gx Gy EG x Fx) in H. apply (deriv0 close gx gy G t Gx Gy EG) in H. subst Dx. now apply (form1_flat close). }
  pose proof (FD f Df Ff A3) as FDf. pose proof (FD g Dg Fg A4) as FDg.
  destruct (C92_inner_product_2d close gx gy G t Gx Gy Kx Ky EG 1 Df Dg ltac:(lia) FDf FDg) as (Ha & Hb & D1 & D2 & Sy' & Po & De & _). pose proof (star_fun _ _ _ _ _ _ A5 D1) as <-. pose proof (star_fun _ _ _ _ _ _ B5 D2) as <-.
  exists Lf, Lg, HLf, HLg. repeat (split; [assumption|]). split; [rewrite A6, B6; lra|]. split; [rewrite C6; lra|]. rewrite <- (C90_closed_0 close gx gy G t Gx Gy EG f Ff). rewrite C6. split.
  - intro H. assert (pairing2 gx gy 1 t Df HDf = 0) as Z by lra. pose proof (Logic.proj1 De Z) as Z'. exists (length Df). assert (Df = repeat 0 (length Df)) as E; [|now rewrite <- E].
    apply (nth_ext _ _ 0 0); [now rewrite repeat_length|]. intros i _. rewrite Z'. symmetry. apply nth_repeat.
  - intros (n & H). pose proof (deriv_fun _ _ _ _ _ _ A3 H) as E. assert (pairing2 gx gy 1 t Df HDf = 0); [|lra]. apply (Logic.proj2 De). intro i. rewrite E. apply nth_repeat.
Qed.
Lemma firstn_zeros n m : firstn m (repeat 0 n) = repeat 0 (min m n). Proof. revert m. induction n as [|n IH]; intros [|m]; cbn; auto. now rewrite IH. Qed.
Lemma skipn_zeros n m : skipn m (repeat 0 n) = repeat 0 (n - m). Proof. revert m. induction n as [|n IH]; intros [|m]; cbn; auto. Qed.
Lemma pairing_zeros n b : pairing (repeat 0 n) b = 0.
Proof. unfold pairing. revert b. induction n as [|n IH]; intro b; [reflexivity|]. destruct b as [|x b]; [reflexivity|]. unfold vmul in *. cbn [repeat zipw]. rewrite lsum_consR, IH. change (@nmul R _) with Rmult. ring. Qed.
Lemma pairing2_zeros n b : pairing2 gx gy 1 t (repeat 0 n) b = 0.
Proof.
  unfold pairing2. cbn [Nat.eqb]. assert (forall m, firstn m (repeat 0 n) = repeat 0 (min m n)) as -> by (intro m; apply firstn_zeros). assert (forall m, skipn m (repeat 0 n) = repeat 0 (n - m)) as -> by (intro m; apply skipn_zeros). rewrite !pairing_zeros. ring.
Qed.
Lemma pairing_ones m (f : list R) : length f = m -> pairing (repeat 1 m) f = lsum f.
Proof. unfold pairing. revert m. induction f as [|x f IH]; intros m L; subst m; [reflexivity|]. cbn [length repeat]. unfold vmul in *. cbn [zipw]. rewrite !lsum_consR, IH by auto. change (@nmul R _) with Rmult. ring. Qed.
Lemma pairing_zeros_r n b : pairing b (repeat 0 n) = 0.
Proof. unfold pairing. revert b. induction n as [|n IH]; intro b; [destruct b; reflexivity|]. destruct b as [|x b]; [reflexivity|]. unfold vmul in *. cbn [repeat zipw]. rewrite lsum_consR, IH. change (@nmul R _) with Rmult. ring. Qed.
Lemma nth_repeat_lt (c : R) n i : (i < n)%nat -> nth i (repeat c n) 0 = c. Proof. intro H. rewrite (nth_indep _ 0 c) by now rewrite repeat_length. apply nth_repeat. Qed.
Lemma lsum_repeat (c : R) n : lsum (repeat c n) = c * INR n.
Proof. induction n as [|n IH]; [cbn; unfold lsum; cbn; change (@nzero R _) with 0; ring|]. cbn [repeat]. rewrite lsum_consR, IH, S_INR. ring. Qed.
Lemma lsum_axpyR c (u v : list R) : length u = length v -> lsum (axpy c u v) = c * lsum u + lsum v. Proof. intro H. now apply (lsum_axpy (length v)). Qed.
(** the Poisson equation Lap f = q on products of periodic and regular grids: it has a solution exactly when the sum of H q is 0 (the condition is void when an axis is not free), and
    the solution is unique up to a constant (unique, when an axis is not free) *)
Theorem C93_poisson_2d q : isform G 0 t q ->
  ((exists f, isform G 0 t f /\ lap G t f q) <-> (free gx t -> free gy t -> exists Hq, star G 0 t q Hq /\ lsum Hq = 0)) /\
  (forall f f', isform G 0 t f -> isform G 0 t f' -> lap G t f q -> lap G t f' q -> exists c, f' = map (Rplus c) f /\ (~ (free gx t /\ free gy t) -> c = 0)).
Proof.
  intro Fq. destruct (hok_exists close gx t 0 Sx ltac:(lia)) as (hx0 & Hx0). destruct (hok_exists close gx t 1 Sx ltac:(lia)) as (hx1 & Hx1).
  destruct (hok_exists close gy t 0 Sy ltac:(lia)) as (hy0 & Hy0). destruct (hok_exists close gy t 1 Sy ltac:(lia)) as (hy1 & Hy1).
  set (N := (Nd gy 0 t * Nd gx 0 t)%nat). assert (0 < N)%nat as PN by (pose proof (Nd_pos gx 0 t Gx); pose proof (Nd_pos gy 0 t Gy); unfold N; nia).
  assert (forall f, isform G 0 t f <-> length f = N) as FL by (intro f; apply (isform_len close gx gy G t Gx Gy EG 0 f); lia).
  set (W := fun f : list R => flat (Nd gy 0 t) (Nd gx 0 t) (Wf gx gy t hx0 hx1 hy0 hy1 (ent (Nd gx 0 t) f))).
  assert (lin N N W) as LW by exact (lin_W close gx gy t Sx Sy hx0 hx1 hy0 hy1 Hx0 Hx1 Hy0 Hy1).
  assert (forall f, length f = N -> length (W f) = N) as WL by (intros; apply length_flat).
  assert (forall f, length f = N -> (lap G t f q <-> star G 0 t q (W f))) as LI by (intros f Lf; apply (lap_iff close gx gy G t Sx Sy EG hx0 hx1 hy0 hy1 Hx0 Hx1 Hy0 Hy1); auto; now apply FL).
  assert (exists Q, star G 0 t q Q /\ length Q = N) as (Q & SQ & LQ).
  { destruct (C92_inner_product_2d close gx gy G t Gx Gy Kx Ky EG 0 q q ltac:(lia) Fq Fq) as (Q & _ & SQ & _). exists Q. split; [exact SQ|]. destruct (C44_hodge close gx gy G 0 t q Sx Sy EG ltac:(lia) Fq) as (H & H' & g & E & E' & V & LV & I).
    destruct SQ as (H0 & E0 & V0). rewrite E in E0. injection E0 as <-. rewrite V in V0. injection V0 as <-. cbn [Nat.sub] in LV.
    assert (isform G 2 (negb t) g) as F2 by exact LV. apply (isform_len close gx gy G (negb t) Gx Gy EG 2 g ltac:(lia)) in F2. rewrite F2. cbn [N2]. unfold N. now rewrite (X0 gx t), (Y0 gy t). }
  assert (forall f, length f = N -> (lap G t f q <-> W f = Q)) as LQI by (intros f Lf; rewrite LI by auto; split; [intro H; exact (star_fun _ _ _ _ _ _ H SQ)|now intros ->]).
  (* the kernel *)
  assert (forall f, length f = N -> W f = repeat 0 N -> constant f /\ (~ (free gx t /\ free gy t) -> forall i, nth i f 0 = 0)) as KW.
  { intros f Lf Z. assert (isform G 0 t f) as Ff by now apply FL. destruct (C93_negative_2d f f Ff Ff) as (Lf' & _ & HLf & _ & A1 & _ & A2 & _ & _ & _ & De). apply De.
    destruct (green2 close gx gy G t Sx Sy EG hx0 hx1 hy0 hy1 Hx0 Hx1 Hy0 Hy1 f f Ff Ff) as (b & Hb & Dg & Df & HDf & _ & B1 & B2 & _ & _ & _ & B3 & _). pose proof (lap_fun _ _ _ _ _ A1 B1) as <-. pose proof (star_fun _ _ _ _ _ _ A2 B2) as <-.
    fold (W f) in B3. rewrite B3, Z. apply pairing_zeros_r. }
  (* the image *)
  assert (free gx t -> free gy t -> forall f, length f = N -> lsum (W f) = 0) as SW.
  { intros F1 F2 f Lf. assert (isform G 0 t f) as Ff by now apply FL. assert (isform G 0 t (repeat 1 N)) as F1' by (apply FL, repeat_length).
    destruct (green2 close gx gy G t Sx Sy EG hx0 hx1 hy0 hy1 Hx0 Hx1 Hy0 Hy1 f (repeat 1 N) Ff F1') as (b & Hb & Dg & Df & HDf & _ & _ & _ & B4 & _ & _ & B3 & B6).
    assert (closed G 0 t (repeat 1 N)) as (n & Hn). { apply (C90_closed_0 close gx gy G t Gx Gy EG _ F1'). split; [|tauto]. intros i j Hi Hj. rewrite repeat_length in *. now rewrite !nth_repeat_lt by auto. }
    pose proof (deriv_fun _ _ _ _ _ _ B4 Hn) as ->. fold (W f) in B3. subst Hb. rewrite pairing2_zeros, pairing_ones in B6 by auto. lra. }
  split; [split|].
  - intros (f & Ff & Hf) F1 F2. exists Q. split; [exact SQ|]. apply FL in Ff. apply (LQI f Ff) in Hf. rewrite <- Hf. now apply SW.
  - intro Hs. destruct (free_dec gx t) as [[F1 _]|[F1 _]]; [destruct (free_dec gy t) as [[F2 _]|[F2 _]]|].
    + destruct (Hs F1 F2) as (Q' & SQ' & ZQ). pose proof (star_fun _ _ _ _ _ _ SQ' SQ) as ->.
      set (M := fun f : list R => axpy (lsum f) (repeat 1 N) (W f)).
      assert (lin N N M) as LM.
      { split; [intros f Lf; unfold M; rewrite length_axpy; rewrite ?repeat_length, ?WL; auto|]. intros c u v Lu Lv. unfold M. destruct LW as [LW1 LW2]. rewrite LW2 by auto. change (@nzero R _) with 0 in *.
        apply (nth_ext _ _ 0 0); [rewrite !length_axpy; rewrite ?length_axpy; rewrite ?repeat_length, ?WL; auto|]. intros i Hi. rewrite !nth_axpyR by (rewrite ?length_axpy; rewrite ?repeat_length, ?WL; auto; rewrite ?length_axpy; rewrite ?repeat_length, ?WL; auto).
        assert (lsum (axpy c u v) = c * lsum u + lsum v) as -> by (apply lsum_axpyR; congruence). ring. }
      assert (forall f, length f = N -> lsum (M f) = lsum f * INR N) as SM. { intros f Lf. unfold M. rewrite lsum_axpyR by (rewrite ?repeat_length, ?WL; auto). rewrite (SW F1 F2 f Lf), lsum_repeat. ring. }
      assert (0 < INR N) as PR by now apply lt_0_INR.
      destruct (inj_surj N M LM) with (b := Q) as (f & Lf & Ef); auto.
      { intros f Lf Z. assert (lsum f = 0) as S0. { pose proof (SM f Lf) as H. rewrite Z in H. rewrite lsum_repeat in H. nra. }
        assert (W f = repeat 0 N) as Z'. { rewrite <- Z. unfold M. rewrite S0. apply (nth_ext _ _ 0 0); [rewrite length_axpy; rewrite ?repeat_length, ?WL; auto|]. intros i Hi. rewrite nth_axpyR by (rewrite ?repeat_length, ?WL; auto). ring. }
        destruct (KW f Lf Z') as [Hc _]. pose proof (constant_cst f N Lf Hc) as Ec. rewrite Ec in S0. unfold cst in S0. rewrite lsum_repeat in S0. assert (nth 0 f 0 = 0) as Z0 by nra. rewrite Z0 in Ec. exact Ec. }
      exists f. split; [now apply FL|]. apply LQI; auto. assert (lsum f = 0) as S0 by (pose proof (SM f Lf) as H; rewrite Ef in H; nra). rewrite <- Ef. unfold M. rewrite S0.
      apply (nth_ext _ _ 0 0); [rewrite length_axpy; rewrite ?repeat_length, ?WL; auto|]. intros i Hi. rewrite nth_axpyR by (rewrite ?repeat_length, ?WL; auto). ring.
    + destruct (inj_surj N W LW) with (b := Q) as (f & Lf & Ef); auto. { intros f Lf Z. destruct (KW f Lf Z) as [_ Hz]. apply (nth_ext _ _ 0 0); [now rewrite repeat_length|]. intros i _. rewrite Hz by tauto. symmetry. apply nth_repeat. }
      exists f. split; [now apply FL|]. now apply LQI.
    + destruct (inj_surj N W LW) with (b := Q) as (f & Lf & Ef); auto. { intros f Lf Z. destruct (KW f Lf Z) as [_ Hz]. apply (nth_ext _ _ 0 0); [now rewrite repeat_length|]. intros i _. rewrite Hz by tauto. symmetry. apply nth_repeat. }
      exists f. split; [now apply FL|]. now apply LQI.
  - intros f f' Ff Ff' Hf Hf'. apply FL in Ff, Ff'. apply LQI in Hf, Hf'; auto. set (e := axpy (-1) f f'). assert (length e = N) as Le by (unfold e; rewrite length_axpy; congruence).
    assert (W e = repeat 0 N) as Z. { unfold e. destruct LW as [_ LW2]. rewrite LW2 by auto. rewrite Hf, Hf'. apply (nth_ext _ _ 0 0); [rewrite length_axpy, repeat_length; auto|]. intros i _. rewrite nth_axpyR by auto. rewrite nth_repeat. lra. }
    destruct (KW e Le Z) as [Hc Hz]. exists (nth 0 e 0). split; [|intro H; now apply Hz]. apply (nth_ext _ _ 0 (nth 0 e 0 + 0)); [rewrite map_length; congruence|]. intros i Hi. rewrite map_nth.
    rewrite (Hc 0%nat i) by lia. unfold e. rewrite nth_axpyR by congruence. lra.
Qed.
End N.
(** on the cylinder of C92, dual 0-forms: the Poisson equation with a unit right hand side has a solution, with negative energy *)
Example C93_instance : exists G q f Lf HLf, product (fun _ _ => true) cyl_x cyl_y = Ok G /\ q = 1 :: repeat 0 5 /\ isform G 0 false q /\ isform G 0 false f /\ lap G false f q /\ lap G false f Lf /\ star G 0 false Lf HLf /\ pairing f HLf < 0.
Proof.
  destruct cyl_good as [Gx Gy]. destruct (C46_product_exists (fun _ _ => true) cyl_x cyl_y Gx Gy) as (G & EG). exists G, (1 :: repeat 0 5).
  assert (isform G 0 false (1 :: repeat 0 5)) as Fq by (apply (isform_len (fun _ _ => true) cyl_x cyl_y G false Gx Gy EG 0); [lia|reflexivity]).
  assert (kd cyl_x <> Chebyshev) as Kx by discriminate. assert (kd cyl_y <> Chebyshev) as Ky by discriminate.
  destruct (C93_poisson_2d (fun _ _ => true) cyl_x cyl_y G false Gx Gy Kx Ky EG _ Fq) as [[_ E] _]. destruct E as (f & Ff & Hf). { intros _ [X|X]; discriminate. }
  destruct (C93_negative_2d (fun _ _ => true) cyl_x cyl_y G false Gx Gy Kx Ky EG f f Ff Ff) as (Lf & _ & HLf & _ & A1 & _ & A2 & _ & _ & P & D). exists f, Lf, HLf. repeat (split; [assumption || reflexivity|]).
  destruct P as [P|P]; [exact P|]. exfalso. apply D in P as [_ Z]. assert (forall i, nth i f 0 = 0) as Z0 by (apply Z; intros [_ [X|X]]; discriminate).
  assert (f = repeat 0 6) as Ez. { apply (isform_len (fun _ _ => true) cyl_x cyl_y G false Gx Gy EG 0) in Ff; [|lia]. apply (nth_ext _ _ 0 0); [exact Ff|]. intros i _. rewrite Z0. symmetry. apply nth_repeat. }
  assert (isform G 0 false (repeat 0 6)) as F0 by (rewrite <- Ez; exact Ff).
  assert (lap G false (repeat 0 6) (repeat 0 6)) as L0.
  { assert (closed G 0 false (repeat 0 6)) as (n & D0). { apply (C90_closed_0 (fun _ _ => true) cyl_x cyl_y G false Gx Gy EG _ F0). split; [intros i j _ _; now rewrite !nth_repeat|intros _ i; apply nth_repeat]. }
    pose proof (sound_x (fun _ _ => true) cyl_x Gx Kx) as Sx. pose proof (sound_y (fun _ _ => true) cyl_y Gy Ky) as Sy.
    destruct (hok_exists (fun _ _ => true) cyl_x false 0 Sx ltac:(lia)) as (hx0 & Hx0). destruct (hok_exists (fun _ _ => true) cyl_x false 1 Sx ltac:(lia)) as (hx1 & Hx1).
    destruct (hok_exists (fun _ _ => true) cyl_y false 0 Sy ltac:(lia)) as (hy0 & Hy0). destruct (hok_exists (fun _ _ => true) cyl_y false 1 Sy ltac:(lia)) as (hy1 & Hy1).
    destruct (green2 (fun _ _ => true) cyl_x cyl_y G false Sx Sy EG hx0 hx1 hy0 hy1 Hx0 Hx1 Hy0 Hy1 _ _ F0 F0) as (b & Hb & Dg & Df & HDf & Fb & B1 & B2 & _ & _ & _ & B3 & _).
    assert (Hb = repeat 0 6) as EHb. { rewrite B3. pose proof (lin_W (fun _ _ => true) cyl_x cyl_y false Sx Sy hx0 hx1 hy0 hy1 Hx0 Hx1 Hy0 Hy1) as LW. exact (LaplaceP.lin_zeros _ _ _ LW). }
    rewrite EHb in B2. pose proof (star_inj (fun _ _ => true) cyl_x cyl_y G false Gx Gy Kx Ky EG 0 b _ 6 ltac:(lia) Fb B2 eq_refl) as Eb. change (N2 cyl_x cyl_y 0 false) with 6%nat in Eb. now rewrite Eb in B1. }
  rewrite Ez in Hf. pose proof (lap_fun _ _ _ _ _ Hf L0) as X. injection X as X. lra.
Qed.
