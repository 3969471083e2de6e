(** C88: the numerical projections (projection_2d) and boundary terms (Grid_2D.boundary_condition) agree with the symbolic ones
    (dec.P, dec.BC) on product grids, and satisfy Stokes' theorem with the discrete derivative. *)
From Coq Require Import ZArith Reals List Lia Lra Arith Bool.
From Coq Require Import ZifyNat ZifyBool.
From Verif Require Import Model.Sym.
From Coquelicot Require Import Coquelicot.
From Verif Require Import Model.Num Model.Np Model.Spectral Model.Basis Model.Grids1 Model.Regular Model.Chebyshev Model.Common Model.Decform Model.Grid2 Model.Integrate Model.Project2 Spec.Tiling Spec.Plane
  Proofs.ListLemmas Proofs.RIntLemmas Proofs.RingSums Proofs.Grids1P Proofs.GridsThm Proofs.Lin Proofs.TableLin Proofs.Arr2 Proofs.Grid2P Proofs.Grid2Ops Proofs.Fubini Proofs.Stokes2 Proofs.Triangle Proofs.Project2P Props.Simplex Props.Stokes2.
Import ListNotations.
Local Open Scope nat_scope.
Ltac Zify.zify_post_hook ::= Z.div_mod_to_equations.

Section P.
Variables (close : C -> C -> bool) (gx gy : grid1) (G : grid2).
Hypothesis Gx : good gx. Hypothesis Gy : good gy. Hypothesis EG : product close gx gy = Ok G.

(** the cells as maps over the list of the positions *)
Definition posns (r c : nat) : list (nat * nat) := map (fun k => (k / c, k mod c)) (seq 0 (r * c)).
Lemma flat_posns r c F : flat r c F = map (fun p => F (fst p) (snd p)) (posns r c).
Proof. unfold flat, mk2, posns, tab. cbn [dat]. now rewrite map_map. Qed.
Lemma in_posns r c p : In p (posns r c) -> fst p < r /\ snd p < c.
Proof. unfold posns. rewrite in_map_iff. intros (k & <- & Hk). apply in_seq in Hk. cbn [fst snd]. nia. Qed.
Lemma posns_in r c i j : i < r -> j < c -> In (i, j) (posns r c).
Proof.
  intros Hi Hj. unfold posns. apply in_map_iff. exists (i * c + j). split; [|apply in_seq; nia].
  f_equal; [rewrite Nat.div_add_l by lia; rewrite Nat.div_small by lia; lia|]. rewrite Nat.add_comm, Nat.mod_add by lia. now apply Nat.mod_small.
Qed.
Lemma map_posns_ext {A} r c (F G' : nat * nat -> A) : (forall i j, i < r -> j < c -> F (i, j) = G' (i, j)) -> map F (posns r c) = map G' (posns r c).
Proof. intro H. apply map_ext_in. intros [i j] Hp. apply in_posns in Hp. now apply H. Qed.
Definition posns2 (r c r' c' : nat) : list (nat * nat + nat * nat) := map inl (posns r c) ++ map inr (posns r' c').
Definition both {A} (F F' : nat * nat -> A) (k : nat * nat + nat * nat) : A := match k with inl p => F p | inr p => F' p end.
Lemma flat_posns2 r c r' c' F F' : flat r c F ++ flat r' c' F' = map (both (fun p => F (fst p) (snd p)) (fun p => F' (fst p) (snd p))) (posns2 r c r' c').
Proof. unfold posns2. now rewrite !flat_posns, map_app, !map_map. Qed.
Lemma map_posns2 {A} (K : nat * nat + nat * nat -> A) r c r' c' : map K (posns2 r c r' c') = map (fun p => K (inl p)) (posns r c) ++ map (fun p => K (inr p)) (posns r' c').
Proof. unfold posns2. now rewrite map_app, !map_map. Qed.

Lemma cells_maps : exists sx sy, cells_of gx = Ok sx /\ cells_of gy = Ok sy /\
  g2P G = reshapeU (symprojection (product_cells sx sy)) /\ g2BC G = reshapeU (symboundary (product_cells sx sy) (lo gx) (hi gx) (lo gy) (hi gy)) /\
  forall t, f0 (g2cells G) t = (map (fun p => vt sx t (snd p)) (posns (Nd gy 0 t) (Nd gx 0 t)), map (fun p => vt sy t (fst p)) (posns (Nd gy 0 t) (Nd gx 0 t))) /\
    (let L := posns2 (Nd gy 0 t) (Nd gx 1 t) (Nd gy 1 t) (Nd gx 0 t) in
     f1 (g2cells G) t = ((map (both (fun p => el sx t (snd p)) (fun p => vt sx t (snd p))) L, map (both (fun p => vt sy t (fst p)) (fun p => el sy t (fst p))) L),
                         (map (both (fun p => er sx t (snd p)) (fun p => vt sx t (snd p))) L, map (both (fun p => vt sy t (fst p)) (fun p => er sy t (fst p))) L))) /\
    (let L := posns (Nd gy 1 t) (Nd gx 1 t) in
     f2 (g2cells G) t = ((map (fun p => el sx t (snd p)) L, map (fun p => el sy t (fst p)) L), (map (fun p => er sx t (snd p)) L, map (fun p => el sy t (fst p)) L),
                         (map (fun p => er sx t (snd p)) L, map (fun p => er sy t (fst p)) L), (map (fun p => el sx t (snd p)) L, map (fun p => er sy t (fst p)) L))).
Proof.
  destruct (product_ok close gx gy Gx Gy) as (sx & sy & G' & Ex & Ey & EG' & Ecells & _ & _ & EP & _ & EBC & _). rewrite EG in EG'. injection EG' as <-.
  exists sx, sy. split; [exact Ex|]. split; [exact Ey|]. split; [exact EP|]. split; [exact EBC|]. intro t. rewrite Ecells.
  destruct (good_cells gx Gx) as (c & E & Lx). rewrite Ex in E. injection E as <-. destruct (Lx t) as (A & A1 & A2).
  destruct (good_cells gy Gy) as (c & E & Ly). rewrite Ey in E. injection E as <-. destruct (Ly t) as (B & B1 & B2).
  unfold flatten_cells, product_cells, meshgrid, flat2. cbn [fst snd c0 c1 c2 f0 f1 f2]. cbn zeta. rewrite A, A1, A2, B, B1, B2.
  repeat match goal with |- context [dat (mk2 ?r ?c ?F)] => change (dat (mk2 r c F)) with (flat r c F) end. rewrite !flat_posns2, !flat_posns.
  split; [reflexivity|]. split; reflexivity.
Qed.

(** the four rules of [projection_2d]: degree 0 evaluates; degree 1 integrates along the edges; degree 2 integrates over two triangles.  They
    return the coefficients dec.P returns *)
Theorem C88_projection_0 t f : exists P, tget (g2P G) (0, t) = Ok P /\ P [f] = Ok (projection_0 (g2cells G) t f).
Proof.
  destruct cells_maps as (sx & sy & Ex & Ey & EP & _ & Hc). destruct (Hc t) as (E0 & _). rewrite EP.
  destruct (P0_flat gx gy sx sy Gx Gy Ex Ey t f) as (o & Eo & Ev). exists o. split; [exact Eo|]. rewrite Ev. apply f_equal.
  unfold projection_0. rewrite E0. cbn [fst snd]. now rewrite zipw_map_same, flat_posns.
Qed.
Theorem C88_projection_1 t f : cont2 (fun x y => fst (f x y)) -> cont2 (fun x y => snd (f x y)) ->
  exists P v, tget (g2P G) (1, t) = Ok P /\ P [fun x y => fst (f x y); fun x y => snd (f x y)] = Ok v /\ projection_1 (g2cells G) t f = Ok v.
Proof.
  intros Cx Cy. destruct cells_maps as (sx & sy & Ex & Ey & EP & _ & Hc). destruct (Hc t) as (_ & E1 & _). cbv zeta in E1. rewrite EP.
  destruct (P1_flat gx gy sx sy Gx Gy Ex Ey t (fun x y => fst (f x y)) (fun x y => snd (f x y))) as (o & Eo & Ev). eexists o, _. split; [exact Eo|]. split; [exact Ev|].
  unfold projection_1. rewrite E1. cbn [fst snd]. rewrite vec_1form_map.
  assert (0 < Nd gy 0 t * Nd gx 1 t) as Hpos by (pose proof (Nd_pos gy 0 t Gy); pose proof (Nd_pos gx 1 t Gx); nia).
  destruct (posns2 (Nd gy 0 t) (Nd gx 1 t) (Nd gy 1 t) (Nd gx 0 t)) as [|p l] eqn:El.
  { exfalso. apply (f_equal (@length _)) in El. unfold posns2, posns in El. rewrite app_length, !map_length, seq_length in El. cbn [length] in El. lia. }
  rewrite <- El. apply f_equal. rewrite map_posns2, !flat_posns. f_equal; apply map_ext; intros [i j]; cbn [both fst snd]; [now apply edge_x|now apply edge_y].
Qed.
Theorem C88_projection_2 t f : cont2 f -> exists P v, tget (g2P G) (2, t) = Ok P /\ P [f] = Ok v /\ projection_2 (g2cells G) t f = Ok v.
Proof.
  intro Cf. destruct cells_maps as (sx & sy & Ex & Ey & EP & _ & Hc). destruct (Hc t) as (_ & _ & E2). cbv zeta in E2. rewrite EP.
  destruct (P2_flat gx gy sx sy Gx Gy Ex Ey t f) as (o & Eo & Ev). eexists o, _. split; [exact Eo|]. split; [exact Ev|].
  unfold projection_2. rewrite E2. unfold vec_2form. rewrite !vec_tri_map.
  assert (0 < Nd gy 1 t * Nd gx 1 t) as Hpos by (pose proof (Nd_pos gy 1 t Gy); pose proof (Nd_pos gx 1 t Gx); nia).
  destruct (posns (Nd gy 1 t) (Nd gx 1 t)) as [|p l] eqn:El.
  { exfalso. apply (f_equal (@length _)) in El. unfold posns in El. rewrite !map_length, seq_length in El. cbn [length] in El. lia. }
  rewrite <- El. cbn [bind]. apply f_equal. rewrite map_map, zipw_map_same, flat_posns. apply map_ext. intros [i j]. cbn [fst snd]. rewrite Rplus_0_l. now apply rectangle.
Qed.

(** the boundary terms of 0-forms: BC0(f) of [Grid_2D.boundary_condition] is dec.BC[1, False] *)
Theorem C88_boundary_0 f : exists BC, tget (g2BC G) (1, false) = Ok BC /\ BC [f] = Ok (boundary_condition_0 gx gy G f).
Proof.
  destruct cells_maps as (sx & sy & Ex & Ey & _ & EB & Hc). destruct (Hc false) as (_ & E1 & _). cbv zeta in E1. rewrite EB.
  destruct (B1_flat gx gy sx sy Gx Gy Ex Ey f) as (o & Eo & Ev). exists o. split; [exact Eo|]. rewrite Ev. apply f_equal.
  unfold boundary_condition_0. rewrite E1, boundary_0_map, map_posns2, !flat_posns. symmetry. f_equal; apply map_posns_ext; intros i j Hi Hj; cbn [both fst snd].
  - pose proof (vt_inside gy sy i Gy Ey Hi) as V. rewrite (when_Reqb_neq (vt sy false i) (lo gy)), (when_Reqb_neq (vt sy false i) (hi gy)) by lra. ring.
  - pose proof (vt_inside gx sx j Gx Ex Hj) as V. rewrite (when_Reqb_neq (vt sx false j) (lo gx)), (when_Reqb_neq (vt sx false j) (hi gx)) by lra. ring.
Qed.
Lemma Reqb_refl' x y : x = y -> Reqb x y = true.
Proof. unfold Reqb. destruct (Req_EM_T x y); congruence. Qed.
Lemma Reqb_false x y : x <> y -> Reqb x y = false.
Proof. unfold Reqb. destruct (Req_EM_T x y); congruence. Qed.
(** the boundary terms of 1-forms on two bounded axes: BC1(f) is dec.BC[2, False] *)
Theorem C88_boundary_1 f : kd gx <> Periodic -> kd gy <> Periodic -> cont2 (fun x y => fst (f x y)) -> cont2 (fun x y => snd (f x y)) ->
  exists BC v, tget (g2BC G) (2, false) = Ok BC /\ BC [fun x y => fst (f x y); fun x y => snd (f x y)] = Ok v /\ boundary_condition_1 gx gy G f = Ok v.
Proof.
  intros Kx Ky Cx Cy. destruct cells_maps as (sx & sy & Ex & Ey & _ & EB & Hc). destruct (Hc false) as (_ & _ & E2). cbv zeta in E2. rewrite EB.
  destruct (B2_flat gx gy sx sy Gx Gy Ex Ey (fun x y => fst (f x y)) (fun x y => snd (f x y))) as (o & Eo & Ev). eexists o, _. split; [exact Eo|]. split; [exact Ev|].
  unfold boundary_condition_1. rewrite E2.
  pose proof (Nd_pos gx 1 false Gx) as Px. pose proof (Nd_pos gy 1 false Gy) as Py.
  destruct (boundary_1_map (fun p : nat * nat => el sx false (snd p)) (fun p => el sy false (fst p)) (fun p => er sx false (snd p)) (fun p => el sy false (fst p))
     (fun p => er sx false (snd p)) (fun p => er sy false (fst p)) (fun p => el sx false (snd p)) (fun p => er sy false (fst p)) (posns (Nd gy 1 false) (Nd gx 1 false)) (lo gx) (hi gx) (lo gy) (hi gy) f) as [HB _].
  rewrite HB.
  - apply f_equal. rewrite flat_posns. apply map_ext. intros [i j]. cbn [fst snd]. rewrite !edge_x, !edge_y by auto. reflexivity.
  - intros m [<-|[<-|[<-|[<-|[]]]]] E.
    + assert (In (0, 0) (filter (fun k : nat * nat => Reqb (el sy false (fst k)) (lo gy)) (posns (Nd gy 1 false) (Nd gx 1 false)))) as I.
      { apply filter_In. split; [now apply posns_in|]. apply Reqb_refl'. destruct (mask_interval gy sy 0 Gy Ey Ky Py) as [[_ M] _]. now apply M. } rewrite E in I. destruct I.
    + assert (In (0, Nd gx 1 false - 1) (filter (fun k : nat * nat => Reqb (er sx false (snd k)) (hi gx)) (posns (Nd gy 1 false) (Nd gx 1 false)))) as I.
      { apply filter_In. split; [apply posns_in; lia|]. apply Reqb_refl'. destruct (mask_interval gx sx (Nd gx 1 false - 1) Gx Ex Kx ltac:(lia)) as [_ [_ M]]. now apply M. } rewrite E in I. destruct I.
    + assert (In (Nd gy 1 false - 1, 0) (filter (fun k : nat * nat => Reqb (er sy false (fst k)) (hi gy)) (posns (Nd gy 1 false) (Nd gx 1 false)))) as I.
      { apply filter_In. split; [apply posns_in; lia|]. apply Reqb_refl'. destruct (mask_interval gy sy (Nd gy 1 false - 1) Gy Ey Ky ltac:(lia)) as [_ [_ M]]. now apply M. } rewrite E in I. destruct I.
    + assert (In (0, 0) (filter (fun k : nat * nat => Reqb (el sx false (snd k)) (lo gx)) (posns (Nd gy 1 false) (Nd gx 1 false)))) as I.
      { apply filter_In. split; [now apply posns_in|]. apply Reqb_refl'. destruct (mask_interval gx sx 0 Gx Ex Kx Px) as [[_ M] _]. now apply M. } rewrite E in I. destruct I.
Qed.
(** with a periodic axis BC1 raises for every form, where dec.BC[2, False] returns an array *)
Theorem C88_boundary_1_periodic_refuted f : kd gx = Periodic \/ kd gy = Periodic ->
  boundary_condition_1 gx gy G f = Err ValueError /\
  exists BC v, tget (g2BC G) (2, false) = Ok BC /\ BC [fun x y => fst (f x y); fun x y => snd (f x y)] = Ok v.
Proof.
  intro Hk. destruct cells_maps as (sx & sy & Ex & Ey & _ & EB & Hc). destruct (Hc false) as (_ & _ & E2). cbv zeta in E2. rewrite EB. split.
  2:{ destruct (B2_flat gx gy sx sy Gx Gy Ex Ey (fun x y => fst (f x y)) (fun x y => snd (f x y))) as (o & Eo & Ev). eexists o, _. split; [exact Eo|exact Ev]. }
  unfold boundary_condition_1. rewrite E2.
  destruct (boundary_1_map (fun p : nat * nat => el sx false (snd p)) (fun p => el sy false (fst p)) (fun p => er sx false (snd p)) (fun p => el sy false (fst p))
     (fun p => er sx false (snd p)) (fun p => er sy false (fst p)) (fun p => el sx false (snd p)) (fun p => er sy false (fst p)) (posns (Nd gy 1 false) (Nd gx 1 false)) (lo gx) (hi gx) (lo gy) (hi gy) f) as [_ HB].
  apply HB. assert (forall (m : nat * nat -> bool) L, (forall p, In p L -> m p = false) -> filter m L = []) as Fe.
  { intros m L. induction L as [|p L IH]; intro H; [reflexivity|]. cbn. rewrite (H p) by now left. apply IH. intros q Hq. apply H. now right. }
  destruct Hk as [Hk|Hk].
  - exists (fun k : nat * nat => Reqb (el sx false (snd k)) (lo gx)). split; [right; right; right; left; reflexivity|]. apply Fe. intros p Hp. apply in_posns in Hp. apply Reqb_false. now apply (mask_periodic gx sx (snd p) Gx Ex Hk).
  - exists (fun k : nat * nat => Reqb (el sy false (fst k)) (lo gy)). split; [left; reflexivity|]. apply Fe. intros p Hp. apply in_posns in Hp. apply Reqb_false. now apply (mask_periodic gy sy (fst p) Gy Ey Hk).
Qed.

(** Stokes' theorem for the numerical projections: derivative plus boundary term is the projection of the exterior derivative *)
Theorem C88_stokes_0 f fx fy : C1_with f fx fy -> periodic_x gx f -> periodic_y gy f ->
  exists D0 v w, tget (g2D G) (0, false) = Ok D0 /\ D0 (projection_0 (g2cells G) false f) = Ok w /\
  projection_1 (g2cells G) false (fun x y => (fx x y, fy x y)) = Ok v /\ length w = length (boundary_condition_0 gx gy G f) /\
  vadd w (boundary_condition_0 gx gy G f) = v.
Proof.
  intros Hf Px Py. destruct (C45_stokes0_dual close gx gy G f fx fy Gx Gy EG Hf Px Py) as (P0 & P1 & D0 & BC & u & v & w & b & T0 & T1 & TD & TB & E0 & E1 & ED & EB & Lw & Ev).
  destruct (C88_projection_0 false f) as (P0' & T0' & E0'). rewrite T0 in T0'. injection T0' as <-. rewrite E0 in E0'. injection E0' as ->.
  destruct (C88_boundary_0 f) as (B' & TB' & EB'). rewrite TB in TB'. injection TB' as <-. rewrite EB in EB'. injection EB' as ->.
  pose proof Hf as (_ & _ & Cx & Cy). destruct (C88_projection_1 false (fun x y => (fx x y, fy x y)) Cx Cy) as (P1' & v' & T1' & E1' & Ep). rewrite T1 in T1'. injection T1' as <-.
  assert (P1 [fx; fy] = Ok v') as Q1 by exact E1'. assert (v' = v) as -> by congruence.
  exists D0, v, w. repeat split; assumption.
Qed.
Theorem C88_stokes_1 f fx fy g gdx gdy : kd gx <> Periodic -> kd gy <> Periodic -> C1_with f fx fy -> C1_with g gdx gdy ->
  exists D1 u v w b, projection_1 (g2cells G) false (fun x y => (f x y, g x y)) = Ok u /\ tget (g2D G) (1, false) = Ok D1 /\ D1 u = Ok w /\
  boundary_condition_1 gx gy G (fun x y => (f x y, g x y)) = Ok b /\
  projection_2 (g2cells G) false (fun x y => (gdx x y - fy x y)%R) = Ok v /\ length w = length b /\ vadd w b = v.
Proof.
  intros Kx Ky Hf Hg. assert (periodic_y gy f) as Py by (intro K; congruence). assert (periodic_x gx g) as Px by (intro K; congruence).
  destruct (C45_stokes1_dual close gx gy G f fx fy g gdx gdy Gx Gy EG Hf Hg Py Px) as (P1 & P2 & D1 & BC & u & v & w & b & T1 & T2 & TD & TB & E1 & E2 & ED & EB & Lw & Ev).
  assert (cont2 f) as Cf by (eapply C1_cont; eauto). assert (cont2 g) as Cg by (eapply C1_cont; eauto).
  pose proof Hf as (_ & _ & _ & Cfy). pose proof Hg as (_ & _ & Cgx & _).
  destruct (C88_projection_1 false (fun x y => (f x y, g x y)) Cf Cg) as (P1' & u' & T1' & E1' & Ep1). rewrite T1 in T1'. injection T1' as <-. assert (P1 [f; g] = Ok u') as Q1 by exact E1'. assert (u' = u) as -> by congruence.
  destruct (C88_projection_2 false (fun x y => (gdx x y - fy x y)%R)) as (P2' & v' & T2' & E2' & Ep2); [now apply cont2_minus|]. rewrite T2 in T2'. injection T2' as <-. assert (v' = v) as -> by congruence.
  destruct (C88_boundary_1 (fun x y => (f x y, g x y)) Kx Ky Cf Cg) as (B' & b' & TB' & EB' & Eb). rewrite TB in TB'. injection TB' as <-. assert (BC [f; g] = Ok b') as Q2 by exact EB'. assert (b' = b) as -> by congruence.
  exists D1, u, v, w, b. repeat split; assumption.
Qed.
End P.

(** a Chebyshev times regular grid and the form y dx + x y dy satisfy the hypotheses *)
Example C88_instance : exists gx gy, good gx /\ good gy /\ kd gx <> Periodic /\ kd gy <> Periodic /\ (forall close, exists G, product close gx gy = Ok G) /\
  C1_with (fun _ y => y) (fun _ _ => 0%R) (fun _ _ => 1%R) /\ C1_with (fun x y => (x * y)%R) (fun _ y => y) (fun x _ => x).
Proof.
  assert (good (MkGrid1 Chebyshev 3 (-1)%R 1%R)) as H1 by (split; cbn; [lia|lra]). assert (good (MkGrid1 Regular 2 0%R 2%R)) as H2 by (split; cbn; [lia|lra]).
  exists (MkGrid1 Chebyshev 3 (-1)%R 1%R), (MkGrid1 Regular 2 0%R 2%R). split; [exact H1|]. split; [exact H2|]. split; [discriminate|]. split; [discriminate|]. split; [|split].
  - intro close. destruct (product_ok close _ _ H1 H2) as (sx & sy & G & _ & _ & E & _). now exists G.
  - split; [|split; [|split]]; [intros x y; auto_derive; auto; ring|intros x y; auto_derive; auto; ring|c2|c2].
  - exact xy_C1.
Qed.
