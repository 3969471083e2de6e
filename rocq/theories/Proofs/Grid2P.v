(** The product grid: cells, shapes, and its operators on arrays given entry by entry. *)
From Coq Require Import ZArith Reals List Lia Lra Arith Bool.
From Coq Require Import ZifyNat ZifyBool.
From Verif Require Import Model.Sym.
From Coquelicot Require Import Coquelicot.
From Verif Require Import Model.Num Model.Np Model.Spectral Model.Basis Model.Grids1 Model.Regular Model.Chebyshev Model.Common Model.Decform Model.Grid2 Spec.Tiling
  Proofs.ListLemmas Proofs.RingSums Proofs.Grids1P Proofs.GridsThm Proofs.Lin Proofs.TableLin Proofs.Arr2.
Import ListNotations.
Local Open Scope nat_scope.
Ltac Zify.zify_post_hook ::= Z.div_mod_to_equations.

(** grids with at least one edge and a proper extent *)
Definition good (g : grid1) : Prop := big_enough (kd g) (sz g) /\ (lo g < hi g)%R.
Definition Nd (g : grid1) (d : nat) (t : bool) : nat := grid_N (kd g) (sz g) d t.
Lemma big_min k n : big_enough k n -> min_n k <= n. Proof. destruct k; cbn; auto. Qed.
Lemma Nd_pos g d t : good g -> 0 < Nd g d t.
Proof. intros [H _]. unfold Nd, grid_N. destruct (kd g); cbn in *; unfold sizes_periodic, sizes_interval; destruct d, t; lia. Qed.
Lemma good_cells g : good g -> exists c, cells_of g = Ok c /\ (forall t, length (v1 c t) = Nd g 0 t /\ length (fst (e1 c t)) = Nd g 1 t /\ length (snd (e1 c t)) = Nd g 1 t).
Proof.
  intros [Hb Hl]. unfold cells_of, Nd. pose proof (big_min _ _ Hb) as Hm. destruct (cells_primal _ _ _ _ Hm Hl) as (c & Ec & _).
  destruct (kd g) eqn:Ek; cbn [big_enough] in Hb.
  - exists c. split; auto. cbn [make_cells] in Ec. destruct (sz g) as [|n] eqn:En; [lia|]. injection Ec as <-. rewrite periodic_cells_tab by (lra || lia). cbv zeta. intros [|]; cbn [v1 e1 verts edges verts_dual edges_dual fst snd grid_N]; rewrite !length_tab; auto.
  - destruct (regular_cells_tab (sz g) (lo g) (hi g)) as (c' & E & Ev); auto. cbn [make_cells] in *. exists c'. split; auto. cbv zeta in Ev. subst c'. intros [|]; cbn [v1 e1 verts edges verts_dual edges_dual fst snd grid_N sizes_interval]; rewrite !length_tab; auto.
  - destruct (chebyshev_cells_tab (sz g) (lo g) (hi g)) as (c' & E & Ev); auto. cbn [make_cells] in *. exists c'. split; auto. cbv zeta in Ev. subst c'. intros [|]; cbn [v1 e1 verts edges verts_dual edges_dual fst snd grid_N sizes_interval]; rewrite !length_tab; auto.
Qed.

(** ** flat arrays *)
Definition flat (r c : nat) (F : nat -> nat -> R) : list R := dat (mk2 r c F).
Lemma length_flat r c F : length (flat r c F) = r * c. Proof. unfold flat, mk2. cbn [dat]. apply length_tab. Qed.
Lemma flat_ext r c F G : (forall i j, i < r -> j < c -> F i j = G i j) -> flat r c F = flat r c G.
Proof. intro E. unfold flat. now rewrite (mk2_ext r c F G). Qed.
Lemma flat_inj r c F G : flat r c F = flat r c G -> forall i j, i < r -> j < c -> F i j = G i j.
Proof. intros E. apply mk2_inj. unfold flat in E. unfold mk2 in *. cbn [dat] in E. now rewrite E. Qed.
Lemma nth_flat r c F i j d : i < r -> j < c -> nth (i * c + j) (flat r c F) d = F i j.
Proof. intros Hi Hj. unfold flat, mk2. cbn [dat]. rewrite nth_tab by now apply idx_lt. now rewrite div_add, mod_add. Qed.
(** the entries of a flat array *)
Definition ent (c : nat) (f : list R) (i j : nat) : R := nth (i * c + j) f 0%R.
Lemma flat_ent r c f : length f = r * c -> f = flat r c (ent c f).
Proof. intro L. pose proof (mk2_at (MkArr r c f) L) as E. unfold flat. cbn [nr nc] in E. change f with (dat (MkArr r c f)) at 1. now rewrite E at 1. Qed.
Lemma split_two (f : list R) a b : length f = a + b -> exists f0 f1, f = f0 ++ f1 /\ length f0 = a /\ length f1 = b.
Proof. intro L. exists (firstn a f), (skipn a f). rewrite firstn_skipn, firstn_length, skipn_length. repeat split; lia. Qed.
Lemma flat_opp r c F : map Ropp (flat r c F) = flat r c (fun i j => (- F i j)%R).
Proof. unfold flat, mk2. cbn [dat]. apply map_tab. Qed.
Lemma flat_zip op r c F G : zipw op (flat r c F) (flat r c G) = flat r c (fun i j => op (F i j) (G i j)).
Proof. unfold flat, mk2. cbn [dat]. apply zipw_tab. Qed.
Lemma flat_zero r c F : (forall i j, i < r -> j < c -> F i j = 0%R) -> flat r c F = repeat 0%R (r * c).
Proof.
  intro E. apply (list_eq_nth 0%R); [now rewrite length_flat, repeat_length|]. rewrite length_flat. intros k Hk. rewrite nth_repeat.
  destruct (idx_div _ _ _ Hk). rewrite <- (idx_eq c k) by lia. rewrite nth_flat; auto.
Qed.

Lemma reshape_flat r c F : reshape (flat r c F) (SInt r c) = Ok (BArr (mk2 r c F)).
Proof. unfold reshape, reshape1. cbn [fst snd]. rewrite length_flat, Nat.eqb_refl. reflexivity. Qed.
Lemma reshape_flat2 r c F r' c' F' : reshape (flat r c F ++ flat r' c' F') (STup [(r, c); (r', c')]) = Ok (BTup [mk2 r c F; mk2 r' c' F']).
Proof.
  cbn [reshape cumul_index cumul_from removelast np_split combine mapM]. unfold reshape1. cbn [fst snd bind Nat.add].
  assert (firstn (r * c) (flat r c F ++ flat r' c' F') = flat r c F) as E1. { rewrite <- (length_flat r c F). rewrite firstn_app, firstn_all, Nat.sub_diag. cbn. apply app_nil_r. }
  assert (skipn (r * c) (flat r c F ++ flat r' c' F') = flat r' c' F') as E2. { rewrite <- (length_flat r c F). rewrite skipn_app, skipn_all, Nat.sub_diag. reflexivity. }
  rewrite E1, E2. cbn [skipn]. rewrite !length_flat, !Nat.eqb_refl. reflexivity.
Qed.
Lemma unshape_mk2 r c (F : nat -> nat -> R) : unshape (BArr (mk2 r c F)) = Ok (flat r c F, SInt r c). Proof. reflexivity. Qed.
Lemma unshape_mk22 r c (F : nat -> nat -> R) r' c' F' : unshape (BTup [mk2 r c F; mk2 r' c' F']) = Ok (flat r c F ++ flat r' c' F', STup [(r, c); (r', c')]).
Proof. cbn [unshape map concat]. now rewrite app_nil_r. Qed.

(** ** the product grid *)
Definition shp2 (gx gy : grid1) (d : nat) (t : bool) : shp :=
  match d with
  | 0 => SInt (Nd gy 0 t) (Nd gx 0 t)
  | 1 => STup [(Nd gy 0 t, Nd gx 1 t); (Nd gy 1 t, Nd gx 0 t)]
  | _ => SInt (Nd gy 1 t) (Nd gx 1 t)
  end.
Definition N2 (gx gy : grid1) (d : nat) (t : bool) : nat :=
  match d with
  | 0 => Nd gy 0 t * Nd gx 0 t
  | 1 => Nd gy 0 t * Nd gx 1 t + Nd gy 1 t * Nd gx 0 t
  | _ => Nd gy 1 t * Nd gx 1 t
  end.
Lemma tget_table6 {V} (v : nat -> bool -> V) d t : d <= 2 -> tget (table6 v) (d, t) = Ok (v d t).
Proof. intro Hd. destruct d as [|[|[|d]]]; [| | |lia]; destruct t; reflexivity. Qed.
Lemma tget_table6_none {V} (v : nat -> bool -> V) d t : 2 < d -> tget (table6 v) (d, t) = Err KeyError.
Proof. intro Hd. destruct d as [|[|[|d]]]; try lia. destruct t; reflexivity. Qed.
Lemma tget_map {V W} (f : key -> V -> W) (T : table V) k : tget (map (fun e => (fst e, f (fst e) (snd e))) T) k = match tget T k with Ok v => Ok (f k v) | Err e => Err e end.
Proof.
  unfold tget. induction T as [|[k' v] T IH]; [reflexivity|]. cbn [map fst snd dget]. destruct (key_eqb k k') eqn:E; [|exact IH].
  unfold key_eqb in E. apply andb_prop in E. destruct E as [E1 E2]. apply Nat.eqb_eq in E1. apply eqb_prop in E2. destruct k, k'. cbn in *. now subst.
Qed.
Lemma dH_table close k : Common.dH (dec_of close k) = Common.dH (dec_of close k) /\ exists a b c d, Common.dH (dec_of close k) = [((0, true), a); ((1, true), b); ((0, false), c); ((1, false), d)].
Proof. split; auto. destruct k; repeat eexists. Qed.

Section G.
Variables (close : C -> C -> bool) (gx gy : grid1).
Hypothesis Gx : good gx. Hypothesis Gy : good gy.
Notation shape := (table6 (shp2 gx gy)).
Lemma shape_ok sx sy : cells_of gx = Ok sx -> cells_of gy = Ok sy -> snd (flatten_cells (product_cells sx sy)) = shape.
Proof.
  intros Ex Ey. destruct (good_cells gx Gx) as (cx & E1 & Lx). destruct (good_cells gy Gy) as (cy & E2 & Ly). rewrite Ex in E1. rewrite Ey in E2. injection E1 as <-. injection E2 as <-.
  unfold flatten_cells. cbn [snd flat_map bools app product_cells c0 c1 c2 meshgrid fst]. unfold shape_of. cbn [nr nc mk2 fst snd]. unfold table6, shp2.
  destruct (Lx true) as (-> & A & B), (Lx false) as (-> & A' & B'), (Ly true) as (-> & A2 & B2), (Ly false) as (-> & A3 & B3). now rewrite B, B', B2, B3.
Qed.
Lemma count_ok : countshape shape = Ok (table6 (N2 gx gy)).
Proof. reflexivity. Qed.
Definition hget (g : grid1) (d : nat) (t : bool) : op1 := match tget (Common.dH (dec_of close (kd g))) (d, t) with Ok o => o | Err e => fun _ => Err e end.
Lemma hodge_ok : hodge_star (Common.dH (dec_of close (kd gx))) (Common.dH (dec_of close (kd gy))) = Ok (table6 (fun d t => match d with
   | 0 => H2_0 (hget gx 0 t) (hget gy 0 t) | 1 => H2_1 (hget gx 0 t) (hget gx 1 t) (hget gy 0 t) (hget gy 1 t) | _ => H2_0 (hget gx 1 t) (hget gy 1 t) end)).
Proof. unfold hget. destruct (kd gx), (kd gy); reflexivity. Qed.
Lemma product_ok : exists sx sy G, cells_of gx = Ok sx /\ cells_of gy = Ok sy /\ product close gx gy = Ok G /\
  g2cells G = fst (flatten_cells (product_cells sx sy)) /\ g2shape G = shape /\ g2N G = table6 (N2 gx gy) /\
  g2P G = reshapeU (symprojection (product_cells sx sy)) /\ g2Pn G = reshapeU (numprojection (product_cells sx sy)) /\
  g2BC G = reshapeU (symboundary (product_cells sx sy) (lo gx) (hi gx) (lo gy) (hi gy)) /\
  g2B G = table6 (fun d t => reshapeB1 (shp2 gx gy d t) (basis2 (basis_of (kd gx) (sz gx)) (basis_of (kd gy) (sz gy)) d t)) /\
  g2D G = reshapeO shape (derivative (d1 (kd gx)) (d1 (kd gy))) /\
  g2H G = reshapeO shape (table6 (fun d t => match d with
   | 0 => H2_0 (hget gx 0 t) (hget gy 0 t) | 1 => H2_1 (hget gx 0 t) (hget gx 1 t) (hget gy 0 t) (hget gy 1 t) | _ => H2_0 (hget gx 1 t) (hget gy 1 t) end)) /\
  g2T G = reshapeT shape (to_refine (rT (refine_of close (kd gx))) (rT (refine_of close (kd gy)))) /\
  g2U G = reshapeU (from_refine (rU (refine_of close (kd gx))) (rU (refine_of close (kd gy)))) /\
  g2W G = wedge2 (g2T G) (g2U G) /\ g2C G = contraction2 (g2T G) (g2U G).
Proof.
  destruct (good_cells gx Gx) as (sx & Ex & _). destruct (good_cells gy Gy) as (sy & Ey & _). exists sx, sy. unfold product. rewrite Ex, Ey. cbn [bind]. rewrite hodge_ok. cbn [bind].
  pose proof (shape_ok sx sy Ex Ey) as Es. destruct (flatten_cells (product_cells sx sy)) as [fc sh] eqn:Ef. cbn [snd] in Es. subst sh. rewrite count_ok. cbn [bind]. eexists. repeat (split; [reflexivity|]). reflexivity.
Qed.
Lemma op_get (T : nat -> bool -> bop1) d t : d <= 2 -> exists o, tget (reshapeO shape (table6 T)) (d, t) = Ok o /\
  forall f, o f = bind (reshape f (shp2 gx gy d t)) (fun b => bind (T d t b) (fun b => bind (unshape b) (fun r => Ok (fst r)))).
Proof.
  intro Hd. unfold reshapeO, reshapeU, reshapeT. rewrite map_map. cbn [fst snd]. 
  pose proof (tget_map (fun k v f => bind (bind (tget shape k) (fun s => bind (reshape f s) v)) (fun b : blk R => bind (unshape b) (fun r => Ok (fst r)))) (table6 T) (d, t)) as E. 
  eexists. split; [etransitivity; [exact E|]; rewrite tget_table6 by auto; reflexivity|]. clear E. intro f. rewrite tget_table6 by auto. cbn [bind]. now destruct (reshape f (shp2 gx gy d t)).
Qed.
End G.

(** ** operators along the axes *)
Lemma row_op o r m n F : 0 < r -> rlin m n o -> exists g, lin m n g /\ (forall f, length f = m -> o f = Ok (g f)) /\
  along1 o (mk2 r m F) = Ok (mk2 r n (fun i j => nth j (g (tab m (F i))) 0%R)).
Proof. intros Hr (g & Hg & Eg). exists g. split; auto. split; auto. refine (along1_mk2 o g r m n F Hr _). intros l Hl. split; auto. now apply (lin_len m n g). Qed.
Lemma col_op o c m n F : 0 < c -> rlin m n o -> exists g, lin m n g /\ (forall f, length f = m -> o f = Ok (g f)) /\
  along0 o (mk2 m c F) = Ok (mk2 n c (fun i j => nth i (g (tab m (fun i => F i j))) 0%R)).
Proof. intros Hr (g & Hg & Eg). exists g. split; auto. split; auto. refine (along0_mk2 o g m c n F Hr _). intros l Hl. split; auto. now apply (lin_len m n g). Qed.
Lemma rlin_d1 g t : good g -> rlin (Nd g 0 t) (Nd g 1 t) (d1 (kd g) t).
Proof.
  intros [Hb _]. unfold d1, Nd. apply rlin_ok. destruct t; [apply lin_D0|apply lin_D0d]. destruct (kd g); cbn in Hb; lia.
Qed.
Lemma rlin_h close g d t : good g -> guarded close (kd g) (sz g) -> d <= 1 -> rlin (Nd g d t) (Nd g (1 - d) (negb t)) (hget close g d t).
Proof. intros [Hb _] Hg Hd. unfold hget. destruct (table_H_lin close (kd g) (sz g) d t Hb Hg Hd) as (o & -> & H). exact H. Qed.
