(** C46: the cells of a product grid. *)
From Coq Require Import ZArith Reals List Lia Lra Arith Bool.
From Coq Require Import ZifyNat ZifyBool.
From Verif Require Import Model.Sym.
From Coquelicot Require Import Coquelicot.
From Verif Require Import Model.Num Model.Np Model.Spectral Model.Chebyshev Model.Grids1 Model.Common Model.Grid2 Spec.Tiling
  Proofs.ListLemmas Proofs.Grids1P Proofs.GridsThm Proofs.TableLin Proofs.Arr2 Proofs.Grid2P Props.Grid1 Props.Grid2.
Import ListNotations.
Local Open Scope nat_scope.
Ltac Zify.zify_post_hook ::= Z.div_mod_to_equations.

(** point number k of a pair of coordinate arrays *)
Definition pt (p : list R * list R) (k : nat) : R * R := (nth k (fst p) 0%R, nth k (snd p) 0%R).
(** the lists of points of all cells have length N, and number k = i*columns + j (block offset added for the edges
    along y) is the product of cell j of gx and cell i of gy; faces list their corners counter-clockwise *)
Theorem C46_cells close gx gy G : good gx -> good gy -> product close gx gy = Ok G ->
  exists sx sy, cells_of gx = Ok sx /\ cells_of gy = Ok sy /\ forall t,
  let vx := v1 sx t in let vy := v1 sy t in let ex := e1 sx t in let ey := e1 sy t in
  let nx := length vx in let ny := length vy in let mx := length (fst ex) in let my := length (fst ey) in
  let V := f0 (g2cells G) t in let '(E0, E1) := f1 (g2cells G) t in let '(A, B, C', D) := f2 (g2cells G) t in
  tget (g2shape G) (0, t) = Ok (SInt ny nx) /\ tget (g2shape G) (1, t) = Ok (STup [(ny, mx); (my, nx)]) /\ tget (g2shape G) (2, t) = Ok (SInt my mx) /\
  tget (g2N G) (0, t) = Ok (ny * nx) /\ tget (g2N G) (1, t) = Ok (ny * mx + my * nx) /\ tget (g2N G) (2, t) = Ok (my * mx) /\
  (forall P, P = V -> length (fst P) = ny * nx /\ length (snd P) = ny * nx) /\
  (forall P, In P [E0; E1] -> length (fst P) = ny * mx + my * nx /\ length (snd P) = ny * mx + my * nx) /\
  (forall P, In P [A; B; C'; D] -> length (fst P) = my * mx /\ length (snd P) = my * mx) /\
  (forall i j, i < ny -> j < nx -> pt V (i * nx + j) = (nth j vx 0%R, nth i vy 0%R)) /\
  (forall i j, i < ny -> j < mx -> pt E0 (i * mx + j) = (nth j (fst ex) 0%R, nth i vy 0%R) /\ pt E1 (i * mx + j) = (nth j (snd ex) 0%R, nth i vy 0%R)) /\
  (forall i j, i < my -> j < nx -> pt E0 (ny * mx + (i * nx + j)) = (nth j vx 0%R, nth i (fst ey) 0%R) /\ pt E1 (ny * mx + (i * nx + j)) = (nth j vx 0%R, nth i (snd ey) 0%R)) /\
  (forall i j, i < my -> j < mx -> let x0 := nth j (fst ex) 0%R in let x1 := nth j (snd ex) 0%R in let y0 := nth i (fst ey) 0%R in let y1 := nth i (snd ey) 0%R in
     pt A (i * mx + j) = (x0, y0) /\ pt B (i * mx + j) = (x1, y0) /\ pt C' (i * mx + j) = (x1, y1) /\ pt D (i * mx + j) = (x0, y1)).
Proof.
  intros Gx Gy EG. destruct (product_ok close gx gy Gx Gy) as (sx & sy & G' & Ex & Ey & E & Ec & Es & EN & _). rewrite EG in E. injection E as <-.
  exists sx, sy. split; [exact Ex|]. split; [exact Ey|]. intro t. cbv zeta. rewrite Ec, Es, EN. rewrite !tget_table6 by lia. cbn [shp2 N2].
  destruct (good_cells gx Gx) as (cx & E1' & Lx). destruct (good_cells gy Gy) as (cy & E2 & Ly). rewrite Ex in E1'. rewrite Ey in E2. injection E1' as <-. injection E2 as <-.
  destruct (Lx t) as (Lvx & Lex & Lex'), (Ly t) as (Lvy & Ley & Ley'). rewrite <- Lvx, <- Lvy, <- Lex, <- Ley.
  cbn [fst snd flatten_cells product_cells f0 f1 f2 c0 c1 c2 meshgrid flat2 fst snd]. rewrite Lvx, Lvy, Lex, Ley, Lex', Ley'. 
  unfold flat2.
  set (nx := Nd gx 0 t). set (ny := Nd gy 0 t). set (mx := Nd gx 1 t). set (my := Nd gy 1 t).
  assert (forall r c (F : nat -> nat -> R) r' c' F' i j, i < r -> j < c -> nth (i * c + j) (dat (mk2 r c F) ++ dat (mk2 r' c' F')) 0%R = F i j) as N1.
  { intros. rewrite app_nth1; [now apply nth_flat|]. change (dat (mk2 r c F)) with (flat r c F). rewrite length_flat. now apply idx_lt. }
  assert (forall r c (F : nat -> nat -> R) r' c' F' i j, i < r' -> j < c' -> nth (r * c + (i * c' + j)) (dat (mk2 r c F) ++ dat (mk2 r' c' F')) 0%R = F' i j) as N2'.
  { intros. change (dat (mk2 r c F)) with (flat r c F). rewrite app_nth2; rewrite length_flat; [|lia]. replace (r * c + (i * c' + j) - r * c) with (i * c' + j) by lia. now apply nth_flat. }
  assert (forall r c (F : nat -> nat -> R) i j, i < r -> j < c -> nth (i * c + j) (dat (mk2 r c F)) 0%R = F i j) as N0 by (intros; now apply nth_flat).
  assert (forall r c (F : nat -> nat -> R), length (dat (mk2 r c F)) = r * c) as Ld by (intros; apply length_flat).
  repeat (split; [reflexivity|]). unfold pt.
  split; [intros P ->; cbn [fst snd]; now rewrite !Ld|].
  split; [intros P [<-|[<-|[]]]; cbn [fst snd]; now rewrite !app_length, !Ld|].
  split; [intros P [<-|[<-|[<-|[<-|[]]]]]; cbn [fst snd]; now rewrite !Ld|].
  split; [intros; cbn [fst snd]; now rewrite !N0|].
  split; [intros; cbn [fst snd]; now rewrite !N1|].
  split; [intros; cbn [fst snd]; now rewrite !N2'|].
  intros; cbn [fst snd]; now rewrite !N0.
Qed.

(** ** the ends of the one-dimensional edges *)
Lemma primal_ends g c : good g -> cells_of g = Ok c ->
  (forall j, j < Nd g 1 true -> nth j (fst (edges c)) 0%R = nth j (verts c) 0%R) /\
  (forall j, S j < Nd g 0 true -> nth j (snd (edges c)) 0%R = nth (S j) (verts c) 0%R) /\
  (forall j, j < Nd g 1 true -> S j >= Nd g 0 true -> kd g = Periodic /\ nth j (snd (edges c)) 0%R = (nth 0 (verts c) 0 + (hi g - lo g))%R).
Proof.
  intros [Hb Hl] Ec. pose proof (big_min _ _ Hb) as Hm. destruct (C01_primal_cells_tile (kd g) (sz g) (lo g) (hi g)) as (c' & E & T & _ & _ & _ & A & B); [destruct (kd g); exact Hb|auto|].
  unfold cells_of in Ec. rewrite Ec in E. injection E as <-. split; [exact A|]. split; [exact B|]. unfold Nd. intros j Hj Hj'.
  destruct (kd g) eqn:Ek; [|cbn in Hj, Hj'; lia..]. split; auto. change (grid_N Periodic (sz g) 1 true) with (sz g) in *. change (grid_N Periodic (sz g) 0 true) with (sz g) in *.
  cbn [big_enough] in Hb. cbn [make_cells] in Ec. destruct (sz g) as [|n]; [lia|]. injection Ec as <-. rewrite periodic_cells_tab by (lra || lia). cbv zeta. cbn [verts edges snd]. rewrite !nth_tab by lia.
  replace (S j) with (S n) by lia. rewrite pp_n, pp_0 by lia. lra.
Qed.
Lemma dual_ends g c : good g -> cells_of g = Ok c ->
  (forall j, j < Nd g 0 false -> nth j (snd (edges_dual c)) 0%R = nth j (verts_dual c) 0%R) /\
  (forall j, S j < Nd g 1 false -> nth (S j) (fst (edges_dual c)) 0%R = nth j (verts_dual c) 0%R) /\
  (kd g = Periodic -> nth 0 (fst (edges_dual c)) 0%R = (nth (Nd g 0 false - 1) (verts_dual c) 0 - (hi g - lo g))%R) /\
  (kd g <> Periodic -> nth 0 (fst (edges_dual c)) 0%R = lo g /\ nth (Nd g 1 false - 1) (snd (edges_dual c)) 0%R = hi g /\ Nd g 1 false = S (Nd g 0 false)).
Proof.
  intros [Hb Hl] Ec. unfold cells_of in Ec. unfold Nd. destruct (kd g) eqn:Ek; cbn [big_enough make_cells] in *.
  - change (grid_N Periodic (sz g) 1 false) with (sz g) in *. change (grid_N Periodic (sz g) 0 false) with (sz g) in *. destruct (sz g) as [|n]; [lia|]. injection Ec as <-. rewrite periodic_cells_tab by (lra || lia). cbv zeta. cbn [verts_dual edges_dual fst snd].
    assert (INR (S n) <> 0)%R by (apply not_0_INR; lia).
    split; [intros; now rewrite !nth_tab by lia|]. split; [intros; rewrite !nth_tab by lia; pose proof (pp_step (S n) (lo g) (hi g) j); lra|]. split; [|congruence]. intros _. rewrite !nth_tab by lia.
    replace (S n - 1) with n by lia. rewrite pp_0. pose proof (pp_step (S n) (lo g) (hi g) n). rewrite pp_n in H0 by lia. lra.
  - cbn [grid_N sizes_interval]. destruct (regular_cells_tab (sz g) (lo g) (hi g) Hb Hl) as (c' & E & Ev). rewrite Ec in E. injection E as <-. cbv zeta in Ev. subst c. cbn [verts_dual edges_dual fst snd].
    split; [|split; [|split; [congruence|intros _]]].
    + intros. rewrite !nth_tab by lia. destruct (Nat.eqb_spec (S j) 0); [lia|]. destruct (Nat.eqb_spec (S j) (sz g)); [lia|]. replace (S j - 1) with j by lia. reflexivity.
    + intros. rewrite !nth_tab by lia. destruct (Nat.eqb_spec (S j) 0); [lia|]. destruct (Nat.eqb_spec (S j) (sz g)); [lia|]. replace (S j - 1) with j by lia. reflexivity.
    + rewrite !nth_tab by lia. replace (S (sz g - 1)) with (sz g) by lia. rewrite !Nat.eqb_refl. destruct (Nat.eqb_spec (sz g) 0); [lia|]. repeat split; lia.
  - cbn [grid_N sizes_interval]. destruct (chebyshev_cells_tab (sz g) (lo g) (hi g) Hb) as (c' & E & Ev). rewrite Ec in E. injection E as <-. cbv zeta in Ev. subst c. cbn [verts_dual edges_dual fst snd].
    split; [|split; [|split; [congruence|intros _]]].
    + intros. rewrite !nth_tab by lia. destruct (Nat.eqb_spec (S j) 0); [lia|]. destruct (Nat.eqb_spec (S j) (sz g)); [lia|]. replace (S j - 1) with j by lia. reflexivity.
    + intros. rewrite !nth_tab by lia. destruct (Nat.eqb_spec (S j) 0); [lia|]. destruct (Nat.eqb_spec (S j) (sz g)); [lia|]. replace (S j - 1) with j by lia. reflexivity.
    + rewrite !nth_tab by lia. replace (S (sz g - 1)) with (sz g) by lia. rewrite !Nat.eqb_refl. destruct (Nat.eqb_spec (sz g) 0); [lia|]. repeat split; lia.
Qed.

(** the boundary of face (i, j): A -> B -> C -> D -> A, where A->B and D->C are edges along x, A->D and B->C edges along y.
    On the primal grid they are edges of the grid, except that the far sides of the last row and column of a periodic
    direction are the first edges translated by the period.  On the dual grid the outer sides of a non-periodic direction
    lie on the boundary of the rectangle and are not edges of the grid. *)
Definition shift (p : R * R) (d : R * R) : R * R := (fst p + fst d, snd p + snd d)%R.
Theorem C46_primal_face_boundary close gx gy G i j : good gx -> good gy -> product close gx gy = Ok G ->
  let nx := Nd gx 0 true in let ny := Nd gy 0 true in let mx := Nd gx 1 true in let my := Nd gy 1 true in
  let edge k := (pt (fst (f1 (g2cells G) true)) k, pt (snd (f1 (g2cells G) true)) k) in
  let '(A, B, C', D) := f2 (g2cells G) true in let k := i * mx + j in
  i < my -> j < mx ->
  edge (i * mx + j) = (pt A k, pt B k) /\ edge (ny * mx + (i * nx + j)) = (pt A k, pt D k) /\
  (S i < ny -> edge (S i * mx + j) = (pt D k, pt C' k)) /\
  (S i >= ny -> kd gy = Periodic /\ let s := (0, hi gy - lo gy)%R in (shift (fst (edge j)) s, shift (snd (edge j)) s) = (pt D k, pt C' k)) /\
  (S j < nx -> edge (ny * mx + (i * nx + S j)) = (pt B k, pt C' k)) /\
  (S j >= nx -> kd gx = Periodic /\ let s := (hi gx - lo gx, 0)%R in (shift (fst (edge (ny * mx + i * nx))) s, shift (snd (edge (ny * mx + i * nx))) s) = (pt B k, pt C' k)).
Proof.
  intros Gx Gy EG. cbv zeta. destruct (C46_cells close gx gy G Gx Gy EG) as (sx & sy & Ex & Ey & H). specialize (H true). cbv zeta in H.
  destruct (good_cells gx Gx) as (cx & E1' & Lx). destruct (good_cells gy Gy) as (cy & E2 & Ly). rewrite Ex in E1'. rewrite Ey in E2. injection E1' as <-. injection E2 as <-.
  destruct (Lx true) as (Lvx & Lex & Lex'), (Ly true) as (Lvy & Ley & Ley'). rewrite Lvx, Lvy, Lex, Ley in H.
  destruct (f1 (g2cells G) true) as [E0 E1]. destruct (f2 (g2cells G) true) as [[[A B] C'] D]. destruct H as (_ & _ & _ & _ & _ & _ & _ & _ & _ & _ & HX & HY & HF). intros Hi Hj.
  cbn [v1 e1 fst snd] in *. destruct (primal_ends gx sx Gx Ex) as (ax & bx & wx). destruct (primal_ends gy sy Gy Ey) as (ay & by' & wy).
  pose proof (Nd_pos gx 0 true Gx). pose proof (Nd_pos gy 0 true Gy).
  assert (Nd gx 1 true <= Nd gx 0 true) by (unfold Nd; destruct (kd gx); cbn; unfold sizes_periodic; lia). assert (Nd gy 1 true <= Nd gy 0 true) by (unfold Nd; destruct (kd gy); cbn; unfold sizes_periodic; lia).
  destruct (HF i j Hi Hj) as (-> & -> & -> & ->).
  split. { destruct (HX i j) as [-> ->]; [lia|lia|]. now rewrite ay. }
  split. { destruct (HY i j) as [-> ->]; [lia|lia|]. now rewrite ax. }
  split. { intro H'. destruct (HX (S i) j) as [-> ->]; [lia|lia|]. now rewrite by'. }
  split. { intro H'. destruct (wy i Hi H') as (K & Ew). split; [exact K|]. destruct (HX 0 j) as [X0 X1]; [lia|lia|]. cbn [Nat.mul Nat.add] in X0, X1. rewrite X0, X1, Ew. unfold shift. cbn [fst snd]. now rewrite !Rplus_0_r. }
  split. { intro H'. destruct (HY i (S j)) as [-> ->]; [lia|lia|]. now rewrite bx. }
  intro H'. destruct (wx j Hj H') as (K & Ew). split; [exact K|]. destruct (HY i 0) as [Y0 Y1]; [lia|lia|]. rewrite Nat.add_0_r in Y0, Y1. rewrite Y0, Y1, Ew. unfold shift. cbn [fst snd]. now rewrite !Rplus_0_r.
Qed.
Theorem C46_dual_face_boundary close gx gy G i j : good gx -> good gy -> product close gx gy = Ok G ->
  let nx := Nd gx 0 false in let ny := Nd gy 0 false in let mx := Nd gx 1 false in let my := Nd gy 1 false in
  let edge k := (pt (fst (f1 (g2cells G) false)) k, pt (snd (f1 (g2cells G) false)) k) in
  let '(A, B, C', D) := f2 (g2cells G) false in let k := i * mx + j in
  i < my -> j < mx ->
  (i < ny -> edge (i * mx + j) = (pt D k, pt C' k)) /\
  (0 < i -> edge ((i - 1) * mx + j) = (pt A k, pt B k)) /\
  (j < nx -> edge (ny * mx + (i * nx + j)) = (pt B k, pt C' k)) /\
  (0 < j -> edge (ny * mx + (i * nx + (j - 1))) = (pt A k, pt D k)) /\
  (kd gy <> Periodic -> (i = 0 -> snd (pt A k) = lo gy /\ snd (pt B k) = lo gy) /\ (i = my - 1 -> snd (pt C' k) = hi gy /\ snd (pt D k) = hi gy)) /\
  (kd gx <> Periodic -> (j = 0 -> fst (pt A k) = lo gx /\ fst (pt D k) = lo gx) /\ (j = mx - 1 -> fst (pt B k) = hi gx /\ fst (pt C' k) = hi gx)).
Proof.
  intros Gx Gy EG. cbv zeta. destruct (C46_cells close gx gy G Gx Gy EG) as (sx & sy & Ex & Ey & H). specialize (H false). cbv zeta in H.
  destruct (good_cells gx Gx) as (cx & E1' & Lx). destruct (good_cells gy Gy) as (cy & E2 & Ly). rewrite Ex in E1'. rewrite Ey in E2. injection E1' as <-. injection E2 as <-.
  destruct (Lx false) as (Lvx & Lex & Lex'), (Ly false) as (Lvy & Ley & Ley'). rewrite Lvx, Lvy, Lex, Ley in H.
  destruct (f1 (g2cells G) false) as [E0 E1]. destruct (f2 (g2cells G) false) as [[[A B] C'] D]. destruct H as (_ & _ & _ & _ & _ & _ & _ & _ & _ & _ & HX & HY & HF). intros Hi Hj.
  cbn [v1 e1 fst snd] in *. destruct (dual_ends gx sx Gx Ex) as (ax & bx & _ & wx). destruct (dual_ends gy sy Gy Ey) as (ay & by' & _ & wy).
  assert (Nd gx 1 false <= S (Nd gx 0 false)) by (unfold Nd; destruct Gx as [Hb _]; destruct (kd gx); cbn in *; unfold sizes_periodic; lia). assert (Nd gy 1 false <= S (Nd gy 0 false)) by (unfold Nd; destruct Gy as [Hb _]; destruct (kd gy); cbn in *; unfold sizes_periodic; lia).
  destruct (HF i j Hi Hj) as (-> & -> & -> & ->). cbn [fst snd].
  split. { intro H'. destruct (HX i j) as [-> ->]; [lia|lia|]. now rewrite ay. }
  split. { intro H'. destruct (HX (i - 1) j) as [-> ->]; [lia|lia|]. rewrite <- by' by lia. replace (S (i - 1)) with i by lia. reflexivity. }
  split. { intro H'. destruct (HY i j) as [-> ->]; [lia|lia|]. now rewrite ax. }
  split. { intro H'. destruct (HY i (j - 1)) as [-> ->]; [lia|lia|]. rewrite <- bx by lia. replace (S (j - 1)) with j by lia. reflexivity. }
  split; intro K; [destruct (wy K) as (W0 & W1 & _)|destruct (wx K) as (W0 & W1 & _)]; (split; intros ->; auto).
Qed.
Example C46_instance : exists G, product np_isclose gp gc = Ok G /\ tget (g2N G) (1, true) = Ok 21 /\ tget (g2shape G) (1, false) = Ok (STup [(3, 3); (4, 3)]).
Proof.
  destruct sound_samples as (Sp & Sc & _). destruct (product_ok np_isclose gp gc (Logic.proj1 Sp) (Logic.proj1 Sc)) as (sx & sy & G & _ & _ & E & _ & HS & HN & _).
  exists G. split; [exact E|]. rewrite HS, HN. split; reflexivity.
Qed.
