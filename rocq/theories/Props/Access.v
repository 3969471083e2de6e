(** C91: the constructors and accessor methods of Grid_1D and Grid_2D give the operators and forms their names say. *)
From Coq Require Import ZArith Reals List Lia Lra Arith Bool.
From Coq Require Import ZifyNat ZifyBool.
From Verif Require Import Model.Sym.
From Coquelicot Require Import Coquelicot.
From Verif Require Import Model.Num Model.Np Model.Spectral Model.Basis Model.Grids1 Model.Regular Model.Chebyshev Model.Common Model.Decform Model.Grid2 Model.Access Spec.Trig Spec.Tiling Spec.Plane Spec.Resolved
  Proofs.ListLemmas Proofs.RingSums Proofs.Grids1P Proofs.GridsThm Proofs.Lin Proofs.TableLin Proofs.Arr2 Proofs.Grid2P Proofs.Grid2Ops.
From Verif Require Props.Cells2.
From Verif Require Import Props.Grid1 Props.Refinement Props.Decform Props.Grid2 Props.Basis2 Props.Stokes2 Props.Exact1 Props.Exact2 Props.Complete1 Props.Complete2.
Import ListNotations.
Local Open Scope R_scope.
Ltac Zify.zify_post_hook ::= Z.div_mod_to_equations.

(** the position of (d, t) in the tuples *)
Definition pos2 (d : nat) (t : bool) : nat := if t then d else (3 + d)%nat.
Definition pos1 (d : nat) (t : bool) : nat := if t then d else (2 + d)%nat.

Section G.
Variables (close : C -> C -> bool) (gx gy : grid1) (G : grid2).
Hypothesis Gx : good gx. Hypothesis Gy : good gy. Hypothesis EG : product close gx gy = Ok G.
Lemma all_fields : exists sx sy, cells_of gx = Ok sx /\ cells_of gy = Ok sy /\ g2cells G = fst (flatten_cells (product_cells sx sy)) /\ g2N G = table6 (N2 gx gy) /\
  g2B G = table6 (fun d t => reshapeB1 (shp2 gx gy d t) (basis2 (basis_of (kd gx) (sz gx)) (basis_of (kd gy) (sz gy)) d t)).
Proof. destruct (product_ok close gx gy Gx Gy) as (sx & sy & G' & E1 & E2 & E & H). rewrite EG in E. injection E as <-. exists sx, sy. intuition auto. Qed.

(** G.points: the primal vertices are at the even rows and columns, the dual vertices at the odd ones, in the order of G.verts and G.verts_dual *)
Theorem C91_points : exists X Y, points2 gx gy = Ok (X, Y) /\ nr X = (Nd gy 0 true + Nd gy 0 false)%nat /\ nc X = (Nd gx 0 true + Nd gx 0 false)%nat /\ nr Y = nr X /\ nc Y = nc X /\
  forall t i j, (i < Nd gy 0 t)%nat -> (j < Nd gx 0 t)%nat ->
    let odd := if t then 0%nat else 1%nat in
    at2 X (2 * i + odd) (2 * j + odd) = nth (i * Nd gx 0 t + j) (fst (f0 (g2cells G) t)) 0 /\ at2 Y (2 * i + odd) (2 * j + odd) = nth (i * Nd gx 0 t + j) (snd (f0 (g2cells G) t)) 0.
Proof.
  destruct all_fields as (sx & sy & Ex & Ey & Ec & _ & _). rewrite Ec. unfold points2. rewrite Ex, Ey. cbn [bind].
  destruct (good_cells gx Gx) as (sx' & Ex' & Lx). rewrite Ex in Ex'. injection Ex' as <-. destruct (good_cells gy Gy) as (sy' & Ey' & Ly). rewrite Ey in Ey'. injection Ey' as <-.
  destruct Gx as [Bx Hx], Gy as [By Hy]. unfold cells_of in Ex, Ey.
  destruct (C03_points_sorted_union (kd gx) (sz gx) (lo gx) (hi gx) ltac:(destruct (kd gx); cbn in *; lia) Hx) as (c & px & E & Px & Lpx & Evx & Odx & _). rewrite Ex in E. injection E as <-.
  destruct (C03_points_sorted_union (kd gy) (sz gy) (lo gy) (hi gy) ltac:(destruct (kd gy); cbn in *; lia) Hy) as (c & py & E & Py & Lpy & Evy & Ody & _). rewrite Ey in E. injection E as <-.
  rewrite Px, Py. cbn [bind]. eexists _, _. split; [reflexivity|]. cbn [nr nc]. split; [exact Lpy|]. split; [exact Lpx|]. split; [reflexivity|]. split; [reflexivity|].
  assert (forall r q (F : nat -> nat -> R) a b, (a < r)%nat -> (b < q)%nat -> at2 (mk2 r q F) a b = F a b) as At by (intros r q F a b Ha Hb; unfold at2; cbn [nc]; exact (Grid2P.nth_flat r q F a b 0 Ha Hb)).
  intros t i j Hi Hj. set (odd := if t then 0%nat else 1%nat). destruct (Lx t) as (Lvx & _), (Ly t) as (Lvy & _). unfold flatten_cells, product_cells, f0, c0, meshgrid. cbn [fst snd].
  assert ((i < length (v1 sy t))%nat /\ (j < length (v1 sx t))%nat) as [Hi' Hj'] by lia.
  assert (2 * i + odd < length py /\ 2 * j + odd < length px)%nat as [Hpi Hpj].
  { unfold odd. rewrite Lpy, Lpx. unfold Nd in Hi, Hj. destruct t, (kd gx), (kd gy); cbn in *; unfold grid_N, sizes_periodic, sizes_interval in *; lia. }
  rewrite !At by auto.
  assert (forall F, nth (i * Nd gx 0 t + j) (dat (mk2 (length (v1 sy t)) (length (v1 sx t)) F)) 0 = F i j) as Fl by (intro F; rewrite <- Lvx; exact (Grid2P.nth_flat _ _ F i j 0 Hi' Hj')).
  rewrite !Fl. unfold odd, v1, Nd in *. destruct t; rewrite ?Nat.add_0_r; rewrite ?Evx, ?Odx, ?Evy, ?Ody by auto; auto.
Qed.
(** D0, D1, D0d, D1d = G.derivative() *)
Theorem C91_derivative : exists D0 D1 D0d D1d, derivative2 G = Ok (D0, D1, D0d, D1d) /\
  (forall t f, tget (g2N G) (0%nat, t) = Ok (length f) -> exists g n2, tget (g2N G) (1%nat, t) = Ok (length g) /\ tget (g2N G) (2%nat, t) = Ok n2 /\
     (if t then D0 else D0d) f = Ok g /\ (if t then D1 else D1d) g = Ok (repeat 0 n2)).
Proof.
  assert (forall t f, tget (g2N G) (0%nat, t) = Ok (length f) -> _) as Q by (intros t f H; exact (C42_dd close gx gy G t f Gx Gy EG H)).
  destruct all_fields as (sx & sy & Ex & Ey & Ec & EN & _). 
  assert (forall t, tget (g2N G) (0%nat, t) = Ok (length (repeat 0 (N2 gx gy 0 t)))) as Z by (intro t; rewrite EN, tget_table6, repeat_length by lia; reflexivity).
  destruct (Q true _ (Z true)) as (D0 & D1 & _ & _ & _ & E0 & E1 & _). destruct (Q false _ (Z false)) as (D0d & D1d & _ & _ & _ & E0d & E1d & _).
  exists D0, D1, D0d, D1d. unfold derivative2. rewrite E0, E1, E0d, E1d. cbn [bind]. split; [reflexivity|]. intros t f Hf. destruct (Q t f Hf) as (A & B & g & n1 & n2 & EA & EB & F1 & F2 & Eg & Lg & EZ).
  exists g, n2. rewrite F1, Lg. split; auto. split; auto. destruct t; [rewrite E0 in EA; rewrite E1 in EB|rewrite E0d in EA; rewrite E1d in EB]; injection EA as <-; injection EB as <-; auto.
Qed.
(** H0, H1, H2, H0d, H1d, H2d = G.hodge_star(): each is undone by the one of the complementary degree and the other kind, up to the sign of 1-forms *)
Theorem C91_hodge_star : guard_ok close (sz gx) \/ kd gx <> Chebyshev -> guard_ok close (sz gy) \/ kd gy <> Chebyshev ->
  exists H0 H1 H2 H0d H1d H2d, hodge_star2 G = Ok (H0, H1, H2, H0d, H1d, H2d) /\
  let H d t := nth (pos2 d t) [H0; H1; H2; H0d; H1d; H2d] H0 in
  forall d t f, (d <= 2)%nat -> tget (g2N G) (d, t) = Ok (length f) -> exists g, H d t f = Ok g /\ tget (g2N G) ((2 - d)%nat, negb t) = Ok (length g) /\ H (2 - d)%nat (negb t) g = Ok (if Nat.eqb d 1 then map Ropp f else f).
Proof.
  intros Kx Ky. assert (sound close gx) as Sx by (split; auto; intro; destruct Kx; [auto|congruence]). assert (sound close gy) as Sy by (split; auto; intro; destruct Ky; [auto|congruence]).
  assert (forall d t f, (d <= 2)%nat -> tget (g2N G) (d, t) = Ok (length f) -> _) as Q by (intros d t f Hd H; exact (C44_hodge close gx gy G d t f Sx Sy EG Hd H)).
  destruct all_fields as (sx & sy & Ex & Ey & Ec & EN & _).
  assert (forall d t, (d <= 2)%nat -> exists H, tget (g2H G) (d, t) = Ok H) as Z.
  { intros d t Hd. destruct (Q d t (repeat 0 (N2 gx gy d t)) Hd) as (H & _ & _ & E & _); [rewrite EN, tget_table6, repeat_length by lia; reflexivity|]. eauto. }
  destruct (Z 0%nat true ltac:(lia)) as (H0 & E0). destruct (Z 1%nat true ltac:(lia)) as (H1 & E1). destruct (Z 2%nat true ltac:(lia)) as (H2 & E2).
  destruct (Z 0%nat false ltac:(lia)) as (H0d & E0d). destruct (Z 1%nat false ltac:(lia)) as (H1d & E1d). destruct (Z 2%nat false ltac:(lia)) as (H2d & E2d).
  exists H0, H1, H2, H0d, H1d, H2d. split; [unfold hodge_star2, six; rewrite E0, E1, E2, E0d, E1d, E2d; reflexivity|]. intros H d t f Hd Hf.
  assert (forall d t, (d <= 2)%nat -> tget (g2H G) (d, t) = Ok (H d t)) as EH by (intros d' t' Hd'; destruct d' as [|[|[|d']]], t'; try lia; cbn; auto).
  destruct (Q d t f Hd Hf) as (A & B & g & EA & EB & Eg & Lg & Ei). rewrite EH in EA, EB by lia. injection EA as <-. injection EB as <-. exists g. auto.
Qed.
(** G.reconstruction(): its functions are the R of the forms on G *)
Lemma basis_defined d t : (d <= 2)%nat -> exists B, tget (g2B G) (d, t) = Ok B /\ forall i, (i < N2 gx gy d t)%nat -> exists b, B (Z.of_nat i) = Ok b.
Proof.
  intro Hd. destruct all_fields as (sx & sy & Ex & Ey & Ec & EN & EB). rewrite EB, tget_table6 by auto. eexists. split; [reflexivity|]. intros i Hi.
  assert (forall i s, (i < fst s * snd s)%nat -> unravel_index (Z.of_nat i) s = Ok (i / snd s, i mod snd s)%nat) as U.
  { intros i' s H'. unfold unravel_index. rewrite Nat2Z.id. replace ((0 <=? Z.of_nat i') && (Z.of_nat i' <? Z.of_nat (fst s * snd s)))%Z%bool with true; [reflexivity|]. symmetry. apply andb_true_intro. split; [apply Z.leb_le; lia|apply Z.ltb_lt; apply inj_lt; exact H']. }
  destruct d as [|[|[|d]]]; try lia; cbn [shp2 N2] in *; unfold reshapeB1.
  - rewrite U by exact Hi. cbn. eauto.
  - unfold unravel_idx. cbn [unravel_from]. destruct (Nat.lt_ge_cases i (Nd gy 0 t * Nd gx 1 t)) as [H|H].
    + replace ((Z.of_nat 0 <=? Z.of_nat i) && (Z.of_nat i <? Z.of_nat (0 + Nd gy 0 t * Nd gx 1 t)))%Z%bool with true by (symmetry; apply andb_true_intro; split; [apply Z.leb_le; lia|apply Z.ltb_lt; lia]).
      replace (Z.of_nat i - Z.of_nat 0)%Z with (Z.of_nat i) by lia. rewrite U by exact H. cbn. eauto.
    + replace ((Z.of_nat 0 <=? Z.of_nat i) && (Z.of_nat i <? Z.of_nat (0 + Nd gy 0 t * Nd gx 1 t)))%Z%bool with false by (symmetry; apply andb_false_intro2; apply Z.ltb_ge; lia).
      replace ((Z.of_nat (0 + Nd gy 0 t * Nd gx 1 t) <=? Z.of_nat i) && (Z.of_nat i <? Z.of_nat (0 + Nd gy 0 t * Nd gx 1 t + Nd gy 1 t * Nd gx 0 t)))%Z%bool with true by (symmetry; apply andb_true_intro; split; [apply Z.leb_le; lia|apply Z.ltb_lt; lia]).
      replace (Z.of_nat i - Z.of_nat (0 + Nd gy 0 t * Nd gx 1 t))%Z with (Z.of_nat (i - Nd gy 0 t * Nd gx 1 t)) by lia. rewrite U by (cbn [fst snd]; lia). cbn. eauto.
  - rewrite U by exact Hi. cbn. eauto.
Qed.
Lemma basis_list_ok d t : (d <= 2)%nat -> exists l B, tget (g2B G) (d, t) = Ok B /\ basis_list G (d, t) = Ok l /\ length l = N2 gx gy d t /\ forall i, (i < N2 gx gy d t)%nat -> B (Z.of_nat i) = Ok (nth i l (fun _ _ => None)).
Proof.
  intro Hd. destruct (basis_defined d t Hd) as (B & EB & HB). destruct all_fields as (sx & sy & Ex & Ey & Ec & EN & _).
  exists (map (fun i => match B (Z.of_nat i) with Ok b => b | Err _ => fun _ _ => None end) (seq 0 (N2 gx gy d t))), B. split; auto. unfold basis_list. rewrite EB, EN, tget_table6 by auto. cbn [bind]. split.
  - apply mapM_ok. intros i Hi. apply in_seq in Hi. destruct (HB i ltac:(lia)) as (b & ->). reflexivity.
  - rewrite map_length, seq_length. split; auto. intros i Hi. rewrite (nth_indep _ _ ((fun i => match B (Z.of_nat i) with Ok b => b | Err _ => fun _ _ => None end) 0%nat)) by (rewrite map_length, seq_length; lia).
    rewrite (map_nth (fun i => match B (Z.of_nat i) with Ok b => b | Err _ => fun _ _ => None end)), seq_nth by auto. destruct (HB i Hi) as (b & E). cbn [Nat.add]. now rewrite E.
Qed.
Theorem C91_reconstruction {heap : nat -> grid (list (arr R))} r : heap r = grid_of2 G ->
  exists Rs, reconstruction2 G = Ok Rs /\ length Rs = 6%nat /\
  forall d t a x y, (d <= 2)%nat -> nth (pos2 d t) Rs (fun _ _ _ => Err KeyError) a x y = form_R heap (MkForm d t r a) [x; y].
Proof.
  intro Eh. destruct all_fields as (sx & sy & Ex & Ey & Ec & EN & _).
  destruct (basis_list_ok 0 true ltac:(lia)) as (l0 & B0 & E0 & F0 & L0 & N0). destruct (basis_list_ok 1 true ltac:(lia)) as (l1 & B1 & E1 & F1 & L1 & N1). destruct (basis_list_ok 2 true ltac:(lia)) as (l2 & B2 & E2 & F2 & L2 & N2').
  destruct (basis_list_ok 0 false ltac:(lia)) as (l3 & B3 & E3 & F3 & L3 & N3). destruct (basis_list_ok 1 false ltac:(lia)) as (l4 & B4 & E4 & F4 & L4 & N4). destruct (basis_list_ok 2 false ltac:(lia)) as (l5 & B5 & E5 & F5 & L5 & N5).
  unfold reconstruction2, basis_fn2. cbn [mapM]. rewrite F0, F1, F2, F3, F4, F5. cbn [bind]. eexists. split; [reflexivity|]. split; [reflexivity|].
  assert (forall d t (l : list bfun2) B a x y, (d <= 2)%nat -> tget (g2B G) (d, t) = Ok B -> length l = N2 gx gy d t -> (forall i, (i < N2 gx gy d t)%nat -> B (Z.of_nat i) = Ok (nth i l (fun _ _ => None))) -> recon2 l a x y = form_R heap (MkForm d t r a) [x; y]) as K.
  { intros d t l B a x y Hd EB Ll HB. unfold form_R, recon2. cbn [degree isprimal gref array]. rewrite Eh. unfold grid_of2. cbn [gN gB]. rewrite EN, tget_table6 by auto. cbn [bind].
    pose proof (tget_map (fun _ (v : Z -> res (R -> R -> option (list R))) (i : nat) (x : list R) => match x with [x; y] => match v (Z.of_nat i) with Ok b => b x y | Err _ => None end | _ => None end) (g2B G) (d, t)) as TM. rewrite EB in TM.
    match goal with |- context [tget ?T (d, t)] => replace (tget T (d, t)) with (Ok (fun (i : nat) (x : list R) => match x with [x; y] => match B (Z.of_nat i) with Ok b => b x y | Err _ => None end | _ => None end)) end.
    cbn [bind]. rewrite Ll. destruct (Nat.ltb (length a) (N2 gx gy d t)); [reflexivity|]. match goal with |- Ok (match all_some ?A with _ => _ end) = Ok (match all_some ?B with _ => _ end) => assert (A = B) as ->; [|reflexivity] end. apply map_ext_in. intros i Hi. apply in_seq in Hi. rewrite HB by lia. reflexivity. }
  intros d t a x y Hd. destruct d as [|[|[|d]]], t; try lia; cbn [pos2 map nth Nat.add]; eapply K; eauto.
Qed.
Lemma ok_inj' {A} (x y : A) : Ok x = Ok y -> x = y. Proof. now intros [=]. Qed.
(** G.projection() undoes G.reconstruction() (default extents, odd numbers of points on periodic factors) *)
Theorem C91_project_reconstruct {heap : nat -> grid (list (arr R))} r : heap r = grid_of2 G -> default_extent gx -> default_extent gy -> works close (kd gx) (sz gx) -> works close (kd gy) (sz gy) -> complete gx -> complete gy ->
  exists P0 P1 P2 P0d P1d P2d Rs, projection2 G = Ok (P0, P1, P2, P0d, P1d, P2d) /\ reconstruction2 G = Ok Rs /\
  forall d t a, (d <= 2)%nat -> tget (g2N G) (d, t) = Ok (length a) -> exists w,
    (forall x y, inside (kd gx) d x -> inside (kd gy) d y -> nth (pos2 d t) Rs (fun _ _ _ => Err KeyError) a x y = Ok (Some (map (fun f => f x y) w))) /\
    resolved2 gx gy d t w /\ nth (pos2 d t) [P0; P1; P2; P0d; P1d; P2d] P0 w = Ok a.
Proof.
  intros Eh Dx Dy Wx Wy Cx Cy. destruct (C91_reconstruction (heap := heap) r Eh) as (Rs & ER & _ & HR).
  assert (forall d t, (d <= 2)%nat -> exists P Pn, tget (g2P G) (d, t) = Ok P /\ tget (g2Pn G) (d, t) = Ok Pn /\ forall form : list (R -> R -> R), (forall f, In f form -> cont2 f) -> P form = Pn form) as Q by (intros d t Hd; exact (C45_numerical_projection close gx gy G d t Gx Gy EG Hd)).
  destruct (Q 0%nat true ltac:(lia)) as (_ & P0 & _ & E0 & _). destruct (Q 1%nat true ltac:(lia)) as (_ & P1 & _ & E1 & _). destruct (Q 2%nat true ltac:(lia)) as (_ & P2 & _ & E2 & _).
  destruct (Q 0%nat false ltac:(lia)) as (_ & P0d & _ & E0d & _). destruct (Q 1%nat false ltac:(lia)) as (_ & P1d & _ & E1d & _). destruct (Q 2%nat false ltac:(lia)) as (_ & P2d & _ & E2d & _).
  exists P0, P1, P2, P0d, P1d, P2d, Rs. split; [unfold projection2, six; rewrite E0, E1, E2, E0d, E1d, E2d; reflexivity|]. split; auto. intros d t a Hd Ha.
  destruct (C83_bijection close heap gx gy G r d t a (conj EG Eh) Dx Dy Wx Wy Cx Cy Hd Ha) as (w & [Rw Hw] & Dw & _). exists w. split; [intros x y Hx Hy; etransitivity; [exact (HR d t a x y Hd)|auto]|]. split; auto.
  destruct (Q d t Hd) as (P & Pn & EP & EPn & HP). assert (tget (g2Pn G) (d, t) = Ok (nth (pos2 d t) [P0; P1; P2; P0d; P1d; P2d] P0)) as EN by (destruct d as [|[|[|d]]], t; try lia; cbn; auto).
  rewrite EPn in EN. apply ok_inj' in EN. rewrite <- EN, <- HP; [|]. { destruct Dw as (P' & EP' & V). rewrite EP in EP'. now injection EP' as ->. }
  assert (forall dx dy t g, res2 gx gy dx dy t g -> cont2 g) as CC by (intros dx dy t' g; apply sep_cont; intros u Hu z; apply (res_cont _ _ _ _ _ _ Hu)).
  clear - Rw CC Hd. intros f Hf. destruct d as [|[|[|d]]], w as [|f1 [|f2 [|f3 w]]]; cbn in Rw; try tauto; cbn in Hf.
  - destruct Hf as [<-|[]]. eapply CC; exact Rw.
  - destruct Rw as [R1 R2], Hf as [<-|[<-|[]]]; eapply CC; eassumption.
  - destruct Hf as [<-|[]]. eapply CC; exact Rw.
Qed.
(** G.Pn and G.BC: D(Pn(w, False)) + BC(w) = Pn(dw, False), for 0-forms and 1-forms *)
Lemma Pn_P d t : (d <= 1)%nat -> tget (g2Pn G) (d, t) = tget (g2P G) (d, t).
Proof.
  intro Hd. destruct (product_ok close gx gy Gx Gy) as (sx & sy & G' & _ & _ & E & _ & _ & _ & EP & EPn & _). rewrite EG in E. injection E as <-. rewrite EP, EPn. destruct d as [|[|d]], t; try lia; reflexivity.
Qed.
Theorem C91_stokes_0 {heap : nat -> grid (list (arr R))} r f fx fy : heap r = grid_of2 G -> C1_with f fx fy -> periodic_x gx f -> periodic_y gy f ->
  exists a z b a', grid_Pn G r 0 [f] false = Ok a /\ form_D heap a = Ok (ZForm z) /\ grid_BC G r 0 [f] = Ok b /\ grid_Pn G r 1 [fx; fy] false = Ok a' /\ binary Badd z (OForm b) = Ok a'.
Proof.
  intros Eh Hf Px Py. destruct (C45_stokes0_dual close gx gy G f fx fy Gx Gy EG Hf Px Py) as (P0 & P1 & D0 & BC & u & v & w & b & E0 & E1 & ED & EB & Eu & Ev & Ew & Eb & L & S).
  exists (MkForm 0 false r u), (MkForm 1 false r w), (MkForm 1 false r b), (MkForm 1 false r v). unfold grid_Pn, grid_BC. rewrite !Pn_P, E0, E1 by lia. cbn [bind Nat.add]. rewrite EB. cbn [bind]. rewrite Eu, Ev, Eb. cbn [bind].
  split; [reflexivity|]. split; [exact (form_D2 close heap gx gy G r 0 false D0 u w (conj EG Eh) ED Ew)|]. split; [reflexivity|]. split; [reflexivity|].
  unfold binary. cbn [degree gref isprimal array]. rewrite !Nat.eqb_refl. cbn [negb eqb bop_fn bind]. rewrite np_bin_eq by auto. cbn [bind]. f_equal. f_equal. exact S.
Qed.
Theorem C91_stokes_1 {heap : nat -> grid (list (arr R))} r f fx fy g gdx gdy : heap r = grid_of2 G -> C1_with f fx fy -> C1_with g gdx gdy -> periodic_y gy f -> periodic_x gx g ->
  exists a z b a', grid_Pn G r 1 [f; g] false = Ok a /\ form_D heap a = Ok (ZForm z) /\ grid_BC G r 1 [f; g] = Ok b /\ grid_Pn G r 2 [fun x y => gdx x y - fy x y] false = Ok a' /\ binary Badd z (OForm b) = Ok a'.
Proof.
  intros Eh Hf Hg Px Py. destruct (C45_stokes1_dual close gx gy G f fx fy g gdx gdy Gx Gy EG Hf Hg Px Py) as (P1 & P2 & D1 & BC & u & v & w & b & E1 & E2 & ED & EB & Eu & Ev & Ew & Eb & L & S).
  destruct (C45_numerical_projection close gx gy G 2 false Gx Gy EG ltac:(lia)) as (P & Pn & EP & EPn & HP). rewrite E2 in EP. injection EP as <-.
  rewrite HP in Ev by (intros h [<-|[]]; destruct Hf as (_ & _ & _ & ?), Hg as (_ & _ & ? & _); now apply Fubini.cont2_minus).
  exists (MkForm 1 false r u), (MkForm 2 false r w), (MkForm 2 false r b), (MkForm 2 false r v). unfold grid_Pn, grid_BC. rewrite Pn_P, E1, EPn by lia. cbn [bind Nat.add]. rewrite EB. cbn [bind]. rewrite Eu, Ev, Eb. cbn [bind].
  split; [reflexivity|]. split; [exact (form_D2 close heap gx gy G r 1 false D1 u w (conj EG Eh) ED Ew)|]. split; [reflexivity|]. split; [reflexivity|].
  unfold binary. cbn [degree gref isprimal array]. rewrite !Nat.eqb_refl. cbn [negb eqb bop_fn bind]. rewrite np_bin_eq by auto. cbn [bind]. f_equal. f_equal. exact S.
Qed.
(** G.rand(d, t): a form of the right size whatever the random numbers, so its Hodge star is undone by the Hodge star *)
Theorem C91_rand {heap : nat -> grid (list (arr R))} r d t rng : heap r = grid_of2 G -> sound close gx -> sound close gy -> (d <= 2)%nat -> (forall n, length (rng n) = n) ->
  exists a b c, grid_rand heap r d t rng = Ok a /\ degree a = d /\ isprimal a = t /\ gref a = r /\ tget (g2N G) (d, t) = Ok (length (array a)) /\
    form_H heap a = Ok b /\ form_H heap b = Ok c /\ c = (if Nat.eqb d 1 then neg a else a).
Proof.
  intros Eh Sx Sy Hd Hr. destruct all_fields as (sx & sy & _ & _ & _ & EN & _). pose proof (tget_table6 (N2 gx gy) d t Hd) as T. rewrite <- EN in T.
  destruct (C44_hodge close gx gy G d t (rng (N2 gx gy d t)) Sx Sy EG Hd) as (H & H' & g & EH & EH' & Eg & Lg & Ei); [now rewrite T, Hr|].
  exists (MkForm d t r (rng (N2 gx gy d t))), (MkForm (2 - d) (negb t) r g). eexists. unfold grid_rand. rewrite Eh. cbn [grid_of2 gN]. rewrite T. cbn [bind]. split; [reflexivity|]. split; [reflexivity|]. split; [reflexivity|]. split; [reflexivity|]. cbn [array]. split; [now rewrite Hr|].
  unfold form_H. cbn [degree isprimal gref array]. rewrite Eh. cbn [gH gdim grid_of2]. rewrite EH, EH'. cbn [bind]. rewrite Eg. cbn [bind]. split; [reflexivity|]. rewrite Ei. cbn [bind]. split; [reflexivity|].
  replace (2 - (2 - d))%nat with d by lia. rewrite negb_involutive. unfold neg. cbn [degree isprimal gref array]. now destruct (Nat.eqb d 1).
Qed.
End G.
(** 1D: the functions of reconstruction() are the R of the forms, and projection() undoes them *)
Theorem C91_reconstruction_1d {close} {heap : nat -> grid (list R)} r g c : refers close heap r g c -> default_extent g -> works close (kd g) (sz g) -> complete g ->
  forall d t a, (d <= 1)%nat -> length a = grid_N (kd g) (sz g) d t -> exists f,
    (forall x, inside (kd g) d x -> nth (pos1 d t) (reconstruction1 g) (fun _ _ => None) a x = Some (f x) /\ form_R heap (MkForm d t r a) [x] = Ok (Some [f x])) /\
    nth (pos1 d t) (projection1 c) (fun _ => []) f = a.
Proof.
  intros HR De Hw Hc d t a Hd La. destruct (C82_bijection close heap r g c d t a HR De Hw Hc Hd La) as (f & [Rf Hf] & Pf & _). exists f. split.
  - intros x Hx. split; [|now apply Hf]. destruct HR as [_ E]. subst a. clear - Rf Hx E De Hw Hd. pose proof (default_cells g c De E) as Hcc.
    assert (R_form (basis_of (kd g) (sz g)) (grid_N (kd g) (sz g)) d t (proj c d t f) x = Some (f x)) as K.
    { destruct g as [k n l h]. cbn [kd sz] in *. destruct k; cbn [basis_of inside grid_N works resolved] in *; [subst c; now apply Proofs.Exact1.per_R|now apply Proofs.Exact1.reg_R|apply Proofs.Exact1.cheb_R; tauto]. }
    rewrite <- K. unfold reconstruction1. destruct d as [|[|d]], t; try lia; reflexivity.
  - rewrite <- Pf. destruct d as [|[|d]], t; try lia; reflexivity.
Qed.
(** Grid_2D.periodic(N, M), regular(N, M), chebyshev(N, M) *)
Theorem C91_square close k N M : big_enough k N -> big_enough k M -> exists G, square close k N M = Ok G /\
  forall d t, tget (g2N G) (d, t) = match d with
    | 0%nat => Ok (grid_N k M 0 t * grid_N k N 0 t)%nat | 1%nat => Ok (grid_N k M 0 t * grid_N k N 1 t + grid_N k M 1 t * grid_N k N 0 t)%nat | 2%nat => Ok (grid_N k M 1 t * grid_N k N 1 t)%nat | _ => Err KeyError end.
Proof.
  intros HN HM. assert (forall n, big_enough k n -> good (default1 k n)) as Gd by (intros n Hn; unfold good, default1; pose proof PI_RGT_0; destruct k; cbn; split; auto; lra).
  destruct (C46_product_exists close _ _ (Gd N HN) (Gd M HM)) as (G & EG). exists G. split; [exact EG|]. intros d t.
  destruct (all_fields close _ _ G (Gd N HN) (Gd M HM) EG) as (_ & _ & _ & _ & _ & EN & _). rewrite EN. destruct d as [|[|[|d]]]; [rewrite tget_table6 by lia..|rewrite tget_table6_none by lia; reflexivity]; unfold N2, Nd; destruct k; reflexivity.
Qed.
(** they cover the squares [0, 2 pi]^2, [0, pi]^2 and [-1, 1]^2: the x-coordinates of the vertices and faces are those of a 1D grid with N points whose edges tile
    the interval, the y-coordinates those of one with M points *)
Theorem C91_square_extent close k N M : big_enough k N -> big_enough k M ->
  let a := match k with Periodic => 0 | Regular => 0 | Chebyshev => -1 end in let b := match k with Periodic => 2 * PI | Regular => PI | Chebyshev => 1 end in
  exists G cx cy, square close k N M = Ok G /\ make_cells k N a b = Ok cx /\ make_cells k M a b = Ok cy /\ tiles a b (fst (edges cx)) (snd (edges cx)) /\ tiles a b (fst (edges cy)) (snd (edges cy)) /\
  (forall t i j, (i < length (v1 cy t))%nat -> (j < length (v1 cx t))%nat ->
     let m := (i * length (v1 cx t) + j)%nat in (nth m (fst (f0 (g2cells G) t)) 0, nth m (snd (f0 (g2cells G) t)) 0) = (nth j (v1 cx t) 0, nth i (v1 cy t) 0)) /\
  (forall i j, (i < length (fst (edges cy)))%nat -> (j < length (fst (edges cx)))%nat ->
     let m := (i * length (fst (edges cx)) + j)%nat in let '(A, _, C', _) := f2 (g2cells G) true in
     (nth m (fst A) 0, nth m (snd A) 0) = (nth j (fst (edges cx)) 0, nth i (fst (edges cy)) 0) /\ (nth m (fst C') 0, nth m (snd C') 0) = (nth j (snd (edges cx)) 0, nth i (snd (edges cy)) 0)).
Proof.
  intros HN HM a b. assert (forall n, big_enough k n -> good (default1 k n)) as Gd by (intros n Hn; unfold good, default1; pose proof PI_RGT_0; destruct k; cbn; split; auto; lra).
  assert (a < b) as Hab by (unfold a, b; pose proof PI_RGT_0; destruct k; lra).
  assert (forall n, cells_of (default1 k n) = make_cells k n a b) as Ed by (intro n; unfold cells_of, default1, a, b; destruct k; reflexivity).
  destruct (C46_product_exists close _ _ (Gd N HN) (Gd M HM)) as (G & EG). destruct (Cells2.C46_cells close _ _ G (Gd N HN) (Gd M HM) EG) as (cx & cy & Ex & Ey & H). rewrite Ed in Ex, Ey.
  assert (forall n c, big_enough k n -> make_cells k n a b = Ok c -> tiles a b (fst (edges c)) (snd (edges c))) as T.
  { intros n c Hn Ec. destruct (C01_primal_cells_tile k n a b) as (c' & Ec' & Ht & _); [unfold big_enough in Hn; unfold smallest_n; destruct k; exact Hn|exact Hab|]. rewrite Ec in Ec'. injection Ec' as <-. exact Ht. }
  exists G, cx, cy. split; [exact EG|]. split; [exact Ex|]. split; [exact Ey|]. split; [now apply (T N)|]. split; [now apply (T M)|]. split.
  - intros t i j Hi Hj. specialize (H t). cbv zeta in H. destruct (f1 (g2cells G) t), (f2 (g2cells G) t) as [[[A B] C'] D]. destruct H as (_ & _ & _ & _ & _ & _ & _ & _ & _ & HV & _). exact (HV i j Hi Hj).
  - intros i j Hi Hj. specialize (H true). cbv zeta in H. destruct (f1 (g2cells G) true), (f2 (g2cells G) true) as [[[A B] C'] D]. destruct H as (_ & _ & _ & _ & _ & _ & _ & _ & _ & _ & _ & _ & HF). destruct (HF i j Hi Hj) as (H1 & _ & H2 & _). split; [exact H1|exact H2].
Qed.
(** Grid_2D.periodic(3, 5) and the grid periodic(3) x chebyshev(3): the accessors applied to concrete forms *)
Example C91_instance : (exists G, square never Periodic 3 5 = Ok G /\ tget (g2N G) (1%nat, true) = Ok 30%nat) /\
  exists G Rs P0 P1 P2 P0d P1d P2d w, product never per3 che3 = Ok G /\ projection2 G = Ok (P0, P1, P2, P0d, P1d, P2d) /\ reconstruction2 G = Ok Rs /\
    let a := map INR (seq 1 9) in (forall x y, inside (kd per3) 0 x -> inside (kd che3) 0 y -> nth 0 Rs (fun _ _ _ => Err KeyError) a x y = Ok (Some (map (fun f => f x y) w))) /\ P0 w = Ok a.
Proof.
  split.
  - destruct (C91_square never Periodic 3 5 ltac:(cbn; lia) ltac:(cbn; lia)) as (G & EG & HN). exists G. split; auto. exact (HN 1%nat true).
  - destruct che3_ok as (E & W & K), per3_ok as (E' & W' & K').
    pose proof (Logic.proj1 (works_good never per3 E' W')) as Gp. pose proof (Logic.proj1 (works_good never che3 E W)) as Gc.
    destruct (Props.Grid2.C46_product_exists never per3 che3 Gp Gc) as (G & EG). set (a := map INR (seq 1 9)).
    destruct (C91_project_reconstruct never per3 che3 G Gp Gc EG (heap := fun _ => grid_of2 G) 0 eq_refl E' E W' W K' K) as (P0 & P1 & P2 & P0d & P1d & P2d & Rs & EP & ER & H).
    destruct (H 0%nat true a ltac:(lia)) as (w & H1 & _ & H2).
    { destruct (all_fields never per3 che3 G Gp Gc EG) as (_ & _ & _ & _ & _ & EN & _). rewrite EN, tget_table6 by lia. reflexivity. }
    exists G, Rs, P0, P1, P2, P0d, P1d, P2d, w. split; auto.
Qed.
