(** C45: Stokes' theorem on two-dimensional product grids. *)
From Coq Require Import ZArith Reals List Lia Lra Arith Bool.
From Coq Require Import ZifyNat ZifyBool.
From Verif Require Import Model.Sym.
From Coquelicot Require Import Coquelicot.
From Verif Require Import Model.Num Model.Np Model.Spectral Model.Basis Model.Grids1 Model.Regular Model.Chebyshev Model.Common Model.Decform Model.Grid2 Spec.Tiling Spec.Plane
  Proofs.ListLemmas Proofs.RIntLemmas Proofs.RingSums Proofs.Grids1P Proofs.GridsThm Proofs.Lin Proofs.TableLin Proofs.Arr2 Proofs.Grid2P Proofs.Grid2Ops Proofs.Fubini Proofs.Stokes2 Props.Grid2.
Import ListNotations.
Local Open Scope nat_scope.
Ltac Zify.zify_post_hook ::= Z.div_mod_to_equations.

(** f takes the same values on both ends of the periodic directions of the grid *)
Definition wraps_x (g : grid1) (f : R -> R -> R) : Prop := kd g = Periodic -> forall y, f (hi g) y = f (lo g) y.
Definition wraps_y (g : grid1) (f : R -> R -> R) : Prop := kd g = Periodic -> forall x, f x (hi g) = f x (lo g).
(** f is periodic in the periodic directions *)
Definition periodic_x (g : grid1) (f : R -> R -> R) : Prop := kd g = Periodic -> forall x y, f (x + (hi g - lo g))%R y = f x y.
Definition periodic_y (g : grid1) (f : R -> R -> R) : Prop := kd g = Periodic -> forall x y, f x (y + (hi g - lo g))%R = f x y.

Lemma smooth_x f fx fy y : C1_with f fx fy -> smooth1 (fun x => f x y) (fun x => fx x y).
Proof. intros (A & _ & B & _). split; [intro; apply A|intro; now apply cont2_x]. Qed.
Lemma smooth_y f fx fy x : C1_with f fx fy -> smooth1 (fun y => f x y) (fun y => fy x y).
Proof. intros (_ & A & _ & B). split; [intro; apply A|intro; now apply cont2_y]. Qed.
Lemma C1_cont_x f fx fy y x : C1_with f fx fy -> continuous (fun x => f x y) x.
Proof. intros (A & _). apply continuous_derivable. exists (fx x y). apply A. Qed.
Lemma C1_cont_y f fx fy x y : C1_with f fx fy -> continuous (fun y => f x y) y.
Proof. intros (_ & A & _). apply continuous_derivable. exists (fy x y). apply A. Qed.
Lemma smooth_Ix f fx fy a b : C1_with f fx fy -> smooth1 (fun y => Ix f a b y) (fun y => Ix fy a b y).
Proof.
  intro H. split; intro y; unfold Ix.
  - apply RInt_param_derive; [apply H|apply H|]. intros v x. now apply (C1_cont_x f fx fy).
  - apply RInt_param_cont. apply H.
Qed.
Lemma C1_swap f fx fy : C1_with f fx fy -> C1_with (fun x y => f y x) (fun x y => fy y x) (fun x y => fx y x).
Proof. intros (A & B & C' & D'). split; [intros x y; apply B|]. split; [intros x y; apply A|]. split; now apply cont2_swap. Qed.
Lemma smooth_Iy f fx fy a b : C1_with f fx fy -> smooth1 (fun x => Iy f x a b) (fun x => Iy fx x a b).
Proof. intro H. exact (smooth_Ix _ _ _ a b (C1_swap _ _ _ H)). Qed.
Lemma Ixy_minus f g x0 y0 x1 y1 : cont2 f -> cont2 g -> (Ixy (fun x y => f x y - g x y) x0 y0 x1 y1 = RInt (fun x => Iy f x y0 y1) x0 x1 - RInt (fun y => Ix g x0 x1 y) y0 y1)%R.
Proof.
  intros Hf Hg. unfold Ixy, Iy, Ix. rewrite (fubini g) by auto.
  rewrite <- RInt_minus_R.
  - apply RInt_ext. intros x _. apply RInt_minus_R; apply ex_RInt_cont_all; intro; now apply cont2_y.
  - apply ex_RInt_cont_all. intro x. apply (RInt_param_cont (fun y x => f x y)). now apply cont2_swap.
  - apply ex_RInt_cont_all. intro x. apply (RInt_param_cont (fun y x => g x y)). now apply cont2_swap.
Qed.

(** C45, 0-forms on primal cells: D0 (P0 f) = P1 (df) *)
Theorem C45_stokes0_primal close gx gy G f fx fy : good gx -> good gy -> product close gx gy = Ok G ->
  C1_with f fx fy -> wraps_x gx f -> wraps_y gy f ->
  exists P0 P1 D0 u v, tget (g2P G) (0, true) = Ok P0 /\ tget (g2P G) (1, true) = Ok P1 /\ tget (g2D G) (0, true) = Ok D0 /\
  P0 [f] = Ok u /\ P1 [fx; fy] = Ok v /\ D0 u = Ok v.
Proof.
  intros Gx Gy EG Hf Wx Wy. destruct (product_ok close gx gy Gx Gy) as (sx & sy & G' & Ex & Ey & E & _ & _ & _ & HP & _ & _ & _ & HD & _). rewrite EG in E. injection E as <-.
  rewrite HP, HD. destruct (P0_flat gx gy sx sy Gx Gy Ex Ey true f) as (p0 & E0 & H0). destruct (P1_flat gx gy sx sy Gx Gy Ex Ey true fx fy) as (p1 & E1 & H1).
  destruct (D0_flat gx gy Gx Gy true) as (o & Eo & Ho). exists p0, p1, o. eexists _, _. repeat (split; [eassumption|]).
  rewrite Ho. f_equal. f_equal; apply flat_ext; intros i j Hi Hj.
  - unfold onrows. apply (stokes1_primal gx sx (fun x => f x (vt sy true i)) (fun x => fx x (vt sy true i))); auto. now apply (smooth_x f fx fy).
  - unfold oncols. apply (stokes1_primal gy sy (fun y => f (vt sx true j) y) (fun y => fy (vt sx true j) y)); auto. now apply (smooth_y f fx fy).
Qed.

(** 1-forms f dx + g dy on primal cells: D1 (P1 (f, g)) = P2 (dg/dx - df/dy) *)
Theorem C45_stokes1_primal close gx gy G f fx fy g gdx gdy : good gx -> good gy -> product close gx gy = Ok G ->
  C1_with f fx fy -> C1_with g gdx gdy -> wraps_y gy f -> wraps_x gx g ->
  exists P1 P2 D1 u v, tget (g2P G) (1, true) = Ok P1 /\ tget (g2P G) (2, true) = Ok P2 /\ tget (g2D G) (1, true) = Ok D1 /\
  P1 [f; g] = Ok u /\ P2 [fun x y => (gdx x y - fy x y)%R] = Ok v /\ D1 u = Ok v.
Proof.
  intros Gx Gy EG Hf Hg Wy Wx. destruct (product_ok close gx gy Gx Gy) as (sx & sy & G' & Ex & Ey & E & _ & _ & _ & HP & _ & _ & _ & HD & _). rewrite EG in E. injection E as <-.
  rewrite HP, HD. destruct (P1_flat gx gy sx sy Gx Gy Ex Ey true f g) as (p1 & E1 & H1). destruct (P2_flat gx gy sx sy Gx Gy Ex Ey true (fun x y => (gdx x y - fy x y)%R)) as (p2 & E2 & H2).
  destruct (D1_flat gx gy Gx Gy true) as (o & Eo & Ho). exists p1, p2, o. eexists _, _. repeat (split; [eassumption|]).
  rewrite Ho. f_equal. apply flat_ext; intros i j Hi Hj. rewrite Ixy_minus by (first [apply Hf|apply Hg]).
  unfold oncols, onrows.
  rewrite (stokes1_primal gy sy (fun y => Ix f (el sx true j) (er sx true j) y) (fun y => Ix fy (el sx true j) (er sx true j) y)); auto; [|now apply (smooth_Ix f fx fy)|intro K; unfold Ix; apply RInt_ext; intros; now apply Wy].
  rewrite (stokes1_primal gx sx (fun x => Iy g x (el sy true i) (er sy true i)) (fun x => Iy gdx x (el sy true i) (er sy true i))); auto; [|now apply (smooth_Iy g gdx gdy)|intro K; unfold Iy; apply RInt_ext; intros; now apply Wx].
  req; ring.
Qed.

(** 0-forms on dual cells: D0d (P0d f) + BC f = P1d (df) *)
Theorem C45_stokes0_dual close gx gy G f fx fy : good gx -> good gy -> product close gx gy = Ok G ->
  C1_with f fx fy -> periodic_x gx f -> periodic_y gy f ->
  exists P0 P1 D0 BC u v w b, tget (g2P G) (0, false) = Ok P0 /\ tget (g2P G) (1, false) = Ok P1 /\ tget (g2D G) (0, false) = Ok D0 /\ tget (g2BC G) (1, false) = Ok BC /\
  P0 [f] = Ok u /\ P1 [fx; fy] = Ok v /\ D0 u = Ok w /\ BC [f] = Ok b /\ length w = length b /\ vadd w b = v.
Proof.
  intros Gx Gy EG Hf Wx Wy. destruct (product_ok close gx gy Gx Gy) as (sx & sy & G' & Ex & Ey & E & _ & _ & _ & HP & _ & HB & _ & HD & _). rewrite EG in E. injection E as <-.
  rewrite HP, HD, HB. destruct (P0_flat gx gy sx sy Gx Gy Ex Ey false f) as (p0 & E0 & H0). destruct (P1_flat gx gy sx sy Gx Gy Ex Ey false fx fy) as (p1 & E1 & H1).
  destruct (D0_flat gx gy Gx Gy false) as (o & Eo & Ho). destruct (B1_flat gx gy sx sy Gx Gy Ex Ey f) as (b & Eb & Hb). exists p0, p1, o, b. eexists _, _, _, _. repeat (split; [first [eassumption|apply Ho]|]). split; [now rewrite !app_length, !length_flat|].
  unfold vadd. rewrite zipw_app by (now rewrite !length_flat). rewrite !flat_zip. f_equal; apply flat_ext; intros i j Hi Hj; change nadd with Rplus.
  - unfold onrows. apply (stokes1_dual gx sx (fun x => f x (vt sy false i)) (fun x => fx x (vt sy false i))); auto. now apply (smooth_x f fx fy).
  - unfold oncols. apply (stokes1_dual gy sy (fun y => f (vt sx false j) y) (fun y => fy (vt sx false j) y)); auto. now apply (smooth_y f fx fy).
Qed.

(** 1-forms on dual cells: D1d (P1d (f, g)) + BC (f, g) = P2d (dg/dx - df/dy) *)
Theorem C45_stokes1_dual close gx gy G f fx fy g gdx gdy : good gx -> good gy -> product close gx gy = Ok G ->
  C1_with f fx fy -> C1_with g gdx gdy -> periodic_y gy f -> periodic_x gx g ->
  exists P1 P2 D1 BC u v w b, tget (g2P G) (1, false) = Ok P1 /\ tget (g2P G) (2, false) = Ok P2 /\ tget (g2D G) (1, false) = Ok D1 /\ tget (g2BC G) (2, false) = Ok BC /\
  P1 [f; g] = Ok u /\ P2 [fun x y => (gdx x y - fy x y)%R] = Ok v /\ D1 u = Ok w /\ BC [f; g] = Ok b /\ length w = length b /\ vadd w b = v.
Proof.
  intros Gx Gy EG Hf Hg Wy Wx. destruct (product_ok close gx gy Gx Gy) as (sx & sy & G' & Ex & Ey & E & _ & _ & _ & HP & _ & HB & _ & HD & _). rewrite EG in E. injection E as <-.
  rewrite HP, HD, HB. destruct (P1_flat gx gy sx sy Gx Gy Ex Ey false f g) as (p1 & E1 & H1). destruct (P2_flat gx gy sx sy Gx Gy Ex Ey false (fun x y => (gdx x y - fy x y)%R)) as (p2 & E2 & H2).
  destruct (D1_flat gx gy Gx Gy false) as (o & Eo & Ho). destruct (B2_flat gx gy sx sy Gx Gy Ex Ey f g) as (b & Eb & Hb). exists p1, p2, o, b. eexists _, _, _, _. repeat (split; [first [eassumption|apply Ho]|]). split; [now rewrite !length_flat|].
  unfold vadd. rewrite flat_zip. apply flat_ext; intros i j Hi Hj. cbv zeta. change nadd with Rplus. rewrite Ixy_minus by (first [apply Hf|apply Hg]).
  unfold oncols, onrows.
  pose proof (stokes1_dual gy sy (fun y => Ix f (el sx false j) (er sx false j) y) (fun y => Ix fy (el sx false j) (er sx false j) y) i Gy Ey (smooth_Ix f fx fy _ _ Hf)) as Sy.
  pose proof (stokes1_dual gx sx (fun x => Iy g x (el sy false i) (er sy false i)) (fun x => Iy gdx x (el sy false i) (er sy false i)) j Gx Ex (smooth_Iy g gdx gdy _ _ Hg)) as Sx.
  rewrite <- Sy, <- Sx; auto; [|intros K x; unfold Iy; apply RInt_ext; intros; now apply Wx|intros K x; unfold Ix; apply RInt_ext; intros; now apply Wy].
  set (x0 := el sx false j). set (x1 := er sx false j). set (y0 := el sy false i). set (y1 := er sy false i).
  assert (Ix f x1 x0 y1 = - Ix f x0 x1 y1)%R as ->. { unfold Ix. symmetry. apply (opp_RInt_swap (fun x => f x y1)). apply ex_RInt_cont_all. intro. now apply (C1_cont_x f fx fy). }
  assert (Iy g x0 y1 y0 = - Iy g x0 y0 y1)%R as ->. { unfold Iy. symmetry. apply (opp_RInt_swap (fun y => g x0 y)). apply ex_RInt_cont_all. intro. now apply (C1_cont_y g gdx gdy). }
  unfold when. destruct (Reqb y0 (lo gy)), (Reqb x1 (hi gx)), (Reqb y1 (hi gy)), (Reqb x0 (lo gx)); req; ring.
Qed.

(** the numerical projection of a continuous form agrees with the symbolic one *)
Theorem C45_numerical_projection close gx gy G d t : good gx -> good gy -> product close gx gy = Ok G -> d <= 2 ->
  exists P Pn, tget (g2P G) (d, t) = Ok P /\ tget (g2Pn G) (d, t) = Ok Pn /\
  forall form : list (R -> R -> R), (forall f, In f form -> cont2 f) -> P form = Pn form.
Proof.
  intros Gx Gy EG Hd. destruct (product_ok close gx gy Gx Gy) as (sx & sy & G' & Ex & Ey & E & _ & _ & _ & HP & HPn & _). rewrite EG in E. injection E as <-.
  rewrite HP, HPn. eapply Pn_flat; eauto.
Qed.

(** concrete instances: f = x*y on a Chebyshev x regular grid, and the rotation -y dx + x dy *)
Lemma C1_xy : C1_with (fun x y => (x * y)%R) (fun x y => y) (fun x y => x).
Proof.
  split; [|split; [|split]].
  - intros x y. auto_derive; [auto|ring].
  - intros x y. auto_derive; [auto|ring].
  - intros x y. apply continuity_2d_pt_id2.
  - intros x y. apply continuity_2d_pt_id1.
Qed.
Lemma C1_rot : C1_with (fun x y => (- y)%R) (fun x y => 0%R) (fun x y => (-1)%R) /\ C1_with (fun x y => x) (fun x y => 1%R) (fun x y => 0%R).
Proof.
  split; (split; [|split; [|split]]); intros x y; try (apply continuity_2d_pt_const); auto_derive; auto; ring.
Qed.
Example C45_instance : exists G, product np_isclose gc gr = Ok G /\
  (exists P0 P1 D0 u v, tget (g2P G) (0, true) = Ok P0 /\ tget (g2P G) (1, true) = Ok P1 /\ tget (g2D G) (0, true) = Ok D0 /\
   P0 [fun x y => (x * y)%R] = Ok u /\ P1 [fun x y => y; fun x y => x] = Ok v /\ D0 u = Ok v) /\
  (exists P1 P2 D1 BC u v w b, tget (g2P G) (1, false) = Ok P1 /\ tget (g2P G) (2, false) = Ok P2 /\ tget (g2D G) (1, false) = Ok D1 /\ tget (g2BC G) (2, false) = Ok BC /\
   P1 [fun x y => (- y)%R; fun x y => x] = Ok u /\ P2 [fun x y => (1 - -1)%R] = Ok v /\ D1 u = Ok w /\ BC [fun x y => (- y)%R; fun x y => x] = Ok b /\ length w = length b /\ vadd w b = v).
Proof.
  destruct sound_samples as (_ & [Gc _] & [Gr _]). destruct (C46_product_exists np_isclose gc gr Gc Gr) as (G & EG). exists G. split; [exact EG|]. split.
  - apply (C45_stokes0_primal np_isclose gc gr G _ _ _ Gc Gr EG C1_xy); intro K; discriminate.
  - apply (C45_stokes1_dual np_isclose gc gr G _ _ _ _ _ _ Gc Gr EG (Logic.proj1 C1_rot) (proj2 C1_rot)); intro K; discriminate.
Qed.
