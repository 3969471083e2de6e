(** The projections and boundary terms of a product grid, entry by entry, and Stokes' theorem along the axes. *)
From Coq Require Import ZArith Reals List Lia Lra Arith Bool.
From Coq Require Import ZifyNat ZifyBool.
From Verif Require Import Model.Sym.
From Coquelicot Require Import Coquelicot.
From Verif Require Import Model.Num Model.Np Model.Spectral Model.Basis Model.Grids1 Model.Regular Model.Chebyshev Model.Common Model.Decform Model.Grid2 Spec.Tiling Spec.Plane
  Proofs.ListLemmas Proofs.RIntLemmas Proofs.RingSums Proofs.Grids1P Proofs.GridsThm Proofs.Lin Proofs.TableLin Proofs.Arr2 Proofs.Grid2P Proofs.Grid2Ops Proofs.Fubini.
Import ListNotations.
Local Open Scope nat_scope.
Ltac Zify.zify_post_hook ::= Z.div_mod_to_equations.

Ltac req := match goal with |- @eq _ ?a ?b => change (@eq R a b) end.
Lemma combine_tab {A B} n (f : nat -> A) (g : nat -> B) : combine (tab n f) (tab n g) = tab n (fun i => (f i, g i)).
Proof. unfold tab. induction (seq 0 n) as [|i l IH]; [reflexivity|]. cbn. now rewrite IH. Qed.
Lemma zipw_fext {A B D} (f g : A -> B -> D) : (forall a b, f a b = g a b) -> forall x y, zipw f x y = zipw g x y.
Proof. intros H x. induction x as [|a x IH]; intros [|b y]; cbn; auto. now rewrite H, IH. Qed.
Lemma map2a_mk2 f r c F G : map2a f (mk2 r c F) (mk2 r c G) = mk2 r c (fun i j => f (F i j) (G i j)).
Proof. unfold map2a, mk2. cbn [nr nc dat]. now rewrite zipw_tab. Qed.
Lemma map3a_mk2 f r c F G K : map3a f (mk2 r c F) (mk2 r c G) (mk2 r c K) = mk2 r c (fun i j => f (F i j) (G i j) (K i j)).
Proof. unfold map3a, mk2. cbn [nr nc dat]. now rewrite combine_tab, zipw_tab. Qed.
Lemma map4a_mk2 f r c F G K L : map4a f (mk2 r c F) (mk2 r c G) (mk2 r c K) (mk2 r c L) = mk2 r c (fun i j => f (F i j) (G i j) (K i j) (L i j)).
Proof. unfold map4a, mk2. cbn [nr nc dat]. now rewrite !combine_tab, zipw_tab. Qed.

(** coordinates of the cells of a 1D grid *)
Definition vt (c : cells1) (t : bool) (j : nat) : R := nth j (v1 c t) 0%R.
Definition el (c : cells1) (t : bool) (j : nat) : R := nth j (fst (e1 c t)) 0%R.
Definition er (c : cells1) (t : bool) (j : nat) : R := nth j (snd (e1 c t)) 0%R.

Section P.
Variables (gx gy : grid1) (sx sy : cells1).
Hypothesis Gx : good gx. Hypothesis Gy : good gy.
Hypothesis Ex : cells_of gx = Ok sx. Hypothesis Ey : cells_of gy = Ok sy.
Let lens g c t : good g -> cells_of g = Ok c -> length (v1 c t) = Nd g 0 t /\ length (fst (e1 c t)) = Nd g 1 t /\ length (snd (e1 c t)) = Nd g 1 t.
Proof. intros Hg Hc. destruct (good_cells g Hg) as (c' & E & H). rewrite Hc in E. injection E as <-. apply H. Qed.

Lemma P0_flat t f : exists o, tget (reshapeU (symprojection (product_cells sx sy))) (0, t) = Ok o /\
  o [f] = Ok (flat (Nd gy 0 t) (Nd gx 0 t) (fun i j => f (vt sx t j) (vt sy t i))).
Proof.
  unfold reshapeU, symprojection. rewrite (tget_map (fun _ e f => bind (e f) (fun b => bind (unshape b) (fun r => Ok (fst r))))), tget_table6 by lia. eexists. split; [reflexivity|]. cbn [one_comp bind].
  destruct (lens gx sx t Gx Ex) as (A & _). destruct (lens gy sy t Gy Ey) as (B & _).
  unfold product_cells, meshgrid. cbn [c0]. rewrite A, B, map2a_mk2. reflexivity.
Qed.
Lemma P1_flat t f g : exists o, tget (reshapeU (symprojection (product_cells sx sy))) (1, t) = Ok o /\
  o [f; g] = Ok (flat (Nd gy 0 t) (Nd gx 1 t) (fun i j => Ix f (el sx t j) (er sx t j) (vt sy t i)) ++
                 flat (Nd gy 1 t) (Nd gx 0 t) (fun i j => Iy g (vt sx t j) (el sy t i) (er sy t i))).
Proof.
  unfold reshapeU, symprojection. rewrite (tget_map (fun _ e f => bind (e f) (fun b => bind (unshape b) (fun r => Ok (fst r))))), tget_table6 by lia. eexists. split; [reflexivity|]. cbn [two_comps bind fst snd].
  destruct (lens gx sx t Gx Ex) as (A & A1 & A2). destruct (lens gy sy t Gy Ey) as (B & B1 & B2).
  unfold product_cells, meshgrid. cbn [c1 fst snd]. rewrite A, A1, A2, B, B1, B2, !map3a_mk2. cbn [bind]. rewrite unshape_mk22. reflexivity.
Qed.
Lemma P2_flat t f : exists o, tget (reshapeU (symprojection (product_cells sx sy))) (2, t) = Ok o /\
  o [f] = Ok (flat (Nd gy 1 t) (Nd gx 1 t) (fun i j => Ixy f (el sx t j) (el sy t i) (er sx t j) (er sy t i))).
Proof.
  unfold reshapeU, symprojection. rewrite (tget_map (fun _ e f => bind (e f) (fun b => bind (unshape b) (fun r => Ok (fst r))))), tget_table6 by lia. eexists. split; [reflexivity|]. cbn [one_comp bind fst snd].
  destruct (lens gx sx t Gx Ex) as (A & A1 & A2). destruct (lens gy sy t Gy Ey) as (B & B1 & B2).
  unfold product_cells, meshgrid. cbn [c2 fst snd]. rewrite A1, A2, B1, B2, !map4a_mk2. cbn [bind]. rewrite unshape_mk2. reflexivity.
Qed.
Lemma Pn_flat d t : d <= 2 -> exists o o', tget (reshapeU (symprojection (product_cells sx sy))) (d, t) = Ok o /\ tget (reshapeU (numprojection (product_cells sx sy))) (d, t) = Ok o' /\
  forall s : list (R -> R -> R), (forall f, In f s -> cont2 f) -> o s = o' s.
Proof.
  intro Hd. unfold reshapeU, symprojection, numprojection. rewrite !(tget_map (fun _ e f => bind (e f) (fun b => bind (unshape b) (fun r => Ok (fst r))))), !tget_table6 by lia.
  eexists _, _. split; [reflexivity|]. split; [reflexivity|]. intros s Hs. destruct d as [|[|[|]]]; [reflexivity|reflexivity| |lia].
  destruct s as [|f [|]]; try reflexivity. cbn [one_comp bind]. destruct (c2 (product_cells sx sy) t) as [[X0 Y0] [X1 Y1]]. cbn [bind].
  assert (map4a (Ixy f) X0 Y0 X1 Y1 = map4a (Iyx f) X0 Y0 X1 Y1) as ->; [|reflexivity]. unfold map4a. f_equal. apply zipw_fext. intros p q. symmetry. apply fubini. apply Hs. now left.
Qed.
Lemma B1_flat f : exists o, tget (reshapeU (symboundary (product_cells sx sy) (lo gx) (hi gx) (lo gy) (hi gy))) (1, false) = Ok o /\
  o [f] = Ok (flat (Nd gy 0 false) (Nd gx 1 false) (fun i j => 0 - when (Reqb (el sx false j) (lo gx)) (f (el sx false j) (vt sy false i)) + when (Reqb (er sx false j) (hi gx)) (f (er sx false j) (vt sy false i)))%R ++
                 flat (Nd gy 1 false) (Nd gx 0 false) (fun i j => 0 - when (Reqb (el sy false i) (lo gy)) (f (vt sx false j) (el sy false i)) + when (Reqb (er sy false i) (hi gy)) (f (vt sx false j) (er sy false i)))%R).
Proof.
  eexists. split; [reflexivity|]. cbn [one_comp bind fst snd].
  destruct (lens gx sx false Gx Ex) as (A & A1 & A2). destruct (lens gy sy false Gy Ey) as (B & B1 & B2).
  unfold product_cells, meshgrid. cbn [c1 fst snd]. rewrite A, A1, A2, B, B1, B2, !map3a_mk2. cbn [bind]. rewrite unshape_mk22. reflexivity.
Qed.
Lemma B2_flat f g : exists o, tget (reshapeU (symboundary (product_cells sx sy) (lo gx) (hi gx) (lo gy) (hi gy))) (2, false) = Ok o /\
  o [f; g] = Ok (flat (Nd gy 1 false) (Nd gx 1 false) (fun i j => let x0 := el sx false j in let x1 := er sx false j in let y0 := el sy false i in let y1 := er sy false i in
        0 + when (Reqb y0 (lo gy)) (Ix f x0 x1 y0) + when (Reqb x1 (hi gx)) (Iy g x1 y0 y1)
          + when (Reqb y1 (hi gy)) (Ix f x1 x0 y1) + when (Reqb x0 (lo gx)) (Iy g x0 y1 y0))%R).
Proof.
  eexists. split; [reflexivity|]. cbn [two_comps bind fst snd].
  destruct (lens gx sx false Gx Ex) as (A & A1 & A2). destruct (lens gy sy false Gy Ey) as (B & B1 & B2).
  unfold product_cells, meshgrid. cbn [c2 fst snd]. rewrite A1, A2, B1, B2, !map4a_mk2. cbn [bind]. rewrite unshape_mk2. reflexivity.
Qed.
End P.

(** ** Stokes along one axis *)
Lemma nth_P1 es (f : R -> R) j : length (fst es) = length (snd es) -> j < length (fst es) -> nth j (Grids1.proj1 es f) 0%R = RInt f (nth j (fst es) 0%R) (nth j (snd es) 0%R).
Proof. intros L Hj. unfold Grids1.proj1. rewrite (nth_zipw _ _ _ _ 0%R 0%R 0%R) by lia. reflexivity. Qed.
Lemma tab_map (f : R -> R) l n : length l = n -> tab n (fun j => f (nth j l 0%R)) = map f l.
Proof.
  intro L. apply list_eq_nth with (d := f 0%R); [now rewrite length_tab, map_length|]. rewrite length_tab. intros i Hi. rewrite nth_tab by auto. symmetry. apply map_nth.
Qed.
Definition smooth1 (f f' : R -> R) : Prop := (forall x, is_derive f x (f' x)) /\ (forall x, continuous f' x).
Lemma stokes1_primal g c f f' j : good g -> cells_of g = Ok c -> smooth1 f f' -> (kd g = Periodic -> f (hi g) = f (lo g)) -> j < Nd g 1 true ->
  nth j (dv g true (tab (Nd g 0 true) (fun j => f (vt c true j)))) 0%R = RInt f' (el c true j) (er c true j).
Proof.
  intros Hg Ec [Hd Hc] Hp Hj. destruct (good_cells g Hg) as (c' & E & L). rewrite Ec in E. injection E as <-. destruct (L true) as (L0 & L1 & L2). cbn [v1 e1] in *.
  unfold vt. rewrite (tab_map f) by auto. unfold dv. cbn [v1]. cbv beta iota. change (map f (verts c)) with (P0 c f).
  assert (grid_D0 (kd g) (P0 c f) = P1 c f') as ->.
  { apply (stokes_primal (kd g) (sz g) (lo g) (hi g) c f f'); auto; [now apply big_min; apply Hg|now apply Hg]. }
  unfold P1, el, er. cbn [e1]. apply nth_P1; lia.
Qed.
Lemma when_Reqb_neq x y v : x <> y -> when (Reqb x y) v = 0%R.
Proof. intro H. unfold Reqb. destruct (Req_EM_T x y); [contradiction|reflexivity]. Qed.
Lemma when_Reqb_eq x y v : x = y -> when (Reqb x y) v = v.
Proof. intro H. unfold Reqb. destruct (Req_EM_T x y); [reflexivity|contradiction]. Qed.
(** the masks select the two ends of a non-periodic grid, and nothing on a periodic one *)
Lemma mask_interval g c j : good g -> cells_of g = Ok c -> kd g <> Periodic -> j < Nd g 1 false ->
  (el c false j = lo g <-> j = 0) /\ (er c false j = hi g <-> j = Nd g 1 false - 1).
Proof.
  intros [Hb Hl] Ec Hk Hj. assert (2 <= sz g) as Hn by (destruct (kd g); cbn in Hb; congruence || lia).
  destruct (interval_cells_tab (kd g) (sz g) (lo g) (hi g) Hk Hn Hl) as (v & m & c' & E & V0 & Vn & Hm & Ec'). unfold cells_of in Ec. rewrite Ec in E. injection E as <-. cbv zeta in Ec'.
  assert (Nd g 1 false = sz g) as EN by (unfold Nd; destruct (kd g); [congruence|reflexivity|reflexivity]). rewrite EN in *.
  assert (forall j, (j < sz g)%nat -> (lo g <= v j <= hi g)%R) as Bv by (apply (mono_in (sz g) v (lo g) (hi g) V0 Vn); intros i Hi; pose proof (Hm i Hi); lra).
  subst c. unfold el, er. cbn [e1 edges_dual fst snd]. rewrite !nth_tab by auto. split; split.
  - destruct (Nat.eqb_spec j 0); [auto|]. destruct (Nat.eqb_spec j (sz g)); [lia|]. intro Q. exfalso. pose proof (Hm (j - 1) ltac:(lia)). pose proof (Bv (j - 1) ltac:(lia)). lra.
  - intros ->. reflexivity.
  - destruct (Nat.eqb_spec (S j) 0); [lia|]. destruct (Nat.eqb_spec (S j) (sz g)); [lia|]. intro Q. exfalso. pose proof (Hm (S j - 1) ltac:(lia)). pose proof (Bv (S (S j - 1)) ltac:(lia)). lra.
  - intros ->. destruct (Nat.eqb_spec (S (sz g - 1)) 0); [lia|]. destruct (Nat.eqb_spec (S (sz g - 1)) (sz g)); [reflexivity|lia].
Qed.
Lemma mask_periodic g c j : good g -> cells_of g = Ok c -> kd g = Periodic -> j < Nd g 1 false -> el c false j <> lo g /\ er c false j <> hi g.
Proof.
  intros [Hb Hl] Ec Hk Hj. unfold cells_of in Ec. unfold Nd in Hj. rewrite Hk in *. cbn [big_enough make_cells] in *. change (grid_N Periodic (sz g) 1 false) with (sz g) in Hj.
  destruct (sz g) as [|n] eqn:En; [lia|]. injection Ec as <-. rewrite periodic_cells_tab by (lra || lia). cbv zeta. unfold el, er. cbn [e1 edges_dual fst snd].
  rewrite !nth_tab by auto.
  assert (0 < (hi g - lo g) / INR (S n))%R as Hh by (apply Rdiv_lt_0_compat; [lra|apply lt_0_INR; lia]).
  pose proof (pp_step (S n) (lo g) (hi g) j) as St. pose proof (pp_0 (S n) (lo g) (hi g)) as Z0. pose proof (pp_n (S n) (lo g) (hi g) ltac:(lia)) as Zn.
  split.
  - intro Q. destruct j as [|j]; [lra|]. pose proof (pp_step (S n) (lo g) (hi g) j) as St'.
    assert (lo g <= pp (S n) (lo g) (hi g) j)%R; [|lra]. clear - Hh Z0. induction j as [|j IH]; [lra|]. pose proof (pp_step (S n) (lo g) (hi g) j). lra.
  - intro Q. assert (forall k, k <= S n -> (pp (S n) (lo g) (hi g) (S n - k) <= hi g)%R) as Up.
    { intros k. induction k as [|k IH]; intro Hk'; [rewrite Nat.sub_0_r; lra|]. specialize (IH ltac:(lia)). pose proof (pp_step (S n) (lo g) (hi g) (S n - S k)) as Sk. replace (S (S n - S k)) with (S n - k) in Sk by lia. lra. }
    specialize (Up (S n - S j) ltac:(lia)). replace (S n - (S n - S j)) with (S j) in Up by lia. lra.
Qed.
Lemma stokes1_dual g c f f' j : good g -> cells_of g = Ok c -> smooth1 f f' -> (kd g = Periodic -> forall x, f (x + (hi g - lo g)) = f x)%R -> j < Nd g 1 false ->
  (nth j (dv g false (tab (Nd g 0 false) (fun j => f (vt c false j)))) 0 + (0 - when (Reqb (el c false j) (lo g)) (f (el c false j)) + when (Reqb (er c false j) (hi g)) (f (er c false j))) = RInt f' (el c false j) (er c false j))%R.
Proof.
  intros Hg Ec [Hd Hc] Hp Hj. destruct (good_cells g Hg) as (c' & E & L). rewrite Ec in E. injection E as <-. destruct (L false) as (L0 & L1 & L2). cbn [v1 e1] in *.
  unfold vt. rewrite (tab_map f) by auto. unfold dv. cbn [v1]. cbv beta iota. change (map f (verts_dual c)) with (P0d c f).
  assert (kd g = Periodic \/ kd g <> Periodic) as [Hk|Hk] by (destruct (kd g); auto; right; discriminate).
  - destruct (mask_periodic g c j Hg Ec Hk Hj) as [M1 M2]. rewrite !when_Reqb_neq by auto.
    assert (1 <= sz g) as Hn by (destruct Hg as [Hb _]; rewrite Hk in Hb; exact Hb).
    unfold cells_of in Ec. rewrite Hk in Ec |- *.
    assert (grid_D0d Periodic (P0d c f) = P1d c f') as -> by (apply (stokes_dual_periodic (sz g) (lo g) (hi g) c f f'); auto; now apply Hg). unfold P1d, el, er. cbn [e1]. rewrite nth_P1 by lia. req; ring.
  - destruct (mask_interval g c j Hg Ec Hk Hj) as [M1 M2].
    assert (2 <= sz g) as Hn by (destruct Hg as [Hb _]; destruct (kd g); cbn in Hb; congruence || lia).
    assert (Nd g 1 false = sz g) as EN by (unfold Nd; destruct (kd g); [congruence|reflexivity|reflexivity]).
    destruct (stokes_dual_interval (kd g) (sz g) (lo g) (hi g) c f f') as (bc & Eb & Es); auto; [now apply Hg|].
    assert (RInt f' (el c false j) (er c false j) = nth j (P1d c f') 0%R) as -> by (unfold P1d, el, er; cbn [e1]; rewrite nth_P1 by lia; reflexivity).
    assert (vadd (grid_D0d (kd g) (P0d c f)) bc = P1d c f') as Es' by exact Es. rewrite <- Es'.
    assert (length bc = sz g) as Lb. { destruct (sz g) as [|[|n]]; [lia|lia|]. cbn in Eb. injection Eb as <-. cbn. rewrite app_length. unfold zeros. rewrite repeat_length. cbn. lia. }
    assert (length (grid_D0d (kd g) (P0d c f)) = sz g) as LD.
    { rewrite <- EN. apply (lin_len (Nd g 0 false) (Nd g 1 false) (dv g false)); [now apply lin_dv|]. unfold P0d, proj0. rewrite map_length. exact L0. }
    unfold vadd. rewrite (nth_zipw _ _ _ _ 0%R 0%R 0%R) by lia. change nadd with Rplus. f_equal.
    rewrite EN in *. destruct (sz g) as [|[|n]]; [lia|lia|]. cbn [boundary_condition] in Eb. injection Eb as <-.
    destruct (Nat.eq_dec j 0) as [->|J0].
    + rewrite (when_Reqb_eq (el c false 0)) by now apply M1. rewrite when_Reqb_neq by (rewrite M2; lia). cbn. replace (el c false 0) with (lo g) by (symmetry; now apply M1). ring.
    + rewrite (when_Reqb_neq (el c false j)) by (rewrite M1; lia). destruct j as [|j]; [lia|]. cbn [app nth]. destruct (Nat.eq_dec j n) as [->|Jn].
      * rewrite when_Reqb_eq by (apply M2; lia). rewrite app_nth2 by (unfold zeros; rewrite repeat_length; lia). unfold zeros. rewrite repeat_length, Nat.sub_diag. cbn [nth].
        replace (er c false (S n)) with (hi g) by (symmetry; apply M2; lia). ring.
      * rewrite when_Reqb_neq by (rewrite M2; lia). rewrite app_nth1 by (unfold zeros; rewrite repeat_length; lia). unfold zeros. rewrite nth_repeat. change nzero with 0%R. ring.
Qed.
Lemma zipw_app {A B D} (f : A -> B -> D) x x' y y' : length x = length x' -> zipw f (x ++ y) (x' ++ y') = zipw f x x' ++ zipw f y y'.
Proof. revert x'. induction x as [|a x IH]; intros [|b x'] L; cbn in *; try lia; [reflexivity|]. now rewrite IH by lia. Qed.
