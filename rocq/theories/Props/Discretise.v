(** C76-C77: discretising symbolic forms, form.P(grid, isprimal). *)
From Coq Require Import ZArith Reals List Lia Lra Arith Bool FunctionalExtensionality.
From Coq Require Import ZifyNat.
From Verif Require Import Model.Sym.
From Coquelicot Require Import Coquelicot.
From Verif Require Import Model.Num Model.Np Model.Basis Model.Grids1 Model.Common Model.Decform Model.Grid2 Model.Discretise Spec.Ext Spec.Sympy Spec.Tiling Spec.Plane Spec.Resolved Spec.Poly
  Proofs.ListLemmas Proofs.RIntLemmas Proofs.GridsThm Proofs.Grid2P Proofs.Stokes2 Props.Symbolic Props.Refinement Props.Grid2 Props.Basis2 Props.Exact1 Props.Stokes2 Proofs.DiscretiseP.
Import ListNotations.
Local Open Scope R_scope.
Notation expr := Model.Sym.expr.
Notation Cst := Model.Sym.Cst.

Lemma edges_len g c t : good g -> cells_of g = Ok c -> length (fst (e1 c t)) = length (snd (e1 c t)).
Proof.
  intros [Hb Hl] E. unfold cells_of in E. destruct g as [k n l h]. cbn [kd sz lo hi] in *. pose proof (big_min _ _ Hb) as Hn. destruct t; cbn [e1].
  - destruct (cells_primal k n l h Hn Hl) as (c' & E' & (L & _) & _). rewrite E in E'. now injection E' as <-.
  - destruct k.
    + destruct (cells_dual_periodic n l h Hn Hl) as (c' & E' & (L & _) & _). rewrite E in E'. now injection E' as <-.
    + destruct (cells_dual_interval Regular n l h ltac:(discriminate) Hn Hl) as (c' & E' & (L & _) & _). rewrite E in E'. now injection E' as <-.
    + destruct (cells_dual_interval Chebyshev n l h ltac:(discriminate) Hn Hl) as (c' & E' & (L & _) & _). rewrite E in E'. now injection E' as <-.
Qed.
Lemma cells_in g c t a b : good g -> cells_of g = Ok c -> (t = true \/ kd g <> Periodic) -> In (a, b) (combine (fst (e1 c t)) (snd (e1 c t))) -> lo g <= a /\ a < b /\ b <= hi g.
Proof.
  intros [Hb Hl] E Ht. unfold cells_of in E. destruct g as [k n l h]. cbn [kd sz lo hi] in *. pose proof (big_min _ _ Hb) as Hn. destruct t; cbn [e1].
  - destruct (cells_primal k n l h Hn Hl) as (c' & E' & T & _). rewrite E in E'. injection E' as <-. now apply tiles_range.
  - destruct Ht as [Ht|Ht]; [discriminate|]. assert (2 <= n)%nat as Hn' by (destruct k; cbn in Hn; [congruence|lia|lia]).
    destruct (cells_dual_interval k n l h Ht Hn' Hl) as (c' & E' & T & _). rewrite E in E'. injection E' as <-. now apply tiles_range.
Qed.

(** The form form(d, Chart(x), (e,)) *)
Definition form1 (id x d : nat) (e : expr) : sform := MkSform d (MkChart id [x]) [e].
(** The values sympy can discretise: e mentions no symbol but the coordinate, and, for 1-forms, sympy finds the
    closed form of the integral and e is continuous on the cells.  The values must not all be the same number:
    see C76_constant_refuted. *)
Definition discretisable (closed : expr -> nat -> nat -> nat -> option expr) (c : cells1) (d : nat) (t : bool) (x : nat) (e : expr) : Prop :=
  only [x] e = true /\ (d = 1%nat -> closed e x (cell x 0) (cell x 1) <> None) /\ continuous_on_cells c d t (fn1 x e) /\ nonconstant d (fn1 x e).

Section Sympy.
Variable auto : expr -> expr.
Variable closed : expr -> nat -> nat -> nat -> option expr.
Variable closed2 : nat -> list expr -> bool.
Hypothesis Sa : sound_auto auto.
Hypothesis Sc : sound_closed closed.

(** C76: f.P(g, isprimal) is the discrete form of the values of f at the vertices (0-forms), or of its integrals over the edges (1-forms) *)
Theorem C76_discretise r g c id x d t e : good g -> cells_of g = Ok c -> (d <= 1)%nat -> discretisable closed c d t x e ->
  exists a, to_discrete1 auto closed (form1 id x d e) r c t = Ok (dform_of a) /\ degree a = d /\ isprimal a = t /\ gref a = r /\
    array a = match d with
      | 0%nat => map (fn1 x e) (v1 c t)
      | _ => map (fun ab => RInt (fn1 x e) (fst ab) (snd ab)) (combine (fst (e1 c t)) (snd (e1 c t)))
      end.
Proof.
  intros Hg Ec Hd (Ho & Hc & Hk & Hn). exists (form r c d t (fn1 x e)). split; [apply discretise1; auto; now apply (edges_len g)|]. repeat split.
  cbn [form array]. rewrite proj_is. destruct d; auto. apply zipw_combine.
Qed.
(** a 1-form whose integral sympy cannot evaluate raises ValueError *)
Theorem C76_unevaluated r c id x t e : closed e x (cell x 0) (cell x 1) = None -> to_discrete1 auto closed (form1 id x 1 e) r c t = Err ValueError.
Proof. intro E. unfold to_discrete1, form1. cbn [sdeg sgrid scomps dimension coords length Nat.eqb integration_1d bind single]. now rewrite E. Qed.
(** a form on a chart of another dimension than the grid raises AssertionError *)
Theorem C76_dimension f r c G t : (dimension (sgrid f) <> 1%nat -> to_discrete1 auto closed f r c t = Err AssertionError) /\
  (dimension (sgrid f) <> 2%nat -> to_discrete2 auto closed2 f r G t = Err AssertionError).
Proof.
  split; intro H; unfold to_discrete1, to_discrete2.
  - destruct (Nat.eqb_spec 1 (dimension (sgrid f))); congruence.
  - destruct (Nat.eqb_spec 2 (dimension (sgrid f))); congruence.
Qed.
(** a 0-form whose value depends on a symbol that is not the coordinate x raises NameError (if e does not mention the name x0 of the cells) *)
Theorem C76_stray_symbol r c id x t e v : undefined e = false -> v <> x -> ~ In (cell x 0) (free e) -> (exists q s, eval (upd q v s) e <> eval q e) ->
  to_discrete1 auto closed (form1 id x 0 e) r c t = Err NameError.
Proof.
  intros U Hx H0 (q & s & Hne). unfold to_discrete1, form1, cell_coords. cbn [sdeg sgrid scomps dimension coords length Nat.eqb integration_1d bind single Nat.leb]. change (enumerate_coords [x] 0) with [cell x 0].
  unfold lambdify. destruct (only [cell x 0] (auto (subs x (cell x 0) e))) eqn:Ho; auto. exfalso. apply Hne. apply only_spec in Ho as [U' F].
  assert (forall p, eval p e = eval (upd p (cell x 0) (sval p x)) (auto (subs x (cell x 0) e))) as V.
  { intros p. destruct (Sa (subs x (cell x 0) e)) as (-> & _). rewrite eval_subs by auto. apply eval_agree; auto. intros u Hu. cbn [upd sval]. rewrite Nat.eqb_refl. destruct (Nat.eqb_spec u x); [now subst|]. destruct (Nat.eqb_spec u (cell x 0)); [subst; now destruct H0|reflexivity]. }
  rewrite (V (upd q v s)), (V q). apply eval_agree; auto. intros u Hu. apply F in Hu. destruct Hu as [<-|[]]. cbn [upd sval]. rewrite !Nat.eqb_refl. destruct (Nat.eqb_spec x v); congruence.
Qed.
(** A 0-form with a constant component is not discretised to an array: the number itself is stored, whatever the grid. *)
Theorem C76_constant r c id x t k : to_discrete1 auto closed (form1 id x 0 (Cst k)) r c t = Ok (MkDform 0 t r (Scal k)).
Proof.
  unfold to_discrete1, form1, cell_coords. cbn [sdeg sgrid scomps dimension coords length Nat.eqb integration_1d bind single Nat.leb subs]. change (enumerate_coords [x] 0) with [cell x 0].
  destruct (Sa (Cst k)) as (V & F & U). unfold lambdify.
  assert (free (auto (Cst k)) = []) as Ef by (destruct (free (auto (Cst k))) as [|v l]; auto; destruct (F v (or_introl eq_refl))).
  assert (undefined (auto (Cst k)) = false) as Eu by (destruct (undefined (auto (Cst k))); auto; now specialize (U eq_refl)).
  replace (only [cell x 0] (auto (Cst k))) with true by (symmetry; apply only_spec; rewrite Ef; split; auto; intros v []).
  rewrite Ef. cbn [bind]. now rewrite V.
Qed.
(** so the claim that every 0-form on the coordinate is discretised to an array fails *)
Theorem C76_constant_refuted : ~ forall r c id x t e, only [x] e = true -> exists a, to_discrete1 auto closed (form1 id x 0 e) r c t = Ok (dform_of a).
Proof. intro H. destruct (H 0%nat (periodic_default 3) 0%nat 0%nat true (Cst 1) eq_refl) as (a & E). rewrite C76_constant in E. discriminate E. Qed.

(** *** two dimensions *)
Lemma component_ok e : only [0; 1]%nat e = true -> component auto e = Ok (fn2 e).
Proof.
  intro Ho. unfold component. cbv zeta. pose proof (only_auto auto Sa _ _ Ho) as Ho'. rewrite Ho'. f_equal. extensionality x. extensionality y. apply (Sa e).
Qed.
Lemma all_ok_comps l : (forall e, In e l -> only [0; 1]%nat e = true) -> all_ok (component auto) l = Ok (map fn2 l).
Proof. induction l as [|e l IH]; intro H; cbn; auto. rewrite component_ok by (apply H; now left). cbn. rewrite IH by (intros; apply H; now right). reflexivity. Qed.

Lemma app_nth2_plus' (u v : list R) n k d : length u = n -> nth (n + k) (u ++ v) d = nth k v d.
Proof. intros <-. apply app_nth2_plus. Qed.
(** C76 in two dimensions: the components are functions of the symbols x and y (0 and 1), and the discrete form holds
    the values at the vertices, the integrals of the two components along the edges, or the integrals over the rectangles,
    row by row (y outside, x inside), the edges in direction x before those in direction y. *)
Theorem C76_discretise_plane close gx gy G r id cs d t comps : good gx -> good gy -> product close gx gy = Ok G ->
  valid (MkSform d (MkChart id cs) comps) -> length cs = 2%nat -> (forall e, In e comps -> only [0; 1]%nat e = true) -> closed2 d comps = true ->
  exists sx sy a, cells_of gx = Ok sx /\ cells_of gy = Ok sy /\
    let nx k := length (match k with 0%nat => v1 sx t | _ => fst (e1 sx t) end) in
    let ny k := length (match k with 0%nat => v1 sy t | _ => fst (e1 sy t) end) in
    let X j := nth j (v1 sx t) 0 in let X0 j := nth j (fst (e1 sx t)) 0 in let X1 j := nth j (snd (e1 sx t)) 0 in
    let Y i := nth i (v1 sy t) 0 in let Y0 i := nth i (fst (e1 sy t)) 0 in let Y1 i := nth i (snd (e1 sy t)) 0 in
    let f k := fn2 (nth k comps (Cst 0)) in
    to_discrete2 auto closed2 (MkSform d (MkChart id cs) comps) r G t = Ok a /\ degree a = d /\ isprimal a = t /\ gref a = r /\
    match d with
    | 0%nat => length (array a) = (ny 0 * nx 0)%nat /\
        forall i j, (i < ny 0)%nat -> (j < nx 0)%nat -> nth (i * nx 0%nat + j) (array a) 0 = f 0%nat (X j) (Y i)
    | 1%nat => length (array a) = (ny 0 * nx 1 + ny 1 * nx 0)%nat /\
        (forall i j, (i < ny 0)%nat -> (j < nx 1)%nat -> nth (i * nx 1%nat + j) (array a) 0 = RInt (fun x => f 0%nat x (Y i)) (X0 j) (X1 j)) /\
        (forall i j, (i < ny 1)%nat -> (j < nx 0)%nat -> nth (ny 0%nat * nx 1%nat + (i * nx 0%nat + j)) (array a) 0 = RInt (fun y => f 1%nat (X j) y) (Y0 i) (Y1 i))
    | _ => length (array a) = (ny 1 * nx 1)%nat /\
        forall i j, (i < ny 1)%nat -> (j < nx 1)%nat -> nth (i * nx 1%nat + j) (array a) 0 = RInt (fun x => RInt (fun y => f 0%nat x y) (Y0 i) (Y1 i)) (X0 j) (X1 j)
    end.
Proof.
  intros Gx Gy EG Hv Lc Ho Hc. destruct (product_ok close gx gy Gx Gy) as (sx & sy & G' & Ex & Ey & E & _ & _ & _ & HP & _). rewrite EG in E. injection E as <-.
  destruct (good_cells gx Gx) as (sx' & Ex' & Lx). rewrite Ex in Ex'. injection Ex' as <-. destruct (good_cells gy Gy) as (sy' & Ey' & Ly). rewrite Ey in Ey'. injection Ey' as <-.
  destruct (Lx t) as (Lx0 & Lx1 & _). destruct (Ly t) as (Ly0 & Ly1 & _).
  exists sx, sy. unfold to_discrete2, grid_P. cbn [sgrid sdeg scomps dimension coords]. unfold dimension. cbn [coords]. rewrite Lc, Hc. cbn [Nat.eqb]. rewrite all_ok_comps by auto. cbn [bind]. rewrite HP.
  pose proof (valid_cases _ Hv) as Hcase. destruct Hcase as [(?&?&?&Q)|[(?&?&?&Q)|[(?&?&?&e&Q)|[(?&?&?&e&e'&Q)|(?&?&?&e&Q)]]]]; injection Q as -> _ -> ->; try discriminate Lc; clear Hv; cbn [map nth].
  - destruct (P0_flat gx gy sx sy Gx Gy Ex Ey t (fn2 e)) as (o & Eo & Ho'). rewrite Eo. cbn [bind]. rewrite Ho'. cbn [bind]. eexists. split; [exact Ex|]. split; [exact Ey|]. cbv zeta. split; [reflexivity|]. cbn [degree isprimal gref array]. repeat (split; [reflexivity|]).
    rewrite Lx0, Ly0, length_flat. split; [reflexivity|]. intros i j Hi Hj. now rewrite nth_flat.
  - destruct (P1_flat gx gy sx sy Gx Gy Ex Ey t (fn2 e) (fn2 e')) as (o & Eo & Ho'). rewrite Eo. cbn [bind]. rewrite Ho'. cbn [bind]. eexists. split; [exact Ex|]. split; [exact Ey|]. cbv zeta. split; [reflexivity|]. cbn [degree isprimal gref array]. repeat (split; [reflexivity|]).
    rewrite Lx0, Ly0, Lx1, Ly1, app_length, !length_flat. split; [reflexivity|]. split; intros i j Hi Hj.
    + rewrite app_nth1 by (rewrite length_flat; nia). now rewrite nth_flat.
    + rewrite app_nth2_plus' by apply length_flat. now rewrite nth_flat.
  - destruct (P2_flat gx gy sx sy Gx Gy Ex Ey t (fn2 e)) as (o & Eo & Ho'). rewrite Eo. cbn [bind]. rewrite Ho'. cbn [bind]. eexists. split; [exact Ex|]. split; [exact Ey|]. cbv zeta. split; [reflexivity|]. cbn [degree isprimal gref array]. repeat (split; [reflexivity|]).
    rewrite Lx1, Ly1, length_flat. split; [reflexivity|]. intros i j Hi Hj. now rewrite nth_flat.
Qed.
End Sympy.
