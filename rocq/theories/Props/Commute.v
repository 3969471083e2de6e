(** C77: discretisation commutes with the operators: applying D, H, W or C to symbolic forms and discretising the result
    gives what the discrete operators make of the discretised forms. *)
From Coq Require Import ZArith Reals List Lia Lra Arith Bool FunctionalExtensionality.
From Coq Require Import ZifyNat.
From Verif Require Import Model.Sym.
From Coquelicot Require Import Coquelicot.
From Verif Require Import Model.Num Model.Np Model.Basis Model.Grids1 Model.Common Model.Decform Model.Grid2 Model.Discretise Spec.Ext Spec.Sympy Spec.Tiling Spec.Plane Spec.Resolved Spec.Poly
  Proofs.ListLemmas Proofs.RIntLemmas Proofs.Lin Proofs.TableLin Proofs.GridsThm Proofs.Grid2P Proofs.Grid2Ops Proofs.Stokes2 Props.Symbolic Props.Refinement Props.Grid2 Props.Basis2 Props.Exact1 Props.Stokes2 Proofs.DiscretiseP Props.Discretise.
Import ListNotations.
Local Open Scope R_scope.
Notation expr := Model.Sym.expr.
Notation Cst := Model.Sym.Cst.

(** what the theorems assume about a component on the interval of a grid: it mentions only the coordinate, divides by no zero and
    takes roots of positive numbers *)
Definition smooth_on (x : nat) (e : expr) (a b : R) : Prop := only [x] e = true /\ forall s, a <= s <= b -> defined1 x e s.
Definition smooth_everywhere (x : nat) (e : expr) : Prop := only [x] e = true /\ forall s, defined1 x e s.

Section Commute.
Variable auto : expr -> expr.
Variable closed : expr -> nat -> nat -> nat -> option expr.
Variable closed2 : nat -> list expr -> bool.
Hypothesis Sa : sound_auto auto.
Hypothesis Sc : sound_closed closed.
Variable close : C -> C -> bool.
Variable heap : nat -> grid (list R).

(** the symbolic form f is discretised to the discrete form a *)
Definition discretises (f : sform) (r : nat) (c : cells1) (t : bool) (a : decform) : Prop := to_discrete1 auto closed f r c t = Ok (dform_of a).
(** sympy finds the integral of e over an edge, which is not always zero *)
Definition integrable (x : nat) (e : expr) : Prop := closed e x (cell x 0) (cell x 1) <> None /\ nonconstant 1 (fn1 x e).
Definition varies (x : nat) (e : expr) : Prop := nonconstant 0 (fn1 x e).

Lemma disc r g c id x d t e : good g -> cells_of g = Ok c -> (d <= 1)%nat -> discretisable closed c d t x e -> discretises (form1 id x d e) r c t (form r c d t (fn1 x e)).
Proof. intros Hg Ec Hd (Ho & Hc & Hk & Hn). apply discretise1; auto. now apply (edges_len g). Qed.
Lemma cont_cells_in g c t x e : good g -> cells_of g = Ok c -> (t = true \/ kd g <> Periodic) -> smooth_on x e (lo g) (hi g) -> continuous_on_cells c 1 t (fn1 x e).
Proof.
  intros Hg Ec Ht [Ho Hs] a b s Hin Hr. destruct (cells_in g c t a b Hg Ec Ht Hin) as (A & B & D'). apply fn1_cont; auto. apply Hs. rewrite Rmin_left, Rmax_right in Hr by lra. lra.
Qed.
Lemma cont_cells_all c t x e : smooth_everywhere x e -> continuous_on_cells c 1 t (fn1 x e).
Proof. intros [Ho Hs] a b s _ _. now apply fn1_cont. Qed.
Lemma sD_form1 id x e : Sym.D (SForm (form1 id x 0 e)) = Ok (SForm (form1 id x 1 (sdiff e x))).
Proof. reflexivity. Qed.
Lemma smooth_on_sdiff x e a b : smooth_on x e a b -> smooth_on x (sdiff e x) a b.
Proof. intros [Ho H]. split; [now apply only_sdiff|]. intros s Hs. now apply defined1_sdiff, H. Qed.

(** C77, exterior derivative: on primal forms *)
Theorem C77_derivative_primal r g c id x e : refers close heap r g c -> good g -> smooth_on x e (lo g) (hi g) -> (kd g = Periodic -> fn1 x e (hi g) = fn1 x e (lo g)) ->
  varies x e -> integrable x (sdiff e x) ->
  exists df a b, Sym.D (SForm (form1 id x 0 e)) = Ok (SForm df) /\ discretises (form1 id x 0 e) r c true a /\ discretises df r c true b /\ form_D heap a = Ok (ZForm b).
Proof.
  intros Hr Hg Hs Hp Hv [Hi Hn]. destruct Hr as [Hh Ec]. pose proof (smooth_on_sdiff _ _ _ _ Hs) as Hs'.
  eexists _, _, _. split; [apply sD_form1|]. split; [apply (disc r g); auto; split; [apply Hs|]; repeat split; auto; discriminate|].
  split; [apply (disc r g); auto; split; [apply Hs'|]; repeat split; auto; apply (cont_cells_in g); auto|].
  destruct Hg as [Hb Hl]. apply (C74_derivative_primal close heap r g c); auto; [now split|now apply big_min| |].
  - intros s Hx. apply fn1_derive; [apply Hs|now apply Hs].
  - intros s Hx. apply fn1_cont; [apply Hs'|now apply Hs'].
Qed.
(** on dual forms of periodic grids *)
Theorem C77_derivative_dual_periodic r g c id x e : refers close heap r g c -> good g -> kd g = Periodic -> smooth_everywhere x e -> (forall s, fn1 x e (s + (hi g - lo g)) = fn1 x e s) ->
  varies x e -> integrable x (sdiff e x) ->
  exists df a b, Sym.D (SForm (form1 id x 0 e)) = Ok (SForm df) /\ discretises (form1 id x 0 e) r c false a /\ discretises df r c false b /\ form_D heap a = Ok (ZForm b).
Proof.
  intros Hr Hg Hk [Ho Hs] Hp Hv [Hi Hn]. destruct Hr as [Hh Ec]. pose proof (only_sdiff _ _ x Ho) as Ho'.
  eexists _, _, _. split; [apply sD_form1|]. split; [apply (disc r g); auto; repeat split; auto; discriminate|].
  split; [apply (disc r g); auto; repeat split; auto; apply cont_cells_all; split; auto; intro; now apply defined1_sdiff|].
  destruct Hg as [Hb Hl]. apply (C74_derivative_dual_periodic close heap r g c); auto; [now split|rewrite Hk in Hb; exact Hb| |].
  - intros s. now apply fn1_derive.
  - intros s. apply fn1_cont; auto. now apply defined1_sdiff.
Qed.
(** on dual forms of regular and Chebyshev grids, the boundary values supplied by g.boundary_condition *)
Theorem C77_derivative_dual_interval r g c id x e : refers close heap r g c -> good g -> kd g <> Periodic -> smooth_on x e (lo g) (hi g) ->
  varies x e -> integrable x (sdiff e x) ->
  exists df a b z bc, Sym.D (SForm (form1 id x 0 e)) = Ok (SForm df) /\ discretises (form1 id x 0 e) r c false a /\ discretises df r c false b /\
    form_D heap a = Ok (ZForm z) /\ boundary_condition (sz g) (lo g) (hi g) (fn1 x e) = Ok bc /\ binary Badd z (OArr bc) = Ok b.
Proof.
  intros Hr Hg Hk Hs Hv [Hi Hn]. destruct Hr as [Hh Ec]. pose proof (smooth_on_sdiff _ _ _ _ Hs) as Hs'. assert (2 <= sz g)%nat as H2 by (destruct Hg as [Hb _]; destruct (kd g); [congruence|exact Hb|exact Hb]).
  destruct (C74_derivative_dual_interval close heap r g c (fn1 x e) (fn1 x (sdiff e x))) as (z & bc & E1 & E2 & E3); auto; [now split|apply Hg| | |].
  - intros s Hx. apply fn1_derive; [apply Hs|now apply Hs].
  - intros s Hx. apply fn1_cont; [apply Hs'|now apply Hs'].
  - eexists _, _, _, z, bc. split; [apply sD_form1|]. split; [apply (disc r g); auto; split; [apply Hs|]; repeat split; auto; discriminate|].
    split; [apply (disc r g); auto; split; [apply Hs'|]; repeat split; auto; apply (cont_cells_in g); auto|]. auto.
Qed.
(** the Hodge star, on the functions the grid resolves *)
Lemma default_good g : default_extent g -> big_enough (kd g) (sz g) -> good g.
Proof. intros He Hb. split; auto. pose proof PI_RGT_0. unfold default_extent in He. destruct (kd g); destruct He as [-> ->]; lra. Qed.
Theorem C77_hodge r g c id x d t e : refers close heap r g c -> default_extent g -> works close (kd g) (sz g) -> (d <= 1)%nat -> resolved (kd g) (sz g) d t (fn1 x e) ->
  smooth_everywhere x e -> varies x e -> integrable x e ->
  exists h a b, Sym.H (SForm (form1 id x d e)) = Ok (SForm h) /\ discretises (form1 id x d e) r c t a /\ discretises h r c (negb t) b /\ form_H heap a = Ok b.
Proof.
  intros Hr He Hw Hd Hres Hs Hv [Hi Hn]. pose proof (default_good g He (Logic.proj1 (works_ok _ _ _ Hw))) as Hg.
  assert (forall d' t', (d' <= 1)%nat -> discretisable closed c d' t' x e) as Hall.
  { intros d' t' Hd'. split; [apply Hs|]. destruct d' as [|[|d']]; [| |lia]; (split; [easy|split; [|assumption]]); [exact I|now apply cont_cells_all]. }
  exists (form1 id x (1 - d) e). eexists _, _. split; [destruct d as [|[|d]]; [| |lia]; reflexivity|]. split; [apply (disc r g); auto; apply Hr|]. split; [apply (disc r g); auto; [apply Hr|lia|apply Hall; lia]|].
  now apply (C71_hodge_exact close heap r g c).
Qed.
(** the wedge product of forms whose product the grid resolves too *)
Lemma mul_fn1 x a b : fn1 x (Mul a b) = (fun s => fn1 x a s * fn1 x b s). Proof. reflexivity. Qed.
Lemma only_mul args a b : only args a = true -> only args b = true -> only args (Mul a b) = true.
Proof. rewrite !only_spec. cbn [undefined free]. intros [U F] [U' F']. rewrite U, U'. split; auto. intros v Hv. apply in_app_or in Hv. destruct Hv; auto. Qed.
Lemma smooth_mul x a b : smooth_everywhere x a -> smooth_everywhere x b -> smooth_everywhere x (Mul a b).
Proof. intros [O1 S1] [O2 S2]. split; [now apply only_mul|]. intro s. split; [apply S1|apply S2]. Qed.
Definition ready (d x : nat) (e : expr) : Prop := smooth_everywhere x e /\ match d with 0%nat => varies x e | _ => integrable x e end.
Lemma ready_disc c d t x e : (d <= 1)%nat -> ready d x e -> discretisable closed c d t x e.
Proof.
  intros Hd [Hs H']. split; [apply Hs|]. destruct d as [|[|d]]; [| |lia]; cbn in H'.
  - split; [easy|]. split; [exact I|exact H'].
  - destruct H' as [Hi Hn]. split; [easy|]. split; [now apply cont_cells_all|exact Hn].
Qed.
Theorem C77_wedge r g c id x t d0 t0 e0 d1 t1 e1 : refers close heap r g c -> default_extent g -> usable close (kd g) (sz g) -> (d0 + d1 <= 1)%nat ->
  resolved (kd g) (sz g) d0 t0 (fn1 x e0) -> resolved (kd g) (sz g) d1 t1 (fn1 x e1) ->
  (kd g = Chebyshev -> (d0 + d1 = 1)%nat -> polynomial (2 * sz g - 3) (fun s => fn1 x e0 s * fn1 x e1 s)) ->
  ready d0 x e0 -> ready d1 x e1 ->
  exists w e, Sym.W (SForm (form1 id x d0 e0)) (SForm (form1 id x d1 e1)) = Ok (SForm w) /\ scomps w = [e] /\ (ready (d0 + d1) x e ->
  exists a b p, discretises (form1 id x d0 e0) r c t0 a /\ discretises (form1 id x d1 e1) r c t1 b /\ discretises w r c t p /\ form_W heap t a b = Ok p).
Proof.
  intros Hr He Hu Hd H0 H1 Hp R0 R1. pose proof (usable_ok _ _ _ Hu) as (Hb & _ & _). pose proof (default_good g He Hb) as Hg.
  assert (exists e, Sym.W (SForm (form1 id x d0 e0)) (SForm (form1 id x d1 e1)) = Ok (SForm (form1 id x (d0 + d1) e)) /\ fn1 x e = (fun s => fn1 x e0 s * fn1 x e1 s)) as (e & Ew & Ef).
  { destruct d0 as [|[|d0]]; destruct d1 as [|[|d1]]; try lia; (eexists; split; [cbn [Sym.W]; unfold sW; cbn [form1 sgrid]; rewrite chart_eqb_refl; reflexivity|]); auto. extensionality s. unfold fn1. cbn [eval]. apply Rmult_comm. }
  exists (form1 id x (d0 + d1) e), e. split; [exact Ew|]. split; [reflexivity|]. intro Re. eexists _, _, _.
  split; [apply (disc r g); auto; [apply Hr|lia|apply ready_disc; auto; lia]|]. split; [apply (disc r g); auto; [apply Hr|lia|apply ready_disc; auto; lia]|]. split; [apply (disc r g); auto; [apply Hr|apply ready_disc; auto]|].
  rewrite Ef. now apply (C73_wedge_exact close heap r g c).
Qed.
(** the contraction of a 1-form with a 1-form *)
Theorem C77_contraction r g c id x t t0 X t1 u : refers close heap r g c -> default_extent g -> usable close (kd g) (sz g) ->
  resolved (kd g) (sz g) 1 t0 (fn1 x X) -> resolved (kd g) (sz g) 1 t1 (fn1 x u) -> ready 1 x X -> ready 1 x u -> varies x (Mul X u) ->
  exists w a b p, Sym.C (SForm (form1 id x 1 X)) (SForm (form1 id x 1 u)) = Ok (SForm w) /\
  discretises (form1 id x 1 X) r c t0 a /\ discretises (form1 id x 1 u) r c t1 b /\ discretises w r c t p /\ form_C heap t a b = Ok p.
Proof.
  intros Hr He Hu H0 H1 R0 R1 Hv. pose proof (usable_ok _ _ _ Hu) as (Hb & _ & _). pose proof (default_good g He Hb) as Hg.
  exists (form1 id x 0 (Mul X u)). eexists _, _, _. split; [cbn [Sym.C]; unfold sC; cbn [form1 sgrid]; rewrite chart_eqb_refl; reflexivity|].
  split; [apply (disc r g); auto; [apply Hr|now apply ready_disc]|]. split; [apply (disc r g); auto; [apply Hr|now apply ready_disc]|]. split; [apply (disc r g); auto; [apply Hr|apply ready_disc; auto; split; [apply smooth_mul; [apply R0|apply R1]|exact Hv]]|].
  rewrite mul_fn1. now apply (C73_contraction_exact close heap r g c).
Qed.

(** *** two dimensions: the chart Chart(x, y) *)
Variable heap2 : nat -> grid (list (arr R)).
Definition smooth_plane (e : expr) : Prop := only [0; 1]%nat e = true /\ forall x y, defined2 e x y.
Definition chart2 (id : nat) : chart := MkChart id [0; 1]%nat.
Lemma disc2 r G id d t comps P v : tget (g2P G) (d, t) = Ok P -> P (map fn2 comps) = Ok v -> closed2 d comps = true -> (forall e, In e comps -> only [0; 1]%nat e = true) ->
  to_discrete2 auto closed2 (MkSform d (chart2 id) comps) r G t = Ok (MkForm d t r v).
Proof. intros EP Ev Hc Ho. unfold to_discrete2, grid_P. cbn [sgrid sdeg scomps chart2 dimension coords length Nat.eqb]. rewrite Hc. rewrite (all_ok_comps auto Sa) by auto. cbn [bind]. rewrite EP. cbn [bind]. now rewrite Ev. Qed.
Lemma form_D2 r G d t P u w : heap2 r = grid_of2 G -> tget (g2D G) (d, t) = Ok P -> P u = Ok w -> form_D heap2 (MkForm d t r u) = Ok (ZForm (MkForm (d + 1) t r w)).
Proof.
  intros Hh EP Ew. unfold form_D. cbn [gref degree isprimal array]. rewrite Hh. unfold grid_of2. cbn [gD]. pose proof (tget_map (V := list R -> res (list R)) (fun _ (h : list R -> res (list R)) f => bind (h f) (fun a => Ok (RArr a))) (g2D G) (d, t)) as M. unfold op1 in *; rewrite EP in M. cbv beta in M. rewrite M. cbn [bind]. rewrite Ew. reflexivity.
Qed.
Lemma add_forms d t r (w b v : list R) : length w = length b -> vadd w b = v -> binary Badd (MkForm d t r w) (OForm (MkForm d t r b)) = Ok (MkForm d t r v).
Proof. intros L E. unfold binary. cbn [degree gref isprimal array]. rewrite !Nat.eqb_refl, eqb_reflx. cbn [negb bop_fn bind]. unfold np_bin. rewrite L, Nat.eqb_refl. cbn [bind]. now rewrite <- E. Qed.
(** the derivative of a 1-form, dg/dx - df/dy, as a function *)
Lemma curl_fn2 f g : fn2 (Add (Opp (sdiff f 1)) (sdiff g 0)) = (fun x y => fn2 (sdiff g 0) x y - fn2 (sdiff f 1) x y).
Proof. extensionality x. extensionality y. unfold fn2. cbn [eval]. ring. Qed.
Lemma only_curl f g : only [0; 1]%nat f = true -> only [0; 1]%nat g = true -> only [0; 1]%nat (Add (Opp (sdiff f 1)) (sdiff g 0)) = true.
Proof.
  intros Hf Hg. apply (only_sdiff _ _ 1%nat) in Hf. apply (only_sdiff _ _ 0%nat) in Hg. rewrite only_spec in *. cbn [undefined free]. destruct Hf as [U F], Hg as [U' F']. rewrite U, U'. split; auto. intros v Hv. apply in_app_or in Hv. destruct Hv; auto.
Qed.

Theorem C77_plane_0_primal gx gy G r id e : good gx -> good gy -> product close gx gy = Ok G -> heap2 r = grid_of2 G ->
  smooth_plane e -> wraps_x gx (fn2 e) -> wraps_y gy (fn2 e) -> closed2 0 [e] = true -> closed2 1 [sdiff e 0; sdiff e 1] = true ->
  let f := MkSform 0 (chart2 id) [e] in
  exists df a b, Sym.D (SForm f) = Ok (SForm df) /\ to_discrete2 auto closed2 f r G true = Ok a /\ to_discrete2 auto closed2 df r G true = Ok b /\ form_D heap2 a = Ok (ZForm b).
Proof.
  intros Gx Gy EG Hh [Ho Hs] Wx Wy C0 C1. destruct (C45_stokes0_primal close gx gy G (fn2 e) _ _ Gx Gy EG (fn2_C1 e Ho Hs) Wx Wy) as (P0 & P1 & D0 & u & v & E0 & E1 & ED & Eu & Ev & Ew).
  exists (MkSform 1 (chart2 id) [sdiff e 0; sdiff e 1]), (MkForm 0 true r u), (MkForm 1 true r v). split; [reflexivity|]. split; [|split].
  - eapply disc2; eauto. intros e' [<-|[]]. exact Ho.
  - eapply disc2; eauto. intros e' [<-|[<-|[]]]; now apply only_sdiff.
  - now apply (form_D2 r G 0 true D0).
Qed.
Theorem C77_plane_1_primal gx gy G r id e e' : good gx -> good gy -> product close gx gy = Ok G -> heap2 r = grid_of2 G ->
  smooth_plane e -> smooth_plane e' -> wraps_y gy (fn2 e) -> wraps_x gx (fn2 e') -> closed2 1 [e; e'] = true -> closed2 2 [Add (Opp (sdiff e 1)) (sdiff e' 0)] = true ->
  let f := MkSform 1 (chart2 id) [e; e'] in
  exists df a b, Sym.D (SForm f) = Ok (SForm df) /\ to_discrete2 auto closed2 f r G true = Ok a /\ to_discrete2 auto closed2 df r G true = Ok b /\ form_D heap2 a = Ok (ZForm b).
Proof.
  intros Gx Gy EG Hh [Ho Hs] [Ho' Hs'] Wx Wy C0 C1. destruct (C45_stokes1_primal close gx gy G (fn2 e) _ _ (fn2 e') _ _ Gx Gy EG (fn2_C1 e Ho Hs) (fn2_C1 e' Ho' Hs') Wx Wy) as (P0 & P1 & D0 & u & v & E0 & E1 & ED & Eu & Ev & Ew).
  exists (MkSform 2 (chart2 id) [Add (Opp (sdiff e 1)) (sdiff e' 0)]), (MkForm 1 true r u), (MkForm 2 true r v). split; [reflexivity|]. split; [|split].
  - eapply disc2; eauto. intros e'' [<-|[<-|[]]]; auto.
  - eapply disc2; eauto; [cbn [map]; rewrite curl_fn2; exact Ev|]. intros e'' [<-|[]]. now apply only_curl.
  - now apply (form_D2 r G 1 true D0).
Qed.
(** on dual forms, after adding the boundary form g.BC(f) *)
Theorem C77_plane_0_dual gx gy G r id e : good gx -> good gy -> product close gx gy = Ok G -> heap2 r = grid_of2 G ->
  smooth_plane e -> periodic_x gx (fn2 e) -> periodic_y gy (fn2 e) -> closed2 0 [e] = true -> closed2 1 [sdiff e 0; sdiff e 1] = true ->
  let f := MkSform 0 (chart2 id) [e] in
  exists df a b z BC bc, Sym.D (SForm f) = Ok (SForm df) /\ to_discrete2 auto closed2 f r G false = Ok a /\ to_discrete2 auto closed2 df r G false = Ok b /\ form_D heap2 a = Ok (ZForm z) /\
    tget (g2BC G) (1%nat, false) = Ok BC /\ BC [fn2 e] = Ok bc /\ binary Badd z (OForm (MkForm 1 false r bc)) = Ok b.
Proof.
  intros Gx Gy EG Hh [Ho Hs] Wx Wy C0 C1. destruct (C45_stokes0_dual close gx gy G (fn2 e) _ _ Gx Gy EG (fn2_C1 e Ho Hs) Wx Wy) as (P0 & P1 & D0 & BC & u & v & w & bc & E0 & E1 & ED & EB & Eu & Ev & Ew & Eb & El & Es).
  exists (MkSform 1 (chart2 id) [sdiff e 0; sdiff e 1]), (MkForm 0 false r u), (MkForm 1 false r v), (MkForm 1 false r w), BC, bc. split; [reflexivity|]. split; [|split; [|split; [|split; [|split]]]]; auto.
  - eapply disc2; eauto. intros e' [<-|[]]. exact Ho.
  - eapply disc2; eauto. intros e' [<-|[<-|[]]]; now apply only_sdiff.
  - now apply (form_D2 r G 0 false D0).
  - apply add_forms; auto.
Qed.
Theorem C77_plane_1_dual gx gy G r id e e' : good gx -> good gy -> product close gx gy = Ok G -> heap2 r = grid_of2 G ->
  smooth_plane e -> smooth_plane e' -> periodic_y gy (fn2 e) -> periodic_x gx (fn2 e') -> closed2 1 [e; e'] = true -> closed2 2 [Add (Opp (sdiff e 1)) (sdiff e' 0)] = true ->
  let f := MkSform 1 (chart2 id) [e; e'] in
  exists df a b z BC bc, Sym.D (SForm f) = Ok (SForm df) /\ to_discrete2 auto closed2 f r G false = Ok a /\ to_discrete2 auto closed2 df r G false = Ok b /\ form_D heap2 a = Ok (ZForm z) /\
    tget (g2BC G) (2%nat, false) = Ok BC /\ BC [fn2 e; fn2 e'] = Ok bc /\ binary Badd z (OForm (MkForm 2 false r bc)) = Ok b.
Proof.
  intros Gx Gy EG Hh [Ho Hs] [Ho' Hs'] Wx Wy C0 C1. destruct (C45_stokes1_dual close gx gy G (fn2 e) _ _ (fn2 e') _ _ Gx Gy EG (fn2_C1 e Ho Hs) (fn2_C1 e' Ho' Hs') Wx Wy) as (P0 & P1 & D0 & BC & u & v & w & bc & E0 & E1 & ED & EB & Eu & Ev & Ew & Eb & El & Es).
  exists (MkSform 2 (chart2 id) [Add (Opp (sdiff e 1)) (sdiff e' 0)]), (MkForm 1 false r u), (MkForm 2 false r v), (MkForm 2 false r w), BC, bc. split; [reflexivity|]. split; [|split; [|split; [|split; [|split]]]]; auto.
  - eapply disc2; eauto. intros e'' [<-|[<-|[]]]; auto.
  - eapply disc2; eauto; [cbn [map]; rewrite curl_fn2; exact Ev|]. intros e'' [<-|[]]. now apply only_curl.
  - now apply (form_D2 r G 1 false D0).
  - apply add_forms; auto.
Qed.

(** coordinates that are not the symbols x and y of the module: a form whose value depends on another symbol raises NameError *)
Theorem C77_plane_other_symbol r G id cs d t comps e v : length cs = 2%nat -> In e comps -> closed2 d comps = true -> undefined e = false -> v <> 0%nat -> v <> 1%nat ->
  (exists q s, eval (upd q v s) e <> eval q e) -> to_discrete2 auto closed2 (MkSform d (MkChart id cs) comps) r G t = Err NameError.
Proof.
  intros Lc Hin Hc U H0 H1 (q & s & Hne). unfold to_discrete2, grid_P. cbn [sgrid sdeg scomps]. unfold dimension. cbn [coords]. rewrite Lc, Hc. cbn [Nat.eqb].
  assert (component auto e = Err NameError) as Ee.
  { unfold component. cbv zeta. destruct (only [0; 1]%nat (auto e)) eqn:Ho; auto. exfalso. apply Hne. apply only_spec in Ho as [U' F]. destruct (Sa e) as (V & _). rewrite <- !V. apply eval_agree; auto. intros u Hu. apply F in Hu. destruct Hu as [<-|[<-|[]]]; cbn [upd sval]; destruct (Nat.eqb_spec 0 v), (Nat.eqb_spec 1 v); congruence. }
  assert (all_ok (component auto) comps = Err NameError) as ->; [|reflexivity].
  induction comps as [|e' l IH]; [destruct Hin|]. cbn [all_ok]. destruct Hin as [->|Hin]; [now rewrite Ee|].
  assert (forall x, component auto x = Err NameError \/ exists g, component auto x = Ok g) as Dec by (intro x; unfold component; cbv zeta; destruct (only _ _); eauto).
  destruct (Dec e') as [->|(g & ->)]; [reflexivity|]. cbn [bind]. clear IH Hc. induction l as [|e2 l IH]; [destruct Hin|]. cbn [all_ok]. destruct Hin as [->|Hin]; [now rewrite Ee|]. destruct (Dec e2) as [->|(g2 & ->)]; [reflexivity|]. cbn [bind]. specialize (IH Hin). destruct (all_ok (component auto) l); [discriminate|]. cbn in *. congruence.
Qed.
(** Grid_2D.P does not look at the order of the chart's coordinates: on Chart(y, x), whose 1-forms list their dy component first,
    discretisation does not commute with D *)
Theorem C77_plane_swapped_refuted : (forall d l, closed2 d l = true) -> forall G, product close gc gr = Ok G -> (forall r, heap2 r = grid_of2 G) ->
  ~ forall r e df a b, smooth_plane e -> Sym.D (SForm (MkSform 0 (MkChart 1 [1; 0]%nat) [e])) = Ok (SForm df) ->
     to_discrete2 auto closed2 (MkSform 0 (MkChart 1 [1; 0]%nat) [e]) r G true = Ok a -> to_discrete2 auto closed2 df r G true = Ok b -> form_D heap2 a = Ok (ZForm b).
Proof.
  intros Hc G EG Hh Hall. destruct sound_samples as (_ & [Gc _] & [Gr _]).
  assert (smooth_plane (Sym 0)) as Hs by (split; [reflexivity|intros; exact I]).
  destruct (C45_stokes0_primal close gc gr G (fn2 (Sym 0)) _ _ Gc Gr EG (fn2_C1 (Sym 0) (Logic.proj1 Hs) (proj2 Hs))) as (P0 & P1 & D0 & u & v & E0 & E1 & ED & Eu & Ev & Ew); [intro K; discriminate|intro K; discriminate|].
  destruct (product_ok close gc gr Gc Gr) as (sx & sy & G' & Ex & Ey & E & _ & _ & _ & HP & _). rewrite EG in E. injection E as <-.
  destruct (P1_flat gc gr sx sy Gc Gr Ex Ey true (fn2 (sdiff (Sym 0) 0)) (fn2 (sdiff (Sym 0) 1))) as (o & Eo & Ho). rewrite HP in E1. rewrite E1 in Eo. injection Eo as <-.
  destruct (P1_flat gc gr sx sy Gc Gr Ex Ey true (fn2 (sdiff (Sym 0) 1)) (fn2 (sdiff (Sym 0) 0))) as (o & Eo & Ho'). rewrite E1 in Eo. injection Eo as <-.
  cbn [map] in *. rewrite Ev in Ho. injection Ho as Hv.
  set (v' := _ ++ _) in Ho'.
  specialize (Hall 0%nat (Sym 0) (MkSform 1 (MkChart 1 [1; 0]%nat) [sdiff (Sym 0) 1; sdiff (Sym 0) 0]) (MkForm 0 true 0 u) (MkForm 1 true 0 v') Hs eq_refl).
  assert (form_D heap2 (MkForm 0 true 0 u) = Ok (ZForm (MkForm 1 true 0 v))) as HD by (apply (form_D2 0 G 0 true D0); auto).
  rewrite HD in Hall.
  assert (Ok (ZForm (MkForm 1 true 0 v)) = Ok (ZForm (MkForm 1 true 0 v'))) as K.
  { apply Hall.
    - unfold to_discrete2, grid_P. cbn [sgrid sdeg scomps dimension coords length Nat.eqb]. rewrite Hc, (all_ok_comps auto Sa) by (intros e [<-|[]]; reflexivity). cbn [bind]. rewrite E0. cbn [bind map]. now rewrite Eu.
    - unfold to_discrete2, grid_P. cbn [sgrid sdeg scomps dimension coords length Nat.eqb]. rewrite Hc, (all_ok_comps auto Sa) by (intros e [<-|[<-|[]]]; reflexivity). cbn [bind]. rewrite HP, E1. cbn [bind map]. now rewrite Ho'. }
  injection K as K. rewrite Hv in K. unfold v' in K.
  assert (0 < Nd gr 0 true /\ 0 < Nd gc 1 true)%nat as [N0 N1] by (split; apply Nd_pos; auto).
  apply (f_equal (fun l => nth (0 * Nd gc 1 true + 0) l 0)) in K. rewrite !app_nth1, !nth_flat in K by (rewrite ?length_flat; nia).
  unfold Ix, fn2 in K. cbn [sdiff Nat.eqb eval] in K.
  rewrite !(RInt_const (V := R_CompleteNormedModule)) in K. unfold scal in K. cbn in K. unfold mult in K. cbn in K.
  destruct (good_cells gc Gc) as (sx' & Ex' & Lx). rewrite Ex in Ex'. injection Ex' as <-. destruct (Lx true) as (_ & L1 & L2).
  destruct (cells_in gc sx true (el sx true 0) (er sx true 0) Gc Ex (or_introl eq_refl)) as (_ & B & _); [|change (0 mod 3)%nat with 0%nat in K; lra].
  unfold el, er. rewrite <- (combine_nth (fst (e1 sx true)) (snd (e1 sx true)) 0 0 0) by congruence. apply nth_In. rewrite combine_length, L1, L2, Nat.min_id. exact N1.
Qed.
End Commute.

(** ** instances: sympy on the expressions built from constants, the coordinate and its sine and cosine *)
Fixpoint integ (e : expr) (x x0 x1 : nat) : option expr :=
  match e with
  | Cst k => Some (Mul (Cst k) (Add (Sym x1) (Opp (Sym x0))))
  | Sym v => if Nat.eqb v x then Some (Mul (Cst (/ 2)) (Add (Pow (Sym x1) 2) (Opp (Pow (Sym x0) 2)))) else None
  | Sin (Sym v) => if Nat.eqb v x then Some (Add (Cos (Sym x0)) (Opp (Cos (Sym x1)))) else None
  | Cos (Sym v) => if Nat.eqb v x then Some (Add (Sin (Sym x1)) (Opp (Sin (Sym x0)))) else None
  | Mul a (Cst k) => match integ a x x0 x1 with Some e => Some (Mul e (Cst k)) | None => None end
  | _ => None
  end.
Lemma integ_spec e x x0 x1 e' : integ e x x0 x1 = Some e' -> (forall v, In v (free e') -> v = x0 \/ v = x1) /\ undefined e' = false /\
  forall r, is_RInt (fun t => eval (upd r x t) e) (sval r x0) (sval r x1) (eval r e').
Proof.
  assert (forall (F f : R -> R) a b v, (forall t, is_derive F t (f t)) -> (forall t, continuous f t) -> v = F b - F a -> is_RInt f a b v) as FT.
  { intros F f a b v HF Hf ->. apply (is_RInt_derive F f); intros; auto. }
  revert e'. induction e as [k|v|f i j|a IHa b IHb|a IHa b IHb|a IHa|a IHa|a IHa n|a IHa|a IHa|a IHa|a IHa]; intros e' E; cbn [integ] in E; try discriminate.
  - injection E as <-. cbn [free undefined eval app]. split; [intros v [<-|[<-|[]]]; auto|]. split; [reflexivity|]. intro r. apply (FT (fun t => k * t)); [intro t; auto_derive; auto; ring|intro; apply continuous_const|ring].
  - destruct (Nat.eqb_spec v x) as [->|]; [|discriminate]. injection E as <-. cbn [free undefined eval app upd sval]. rewrite Nat.eqb_refl. split; [intros v [<-|[<-|[]]]; auto|]. split; [reflexivity|]. intro r.
    apply (FT (fun t => / 2 * t ^ 2)); [intro t; auto_derive; auto; field|intro; apply continuous_id|ring].
  - destruct b as [k| | | | | | | | | | | ]; try discriminate. destruct (integ a x x0 x1) as [a'|]; [|discriminate]. injection E as <-. destruct (IHa a' eq_refl) as (F & U & V). cbn [free undefined eval]. rewrite app_nil_r, U. split; [exact F|]. split; [reflexivity|]. intro r.
    apply (is_RInt_ext (fun t => scal k (eval (upd r x t) a))); [intros t _; apply Rmult_comm|]. rewrite Rmult_comm. apply (is_RInt_scal (V := R_NormedModule)). apply V.
  - destruct a as [|v| | | | | | | | | | ]; try discriminate. destruct (Nat.eqb_spec v x) as [->|]; [|discriminate]. injection E as <-. cbn [free undefined eval app upd sval]. rewrite Nat.eqb_refl. split; [intros v [<-|[<-|[]]]; auto|]. split; [reflexivity|]. intro r.
    apply (FT (fun t => - cos t)); [intro t; auto_derive; auto; ring|intro; apply continuous_sin|ring].
  - destruct a as [|v| | | | | | | | | | ]; try discriminate. destruct (Nat.eqb_spec v x) as [->|]; [|discriminate]. injection E as <-. cbn [free undefined eval app upd sval]. rewrite Nat.eqb_refl. split; [intros v [<-|[<-|[]]]; auto|]. split; [reflexivity|]. intro r.
    apply (FT (fun t => sin t)); [intro t; auto_derive; auto; ring|intro; apply continuous_cos|ring].
Qed.
Lemma sound_integ : sound_closed integ.
Proof.
  intros f x x0 x1 e E. apply integ_spec in E as (F & U & V). split; [intros v Hv; apply F in Hv; tauto|]. split; [congruence|]. intros r _. symmetry. apply is_RInt_unique, V.
Qed.
Lemma sound_id : sound_auto (fun e => e).
Proof. intro e. auto. Qed.
(** the 0-form sin x on a periodic grid with three points: all the hypotheses hold *)
Example C77_instance : let heap := fun _ => grid_1d (fun _ _ => false) Periodic 3 in
  exists df a b, Sym.D (SForm (form1 0 0 0 (Sin (Sym 0)))) = Ok (SForm df) /\ discretises (fun e => e) integ (form1 0 0 0 (Sin (Sym 0))) 0 (periodic_default 3) true a /\
    discretises (fun e => e) integ df 0 (periodic_default 3) true b /\ form_D heap a = Ok (ZForm b).
Proof.
  intro heap. apply (C77_derivative_primal (fun e => e) integ sound_id sound_integ (fun _ _ => false) heap 0 per3).
  - split; reflexivity.
  - split; [cbn; lia|cbn; pose proof PI_RGT_0; lra].
  - split; [reflexivity|]. intros s _. exact I.
  - intros _. unfold fn1. cbn. rewrite sin_2PI, sin_0. reflexivity.
  - exists 0, (PI / 2). unfold fn1. cbn. rewrite sin_0, sin_PI2. lra.
  - split; [discriminate|]. exists 0, (PI / 2). split.
    + intros s _. apply fn1_cont; [reflexivity|]. cbn. auto.
    + rewrite (RInt_ext _ cos) by (intros s _; unfold fn1; cbn; ring). assert (is_RInt cos 0 (PI / 2) (sin (PI / 2) - sin 0)) as Hi.
      { apply (is_RInt_derive sin cos); intros s _; [apply is_derive_Reals, derivable_pt_lim_sin|apply continuous_cos]. }
      rewrite (is_RInt_unique _ _ _ _ Hi), sin_PI2, sin_0. lra.
Qed.
(** the 1-form sin x dx on the dual edges of the same grid *)
Example C76_instance : exists c a, cells_of per3 = Ok c /\ to_discrete1 (fun e => e) integ (form1 0 0 1 (Sin (Sym 0))) 0 c false = Ok (dform_of a) /\ degree a = 1%nat /\ isprimal a = false /\
  array a = map (fun ab => RInt sin (fst ab) (snd ab)) (combine (fst (e1 c false)) (snd (e1 c false))).
Proof.
  assert (good per3) as G by (split; [cbn; lia|cbn; pose proof PI_RGT_0; lra]). destruct (good_cells per3 G) as (c & Ec & _). exists c.
  destruct (C76_discretise (fun e => e) integ sound_id sound_integ 0 per3 c 0 0 1 false (Sin (Sym 0)) G Ec (le_n _)) as (a & Ea & Ed & Et & _ & Er).
  - split; [reflexivity|]. split; [discriminate|]. split.
    + intros a b s _ _. apply fn1_cont; [reflexivity|]. cbn. auto.
    + exists 0, (PI / 2). split; [intros s _; apply fn1_cont; [reflexivity|cbn; auto]|]. rewrite (RInt_ext _ sin) by (intros s _; reflexivity). assert (is_RInt sin 0 (PI / 2) (- cos (PI / 2) - - cos 0)) as Hi.
      { apply (is_RInt_derive (fun s => - cos s) sin); intros s _; [auto_derive; auto; ring|apply continuous_sin]. }
      rewrite (is_RInt_unique _ _ _ _ Hi), cos_PI2, cos_0. lra.
  - exists a. rewrite Er. repeat split; auto. 
Qed.
