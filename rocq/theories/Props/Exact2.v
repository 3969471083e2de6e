(** C80, C81: on sums of products of functions the factors of a product grid resolve, the discrete operators of the product grid
    are the continuous ones. *)
From Coq Require Import ZArith Reals List Lia Lra Arith Bool.
From Coq Require Import ZifyNat FunctionalExtensionality.
From Verif Require Import Model.Sym.
From Coquelicot Require Import Coquelicot.
From Verif Require Import Model.Num Model.Np Model.Spectral Model.Basis Model.Grids1 Model.Regular Model.Chebyshev Model.Common Model.Decform Model.Grid2 Spec.Trig Spec.Poly Spec.Plane Spec.Resolved Spec.Separable
  Proofs.ListLemmas Proofs.Sums Proofs.Fourier Proofs.RIntLemmas Proofs.Trig Proofs.Grids1P Proofs.GridsThm Proofs.PeriodicBasis Proofs.TrigAlg Proofs.Lin Proofs.TableLin Proofs.ChebPoly Proofs.Refine Proofs.Arr2 Proofs.Grid2P Proofs.Grid2Ops Proofs.Stokes2.
From Verif Require Import Props.Decform Props.Refinement Props.Basis2 Proofs.Exact1 Props.Exact1 Props.Refine2 Proofs.Wedge2 Props.Stokes2 Proofs.Exact2.
Import ListNotations.
Local Open Scope R_scope.
Ltac Zify.zify_post_hook ::= Z.div_mod_to_equations.

(** the functions of x and y that a component of degree dx in x and dy in y represents exactly *)
Definition res2 (gx gy : grid1) (dx dy : nat) (t : bool) : (R -> R -> R) -> Prop :=
  separable (resolved (kd gx) (sz gx) dx t) (resolved (kd gy) (sz gy) dy t).
(** the forms: one component f for f and f dx^dy, two components f, g for f dx + g dy *)
Definition resolved2 (gx gy : grid1) (d : nat) (t : bool) (w : list (R -> R -> R)) : Prop :=
  match d, w with
  | 0%nat, [f] => res2 gx gy 0 0 t f
  | 1%nat, [f; g] => res2 gx gy 1 0 t f /\ res2 gx gy 0 1 t g
  | 2%nat, [f] => res2 gx gy 1 1 t f
  | _, _ => False
  end.
(** a is the array of the discretisation of the form w *)
Definition disc (G : grid2) (d : nat) (t : bool) (w : list (R -> R -> R)) (a : list R) : Prop :=
  exists P, tget (g2P G) (d, t) = Ok P /\ P w = Ok a.
(** the Hodge star of the Euclidean plane: *1 = dx^dy, *dx = dy, *dy = -dx, *(dx^dy) = 1 *)
Definition star (w : list (R -> R -> R)) : list (R -> R -> R) :=
  match w with [f; g] => [fun x y => - g x y; f] | _ => w end.
(** the wedge product: (a0 dx + a1 dy) ^ (b0 dx + b1 dy) = (a0 b1 - a1 b0) dx^dy *)
Definition mul (f g : R -> R -> R) (x y : R) : R := f x y * g x y.
Definition wedgef (a b : list (R -> R -> R)) : list (R -> R -> R) :=
  match a, b with
  | [a0; a1], [b0; b1] => [fun x y => a0 x y * b1 x y - a1 x y * b0 x y]
  | [f], _ => map (mul f) b
  | _, [f] => map (mul f) a
  | _, _ => []
  end.
(** the contraction with the vector field X = (X0, X1): i_X (a0 dx + a1 dy) = X0 a0 + X1 a1, i_X (f dx^dy) = f X0 dy - f X1 dx *)
Definition contractf (X a : list (R -> R -> R)) : list (R -> R -> R) :=
  match X, a with
  | [X0; X1], [a0; a1] => [fun x y => X0 x y * a0 x y + X1 x y * a1 x y]
  | [X0; X1], [f] => [fun x y => - (X1 x y * f x y); fun x y => X0 x y * f x y]
  | _, _ => []
  end.

(** ** proofs *)
Lemma res_cont k n d p f x : resolved k n d p f -> continuous f x.
Proof.
  destruct k; cbn [resolved].
  - intros (K & _ & H). now apply (td_cont K).
  - intro H. now apply (cosp_cont (grid_N Regular n d p - 1)).
  - intro H. now apply (poly_cont (grid_N Chebyshev n d p - 1)).
Qed.
Definition cs (f : R -> R) : Prop := forall x, continuous f x.
Lemma sep_mono (A B A' B' : (R -> R) -> Prop) f : (forall u, A u -> A' u) -> (forall v, B v -> B' v) -> separable A B f -> separable A' B' f.
Proof. intros HA HB (l & H & E). exists l. split; auto. intros u v K. destruct (H u v K). auto. Qed.
Lemma sum_app l m x y : sum_uv (l ++ m) x y = sum_uv l x y + sum_uv m x y.
Proof. induction l as [|[u v] l IH]; cbn [app sum_uv]; [ring|]. rewrite IH. ring. Qed.
Definition negl (l : uvs) : uvs := map (fun p => (fun x => - fst p x, snd p)) l.
Lemma sum_negl l x y : sum_uv (negl l) x y = - sum_uv l x y.
Proof. induction l as [|[u v] l IH]; cbn [negl map sum_uv fst snd]; [ring|]. fold (negl l). rewrite IH. ring. Qed.
Definition mull (l m : uvs) : uvs := flat_map (fun p => map (fun q => (fun x => fst p x * fst q x, fun y => snd p y * snd q y)) m) l.
Lemma sum_mull l m x y : sum_uv (mull l m) x y = sum_uv l x y * sum_uv m x y.
Proof.
  induction l as [|[u v] l IH]; cbn [mull flat_map sum_uv]; [ring|]. rewrite sum_app. fold (mull l m). rewrite IH, Rmult_plus_distr_r. f_equal. cbn [fst snd].
  clear. induction m as [|[u' v'] m IH]; cbn [map sum_uv fst snd]; [ring|]. rewrite IH. ring.
Qed.
Lemma in_mull l m u v : In (u, v) (mull l m) -> exists u1 v1 u2 v2, In (u1, v1) l /\ In (u2, v2) m /\ u = (fun x => u1 x * u2 x) /\ v = (fun y => v1 y * v2 y).
Proof.
  intro H. apply in_flat_map in H as ([u1 v1] & H1 & H). apply in_map_iff in H as ([u2 v2] & E & H2). cbn [fst snd] in E. injection E as <- <-. exists u1, v1, u2, v2. auto.
Qed.
(** w is the list of the sums of products in ls *)
Definition repr (w : list (R -> R -> R)) (ls : list uvs) : Prop := Forall2 (fun f l => conts l /\ forall x y, f x y = sum_uv l x y) w ls.

Lemma repr1 f ls : repr [f] ls -> exists l, ls = [l] /\ conts l /\ forall x y, f x y = sum_uv l x y.
Proof. intro H. inversion H as [|? l ? ls' [Hc Hf] H']; subst. inversion H'; subst. eauto. Qed.
Lemma repr2 f g ls : repr [f; g] ls -> exists l m, ls = [l; m] /\ conts l /\ (forall x y, f x y = sum_uv l x y) /\ conts m /\ (forall x y, g x y = sum_uv m x y).
Proof. intro H. inversion H as [|? l ? ls' [Hc Hf] H']; subst. apply repr1 in H' as (m & -> & Hc' & Hf'). exists l, m. auto. Qed.
Section Forms2.
Variable close : C -> C -> bool.
Variables gx gy : grid1.
Variable G : grid2.
Hypotheses (EG : product close gx gy = Ok G) (Gx : good gx) (Gy : good gy).
Variables sx sy : cells1.
Hypotheses (Ex : cells_of gx = Ok sx) (Ey : cells_of gy = Ok sy).
Notation pj := (pj gx gy sx sy).
Definition pjs (d : nat) (t : bool) (ls : list uvs) : list R :=
  match d, ls with
  | 1%nat, [l; m] => pj l 1 0 t ++ pj m 0 1 t
  | 0%nat, [l] => pj l 0 0 t
  | _, [l] => pj l 1 1 t
  | _, _ => []
  end.
Lemma repr_length w ls : repr w ls -> length w = length ls.
Proof. intro H. induction H; cbn; auto. Qed.
Lemma disc_val d t w ls : (d <= 2)%nat -> repr w ls -> length w = ncomp d -> disc G d t w (pjs d t ls).
Proof.
  intros Hd Hr L. destruct (product_ok close gx gy Gx Gy) as (sx' & sy' & G' & Ex' & Ey' & E & _ & _ & _ & HP & _). rewrite Ex in Ex'. injection Ex' as <-. rewrite Ey in Ey'. injection Ey' as <-. rewrite EG in E. injection E as <-.
  unfold disc. rewrite HP. destruct d as [|[|[|d]]]; [| | |lia]; cbn [ncomp Nat.eqb] in L.
  - destruct w as [|f [|]]; try discriminate. inversion Hr as [|? l ? ls' [Hc Hf] Hr']. subst. inversion Hr'. subst. destruct (P0_flat gx gy sx sy Gx Gy Ex Ey t f) as (o & Eo & F). exists o. split; [exact Eo|]. rewrite F. apply f_equal. cbn [pjs]. now apply P_sep0.
  - destruct w as [|f [|g [|]]]; try discriminate. inversion Hr as [|? l ? ls' [Hc Hf] Hr']. subst. inversion Hr' as [|? m ? ls [Hc' Hf'] Hr'']. subst. inversion Hr''. subst.
    destruct (P1_flat gx gy sx sy Gx Gy Ex Ey t f g) as (o & Eo & F). exists o. split; [exact Eo|]. rewrite F. cbn [pjs]. rewrite (P_sep1 gx gy sx sy Ex Ey Gx Gy t l f), (P_sep1' gx gy sx sy Ex Ey Gx Gy t m g) by auto. reflexivity.
  - destruct w as [|f [|]]; try discriminate. inversion Hr as [|? l ? ls' [Hc Hf] Hr']. subst. inversion Hr'. subst. destruct (P2_flat gx gy sx sy Gx Gy Ex Ey t f) as (o & Eo & F). exists o. split; [exact Eo|]. rewrite F. apply f_equal. cbn [pjs]. now apply P_sep2.
Qed.
Lemma disc_fun d t w a b : disc G d t w a -> disc G d t w b -> a = b.
Proof. intros (P & E & F) (P' & E' & F'). rewrite E in E'. injection E' as <-. rewrite F in F'. now injection F'. Qed.

(** *** Hodge star *)
Lemma nth_proj d t g c u j : good g -> cells_of g = Ok c -> (d <= 1)%nat -> (j < Nd g d t)%nat ->
  nth j (proj c d t u) 0 = match d with O => u (vt c t j) | _ => RInt u (el c t j) (er c t j) end.
Proof.
  intros Hg Hc Hd Hj. destruct (lens g c t Hg Hc) as (L0 & L1 & L2). destruct d as [|[|d]]; [| |lia].
  - apply nth_proj0. now rewrite L0.
  - apply nth_proj1; [now rewrite L1|congruence].
Qed.
Lemma tn_negl l dx dy t i j : (dx <= 1)%nat -> (j < Nd gx dx t)%nat -> conts l -> tn (negl l) (proj sx dx t) (proj sy dy t) i j = - tn l (proj sx dx t) (proj sy dy t) i j.
Proof.
  intros Hd Hj. induction l as [|[u v] l IH]; intro Hc; cbn [negl map tn fst snd]; [ring|]. fold (negl l). apply conts_cons in Hc as (Hu & Hv & Hc). rewrite IH by auto.
  rewrite !(nth_proj dx t gx sx) by auto. destruct dx as [|dx]; [ring|]. rewrite (RInt_opp (V := R_CompleteNormedModule) u) by (apply ex_RInt_cont; auto). unfold opp; cbn. ring.
Qed.
Lemma pj_negl l dx dy t : (dx <= 1)%nat -> conts l -> map Ropp (pj l dx dy t) = pj (negl l) dx dy t.
Proof. intros Hd Hc. unfold Exact2.pj. rewrite flat_opp. apply flat_ext. intros i j Hi Hj. symmetry. now apply tn_negl. Qed.
Lemma conts_negl l : conts l -> conts (negl l).
Proof.
  intros H u v K. apply in_map_iff in K as ([u' v'] & E & K). cbn [fst snd] in E. injection E as <- <-. destruct (H _ _ K) as [Hu Hv]. split; auto.
  intro x. apply (continuous_opp u'). auto.
Qed.
Definition in2 (dx dy : nat) (t : bool) (l : uvs) : Prop := forall u v, In (u, v) l -> resolved (kd gx) (sz gx) dx t u /\ resolved (kd gy) (sz gy) dy t v.
Lemma in2_conts dx dy t l : in2 dx dy t l -> conts l.
Proof. intros H u v K. destruct (H u v K) as [A B]. split; intro; [apply (res_cont _ _ _ _ _ _ A)|apply (res_cont _ _ _ _ _ _ B)]. Qed.
Definition lists2 (d : nat) (t : bool) (ls : list uvs) : Prop :=
  match d, ls with 0%nat, [l] => in2 0 0 t l | 1%nat, [l; m] => in2 1 0 t l /\ in2 0 1 t m | 2%nat, [l] => in2 1 1 t l | _, _ => False end.
Lemma resolved_repr d t w : (d <= 2)%nat -> resolved2 gx gy d t w -> exists ls, repr w ls /\ lists2 d t ls /\ length w = ncomp d.
Proof.
  intros Hd H. destruct d as [|[|[|d]]]; [| | |lia]; cbn [resolved2] in H.
  - destruct w as [|f [|]]; try contradiction. destruct H as (l & H & E). exists [l]. split; [|split; [exact H|reflexivity]]. constructor; [|constructor]. split; auto. now apply (in2_conts 0 0 t).
  - destruct w as [|f [|g [|]]]; try contradiction. destruct H as [(l & H & E) (m & H' & E')]. exists [l; m]. split; [|split; [split; [exact H|exact H']|reflexivity]].
    constructor; [split; auto; now apply (in2_conts 1 0 t)|]. constructor; [split; auto; now apply (in2_conts 0 1 t)|constructor].
  - destruct w as [|f [|]]; try contradiction. destruct H as (l & H & E). exists [l]. split; [|split; [exact H|reflexivity]]. constructor; [|constructor]. split; auto. now apply (in2_conts 1 1 t).
Qed.
Section Hodge.
Hypotheses (Dx : default_extent gx) (Dy : default_extent gy) (Wx : works close (kd gx) (sz gx)) (Wy : works close (kd gy) (sz gy)).
Lemma len_proj g c d t u : default_extent g -> works close (kd g) (sz g) -> cells_of g = Ok c -> (d <= 1)%nat -> length (proj c d t u) = Nd g d t.
Proof. intros D W E Hd. destruct (works_ok _ _ _ W) as [B _]. now apply proj_length. Qed.
Lemma hget_exact g c d t u : default_extent g -> works close (kd g) (sz g) -> cells_of g = Ok c -> (d <= 1)%nat -> resolved (kd g) (sz g) d t u ->
  length (proj c d t u) = Nd g d t /\ hget close g d t (proj c d t u) = Ok (proj c (1 - d) (negb t) u).
Proof.
  intros D W E Hd Hu. split; [now apply len_proj|]. unfold hget. destruct (table_H_exact close g c d t u D W E Hd Hu) as (o & Eo & F). now rewrite Eo.
Qed.
Lemma h_cols dy t dx' t' l r : (dy <= 1)%nat -> (0 < r)%nat -> (forall u v, In (u, v) l -> resolved (kd gy) (sz gy) dy t v) ->
  along0 (hget close gy dy t) (mk2 (Nd gy dy t) r (tn l (proj sx dx' t') (proj sy dy t))) = Ok (mk2 (Nd gy (1 - dy) (negb t)) r (tn l (proj sx dx' t') (proj sy (1 - dy) (negb t)))).
Proof.
  intros Hd Hr H. destruct (works_ok _ _ _ Wy). apply along0_tn; auto; [now apply rlin_h|]. intros u v K. apply hget_exact; eauto.
Qed.
Lemma h_rows dx t dy' t' l r : (dx <= 1)%nat -> (0 < r)%nat -> (forall u v, In (u, v) l -> resolved (kd gx) (sz gx) dx t u) ->
  along1 (hget close gx dx t) (mk2 r (Nd gx dx t) (tn l (proj sx dx t) (proj sy dy' t'))) = Ok (mk2 r (Nd gx (1 - dx) (negb t)) (tn l (proj sx (1 - dx) (negb t)) (proj sy dy' t'))).
Proof.
  intros Hd Hr H. destruct (works_ok _ _ _ Wx). apply along1_tn; auto; [now apply rlin_h|]. intros u v K. apply hget_exact; eauto.
Qed.
Definition starl (ls : list uvs) : list uvs := match ls with [l; m] => [negl m; l] | _ => ls end.
Lemma repr_star w ls : repr w ls -> repr (star w) (starl ls).
Proof.
  intro H. destruct H as [|f l w ls Hl H]; [constructor|]. destruct H as [|g m w ls Hm H]; [now constructor; [|constructor]|]. destruct H as [|g' m' w ls Hm' H]; [|cbn; now repeat (constructor; auto)].
  cbn [star starl]. destruct Hl, Hm. constructor; [split; [now apply conts_negl|]|constructor; [auto|constructor]]. intros x y. rewrite sum_negl. f_equal. auto.
Qed.
Lemma H_val d t ls : (d <= 2)%nat -> lists2 d t ls -> exists H, tget (g2H G) (d, t) = Ok H /\ H (pjs d t ls) = Ok (pjs (2 - d) (negb t) (starl ls)).
Proof.
  intros Hd H. destruct (product_ok close gx gy Gx Gy) as (sx' & sy' & G' & _ & _ & E & _ & _ & _ & _ & _ & _ & _ & _ & HH & _). rewrite EG in E. injection E as <-.
  pose proof (Nd_pos gx 0 t Gx). pose proof (Nd_pos gx 1 t Gx). pose proof (Nd_pos gy 0 t Gy). pose proof (Nd_pos gy 1 t Gy).
  pose proof (Nd_pos gx 0 (negb t) Gx). pose proof (Nd_pos gx 1 (negb t) Gx). pose proof (Nd_pos gy 0 (negb t) Gy). pose proof (Nd_pos gy 1 (negb t) Gy).
  rewrite HH. match goal with |- context [reshapeO _ (table6 ?t0)] => destruct (op_get gx gy t0 d t Hd) as (o & Eo & F) end. exists o. split; [exact Eo|].
  rewrite F. clear Eo F. destruct d as [|[|[|d]]]; [| | |lia]; cbn [lists2] in H.
  - destruct ls as [|l [|]]; try contradiction. cbn [pjs shp2 Nat.sub starl]. unfold Exact2.pj. rewrite reshape_flat. cbn [bind]. unfold H2_0. cbn [get_arr bind].
    rewrite h_cols by (auto; intros; now apply (H u v)). cbn [bind Nat.sub]. rewrite h_rows by (auto; intros; now apply (H u v)). cbn [bind Nat.sub]. rewrite unshape_mk2. reflexivity.
  - destruct ls as [|l [|m [|]]]; try contradiction. destruct H as [Hl Hm]. cbn [pjs shp2 Nat.sub starl]. unfold Exact2.pj at 1 2. rewrite reshape_flat2. cbn [bind]. unfold H2_1. cbn [get_pair bind fst snd].
    rewrite h_cols by (auto; intros; now apply (Hm u v)). cbn [bind Nat.sub]. rewrite h_rows by (auto; intros; now apply (Hm u v)). cbn [bind Nat.sub].
    rewrite h_rows by (auto; intros; now apply (Hl u v)). cbn [bind Nat.sub]. rewrite h_cols by (auto; intros; now apply (Hl u v)). cbn [bind Nat.sub].
    rewrite neg2_mk2, unshape_mk22. cbn [bind fst]. apply f_equal, f_equal2; [|reflexivity]. rewrite <- pj_negl by (auto; now apply (in2_conts 0 1 t)). unfold Exact2.pj. now rewrite flat_opp.
  - destruct ls as [|l [|]]; try contradiction. cbn [pjs shp2 Nat.sub starl]. unfold Exact2.pj. rewrite reshape_flat. cbn [bind]. unfold H2_0. cbn [get_arr bind].
    rewrite h_cols by (auto; intros; now apply (H u v)). cbn [bind Nat.sub]. rewrite h_rows by (auto; intros; now apply (H u v)). cbn [bind Nat.sub]. rewrite unshape_mk2. reflexivity.
Qed.
End Hodge.

(** *** refinement *)
(** the functions that the restriction to components of degree d projects exactly: on 0-forms it picks values; on 1-forms it integrates
    trigonometric polynomials of degree less than n, and polynomials of degree up to 2n-3 *)
Definition fine (g : grid1) (d : nat) (f : R -> R) : Prop :=
  cs f /\ (d = 0%nat \/ match kd g with Periodic => resolved_periodic (2 * sz g) f | Regular => False | Chebyshev => polynomial (2 * sz g - 3) f end).
Section Refinement.
Hypotheses (Dx : default_extent gx) (Dy : default_extent gy) (Ux : usable close (kd gx) (sz gx)) (Uy : usable close (kd gy) (sz gy)).
Let hp : nat -> grid (list R) := fun _ => grid_1d never Periodic 1.
Lemma Rx : refinable close gx. Proof. split; auto. Qed.
Lemma Ry : refinable close gy. Proof. split; auto. Qed.
Variables px py : list R.
Hypotheses (Px : points sx = Ok px) (Py : points sy = Ok py).
Lemma usable_works k n : usable close k n -> works close k n.
Proof. destruct k; cbn; tauto. Qed.
Lemma t_rlin g d t T : refinable close g -> (d <= 1)%nat -> tget (rT (refine_of close (kd g))) (d, t) = Ok T -> rlin (Nd g d t) (rf g) T.
Proof. intros Hr Hd E. destruct (t_pair close g d t Hr Hd) as (T0 & U & T' & U' & A1 & A2 & A3 & A4 & A5 & A6 & A7). rewrite E in A3. injection A3 as <-. exists T'. split; auto. Qed.
Lemma u_rlin g d t U : refinable close g -> (d <= 1)%nat -> tget (rU (refine_of close (kd g))) (d, t) = Ok U -> rlin (rf g) (Nd g d t) U.
Proof. intros Hr Hd E. destruct (t_pair close g d t Hr Hd) as (T0 & U0 & T' & U' & A1 & A2 & A3 & A4 & A5 & A6 & A7). rewrite E in A4. injection A4 as <-. exists U'. split; auto. Qed.
Lemma tab_T g d t : refinable close g -> (d <= 1)%nat -> exists T, tget (rT (refine_of close (kd g))) (d, t) = Ok T.
Proof. intros Hr Hd. destruct (t_pair close g d t Hr Hd) as (T0 & U0 & T' & U' & A1 & A2 & A3 & A4 & A5 & A6 & A7). eauto. Qed.
Lemma tab_U g d t : refinable close g -> (d <= 1)%nat -> exists T, tget (rU (refine_of close (kd g))) (d, t) = Ok T.
Proof. intros Hr Hd. destruct (t_pair close g d t Hr Hd) as (T0 & U0 & T' & U' & A1 & A2 & A3 & A4 & A5 & A6 & A7). eauto. Qed.
Lemma t_exact g c pts d t u T : good g -> default_extent g -> usable close (kd g) (sz g) -> cells_of g = Ok c -> points c = Ok pts -> (d <= 1)%nat ->
  tget (rT (refine_of close (kd g))) (d, t) = Ok T -> resolved (kd g) (sz g) d t u -> length (proj c d t u) = Nd g d t /\ T (proj c d t u) = Ok (map u pts).
Proof.
  intros Hg D U E Ep Hd ET Hu. split; [apply len_proj; auto; now apply usable_works|].
  destruct (refines close hp g c d t u D U E Hd Hu) as (T' & pts' & ET' & Ep' & F). rewrite ET in ET'. injection ET' as <-. rewrite Ep in Ep'. now injection Ep' as <-.
Qed.
Lemma poly0 k : polynomial k (fun _ => 0).
Proof. exists (fun _ => 0). intro x. symmetry. apply Rsum_zero_ext. intros. ring. Qed.
Lemma zero_resolved k n d t : usable close k n -> (0 < grid_N k n d t)%nat -> resolved k n d t (fun _ => 0).
Proof.
  destruct k; cbn [usable]; [|tauto|]; intros H H0.
  - exists 0%nat. split; [exact H0|]. exists (fun _ => 0), (fun _ => 0). intro x. unfold trig. cbn. ring.
  - apply poly0.
Qed.
Lemma len_pts g c pts : good g -> default_extent g -> usable close (kd g) (sz g) -> cells_of g = Ok c -> points c = Ok pts -> length pts = rf g.
Proof.
  intros Hg D U E Ep. destruct (tab_T g 0 true) as [T ET]; [split; auto|lia|]. destruct (t_exact g c pts 0 true (fun _ => 0) T Hg D U E Ep ltac:(lia) ET) as [L F].
  { apply zero_resolved; auto. apply (Nd_pos g 0 true Hg). }
  destruct (t_rlin g 0 true T (conj Hg U) ltac:(lia) ET) as (T' & Lt & Et). rewrite Et in F by auto. injection F as F. rewrite <- (map_length (fun _ => 0) pts), <- F. apply (lin_len _ _ _ _ Lt L).
Qed.
Lemma u_exact g c pts d t u U : good g -> default_extent g -> usable close (kd g) (sz g) -> cells_of g = Ok c -> points c = Ok pts -> (d <= 1)%nat ->
  tget (rU (refine_of close (kd g))) (d, t) = Ok U -> fine g d u -> length (map u pts) = rf g /\ U (map u pts) = Ok (proj c d t u).
Proof.
  intros Hg D Us E Ep Hd EU [_ Hu]. split; [rewrite map_length; now apply (len_pts g c)|]. destruct d as [|[|d]]; [| |lia].
  - destruct (U0_exact close g c t u pts D Us E Ep) as (U' & EU' & F). rewrite EU in EU'. now injection EU' as <-.
  - destruct Hu as [Hu|Hu]; [discriminate|]. pose proof (default_cells g c D E) as Hc. destruct g as [k n a b]. cbn [kd sz] in *. destruct k; cbn [usable refine_of] in *; [|contradiction|].
    + subst c. destruct Hu as (K & HK & Hu). destruct (U_trig n 1 t u K Us ltac:(lia) Hu ltac:(lia)) as (U' & EU' & F). rewrite EU in EU'. injection EU' as <-. rewrite <- F. apply f_equal.
      destruct (refines close hp (MkGrid1 Periodic n a b) (periodic_default n) 0 true (fun _ => 0) D Us E ltac:(lia)) as (_ & pts' & _ & Ep' & _); [apply (zero_resolved Periodic); auto|]. rewrite Ep in Ep'. injection Ep' as <-.
      destruct (points_ok Periodic n 0 (2 * PI) Us) as (c & pts' & Ec & Ep' & Lp & Pv & Pd); [pose proof PI_RGT_0; lra|].
      cbn [make_cells] in Ec. destruct n as [|n']; [lia|]. set (n := S n') in *. injection Ec as <-. fold (periodic_default n) in *. rewrite Ep in Ep'. injection Ep' as <-.
      rewrite pd_cells in Pv, Pd by lia. cbn [verts verts_dual grid_N] in Pv, Pd. unfold sizes_periodic in Pv, Pd. destruct Pd as [Pd _].
      apply (list_eq_nth 0); [rewrite map_length, length_tab, Lp; reflexivity|]. intros j Hj. rewrite map_length in Hj. rewrite (nth_indep _ 0 (u 0)) by (now rewrite map_length). rewrite map_nth.
      rewrite nth_tab by (rewrite Lp in Hj; exact Hj). f_equal. rewrite Lp in Hj. change (j < n + n)%nat in Hj.
      destruct (Nat.Even_or_Odd j) as [[i ->]|[i ->]].
      * rewrite Pv by lia. rewrite nth_tab by lia. symmetry. apply xg_e; lia.
      * rewrite Pd by lia. rewrite nth_tab by lia. symmetry. apply xg_o; lia.
    + destruct Us as [Hn Gd]. destruct (C32_restriction_integrates close n 1 t u Hn ltac:(lia) (or_intror Hu)) as (U' & c' & pts' & EU' & Ec' & Ep' & F). rewrite EU in EU'. injection EU' as <-. rewrite Hc in Ec'. injection Ec' as <-. rewrite Ep in Ep'. now injection Ep' as <-.
Qed.

(** the samples of a sum of products at the points of the refined grid *)
Definition smp (f : R -> R -> R) : nat -> nat -> R := fun i j => f (nth j px 0) (nth i py 0).
Lemma tn_smp l i j : (i < rf gy)%nat -> (j < rf gx)%nat -> tn l (fun u => map u px) (fun v => map v py) i j = smp (sum_uv l) i j.
Proof.
  intros Hi Hj. assert (length px = rf gx) as Lx by (now apply (len_pts gx sx)). assert (length py = rf gy) as Ly by (now apply (len_pts gy sy)).
  induction l as [|[u v] l IH]; cbn [tn sum_uv]; unfold smp in *; cbn [sum_uv]; [reflexivity|]. rewrite IH. f_equal. rewrite (nth_indep (map u px) 0 (u 0)), map_nth by (rewrite map_length; lia). rewrite (nth_indep (map v py) 0 (v 0)), map_nth by (rewrite map_length; lia). reflexivity.
Qed.
Lemma tyx_T dy dx t l : (dx <= 1)%nat -> (dy <= 1)%nat -> in2 dx dy t l ->
  tyx (rT (refine_of close (kd gy))) (rT (refine_of close (kd gx))) dy dx t (mk2 (Nd gy dy t) (Nd gx dx t) (tn l (proj sx dx t) (proj sy dy t))) = Ok (mk2 (rf gy) (rf gx) (smp (sum_uv l))).
Proof.
  intros Hx Hy H. destruct (tab_T gx dx t Rx Hx) as [T ET]. destruct (tab_T gy dy t Ry Hy) as [T' ET']. unfold tyx. rewrite ET, ET'. cbn [bind].
  rewrite (along1_tn T _ _ (rf gx) l (proj sx dx t) (fun u => map u px)); [cbn [bind]|now apply Nd_pos|now apply (t_rlin gx dx t)|].
  - rewrite (along0_tn T' _ _ (rf gy) l (fun u => map u px) (proj sy dy t) (fun v => map v py)); [|now apply rf_pos|now apply (t_rlin gy dy t)|].
    + apply f_equal, mk2_ext. intros. now apply tn_smp.
    + intros u v K. apply (t_exact gy sy); auto. now apply (H u v).
  - intros u v K. apply (t_exact gx sx); auto. now apply (H u v).
Qed.
Definition finel (dx dy : nat) (l : uvs) : Prop := forall u v, In (u, v) l -> fine gx dx u /\ fine gy dy v.
Lemma tyx_U dy dx t l F : (dx <= 1)%nat -> (dy <= 1)%nat -> finel dx dy l -> (forall i j, (i < rf gy)%nat -> (j < rf gx)%nat -> F i j = smp (sum_uv l) i j) ->
  tyx (rU (refine_of close (kd gy))) (rU (refine_of close (kd gx))) dy dx t (mk2 (rf gy) (rf gx) F) = Ok (mk2 (Nd gy dy t) (Nd gx dx t) (tn l (proj sx dx t) (proj sy dy t))).
Proof.
  intros Hx Hy H EF. destruct (tab_U gx dx t Rx Hx) as [T ET]. destruct (tab_U gy dy t Ry Hy) as [T' ET']. unfold tyx. rewrite ET, ET'. cbn [bind].
  rewrite (mk2_ext _ _ F (tn l (fun u => map u px) (fun v => map v py))) by (intros; rewrite EF by auto; symmetry; now apply tn_smp).
  rewrite (along1_tn T _ _ (Nd gx dx t) l (fun u => map u px) (proj sx dx t)); [cbn [bind]|now apply rf_pos|now apply (u_rlin gx dx t)|].
  - rewrite (along0_tn T' _ _ (Nd gy dy t) l (proj sx dx t) (fun v => map v py) (proj sy dy t)); [reflexivity|now apply Nd_pos|now apply (u_rlin gy dy t)|].
    intros u v K. apply (u_exact gy sy); auto. now apply (H u v).
  - intros u v K. apply (u_exact gx sx); auto. now apply (H u v).
Qed.
Lemma T_val d t ls : (d <= 2)%nat -> lists2 d t ls -> exists T, tget (g2T G) (d, t) = Ok T /\ T (pjs d t ls) = Ok (ref gx gy (map (fun l => smp (sum_uv l)) ls)).
Proof.
  intros Hd H. destruct (product_ok close gx gy Gx Gy) as (sx' & sy' & G' & _ & _ & E & _ & _ & HN & _ & _ & _ & _ & _ & _ & HT & HU & _). rewrite EG in E. injection E as <-. rewrite HT. unfold to_refine.
  match goal with |- context [reshapeT _ (table6 ?t0)] => destruct (T_get gx gy t0 d t Hd) as (T & ET & FT) end. exists T. split; [exact ET|]. rewrite FT. clear ET FT.
  destruct d as [|[|[|d]]]; [| | |lia]; cbn [lists2] in H.
  - destruct ls as [|l [|]]; try contradiction. cbn [pjs shp2]. unfold Exact2.pj. rewrite reshape_flat. cbn [bind get_arr]. change (0 / 2)%nat with 0%nat. rewrite tyx_T by auto. reflexivity.
  - destruct ls as [|l [|m [|]]]; try contradiction. destruct H as [Hl Hm]. cbn [pjs shp2]. unfold Exact2.pj. rewrite reshape_flat2. cbn [bind get_pair fst snd]. rewrite tyx_T by auto. cbn [bind]. rewrite tyx_T by auto. reflexivity.
  - destruct ls as [|l [|]]; try contradiction. cbn [pjs shp2]. unfold Exact2.pj. rewrite reshape_flat. cbn [bind get_arr]. change (2 / 2)%nat with 1%nat. rewrite tyx_T by auto. reflexivity.
Qed.
Definition finels (d : nat) (ls : list uvs) : Prop :=
  match d, ls with 0%nat, [l] => finel 0 0 l | 1%nat, [l; m] => finel 1 0 l /\ finel 0 1 m | 2%nat, [l] => finel 1 1 l | _, _ => False end.
Lemma U_val d t ls Fs : (d <= 2)%nat -> finels d ls ->
  Forall2 (fun F l => forall i j, (i < rf gy)%nat -> (j < rf gx)%nat -> F i j = smp (sum_uv l) i j) Fs ls ->
  exists U, tget (g2U G) (d, t) = Ok U /\ U (ref gx gy Fs) = Ok (pjs d t ls).
Proof.
  intros Hd H HF. destruct (product_ok close gx gy Gx Gy) as (sx' & sy' & G' & _ & _ & E & _ & _ & HN & _ & _ & _ & _ & _ & _ & HT & HU & _). rewrite EG in E. injection E as <-. rewrite HU. unfold from_refine.
  match goal with |- context [reshapeU (table6 ?u0)] => destruct (U_get u0 d t Hd) as (U & EU & FU) end. exists U. split; [exact EU|]. rewrite FU. clear EU FU.
  destruct d as [|[|[|d]]]; [| | |lia]; cbn [finels] in H.
  - destruct ls as [|l [|]]; try contradiction. inversion HF as [|F ? Fs' ? Hl HF']; subst. inversion HF'; subst. cbn [ref map item nth_error bind]. change (0 / 2)%nat with 0%nat. rewrite (tyx_U 0 0 t l) by auto. reflexivity.
  - destruct ls as [|l [|m [|]]]; try contradiction. destruct H as [H H']. inversion HF as [|F ? Fs' ? Hl HF']; subst. inversion HF' as [|F' ? Fs ? Hm HF2]; subst. inversion HF2; subst. cbn [ref map item nth_error bind].
    rewrite (tyx_U 0 1 t l) by auto. cbn [bind]. rewrite (tyx_U 1 0 t m) by auto. cbn [bind]. rewrite unshape_mk22. reflexivity.
  - destruct ls as [|l [|]]; try contradiction. inversion HF as [|F ? Fs' ? Hl HF']; subst. inversion HF'; subst. cbn [ref map item nth_error bind]. change (2 / 2)%nat with 1%nat. rewrite (tyx_U 1 1 t l) by auto. reflexivity.
Qed.
End Refinement.
End Forms2.

(** the forms that the restriction projects exactly *)
Definition fine2 (gx gy : grid1) (d : nat) (w : list (R -> R -> R)) : Prop :=
  match d, w with
  | 0%nat, [f] => separable (fine gx 0) (fine gy 0) f
  | 1%nat, [f; g] => separable (fine gx 1) (fine gy 0) f /\ separable (fine gx 0) (fine gy 1) g
  | 2%nat, [f] => separable (fine gx 1) (fine gy 1) f
  | _, _ => False
  end.
Lemma fine_repr gx gy d w : (d <= 2)%nat -> fine2 gx gy d w -> exists ls, repr w ls /\ finels gx gy d ls /\ length w = ncomp d.
Proof.
  assert (forall dx dy l, finel gx gy dx dy l -> conts l) as FC.
  { intros dx dy l H u v K. destruct (H u v K) as [[A _] [B _]]. auto. }
  intros Hd H. destruct d as [|[|[|d]]]; [| | |lia]; cbn [fine2] in H.
  - destruct w as [|f [|]]; try contradiction. destruct H as (l & H & E). exists [l]. split; [|split; [exact H|reflexivity]]. constructor; [|constructor]. split; auto. now apply (FC 0%nat 0%nat).
  - destruct w as [|f [|g [|]]]; try contradiction. destruct H as [(l & H & E) (m & H' & E')]. exists [l; m]. split; [|split; [split; [exact H|exact H']|reflexivity]].
    constructor; [split; auto; now apply (FC 1%nat 0%nat)|]. constructor; [split; auto; now apply (FC 0%nat 1%nat)|constructor].
  - destruct w as [|f [|]]; try contradiction. destruct H as (l & H & E). exists [l]. split; [|split; [exact H|reflexivity]]. constructor; [|constructor]. split; auto. now apply (FC 1%nat 1%nat).
Qed.
Lemma default_lo g : default_extent g -> lo g < hi g.
Proof. unfold default_extent. pose proof PI_RGT_0. destruct (kd g); intros [-> ->]; lra. Qed.
Lemma works_good close g : default_extent g -> works close (kd g) (sz g) -> good g.
Proof. intros D W. split; [apply (works_ok _ _ _ W)|now apply default_lo]. Qed.

Section Theorems.
Variable close : C -> C -> bool.
Variable heap : nat -> grid (list (arr R)).
Variables (gx gy : grid1) (G : grid2).
(** r refers to the product of gx and gy *)
Definition refers2 (r : nat) : Prop := product close gx gy = Ok G /\ heap r = grid_of2 G.

(** C80: the Hodge star of a discretised form is its continuous Hodge star, discretised on the dual cells *)
Theorem C80_hodge_exact r d t w : refers2 r -> default_extent gx -> default_extent gy -> works close (kd gx) (sz gx) -> works close (kd gy) (sz gy) -> (d <= 2)%nat ->
  resolved2 gx gy d t w ->
  exists a b, disc G d t w a /\ disc G (2 - d) (negb t) (star w) b /\ form_H heap (MkForm d t r a) = Ok (MkForm (2 - d) (negb t) r b).
Proof.
  intros [EG Eh] Dx Dy Wx Wy Hd Hw. pose proof (works_good close gx Dx Wx) as Gx. pose proof (works_good close gy Dy Wy) as Gy.
  destruct (product_ok close gx gy Gx Gy) as (sx & sy & _ & Ex & Ey & _).
  destruct (resolved_repr gx gy d t w Hd Hw) as (ls & Hr & Hl & L). destruct (H_val close gx gy G EG Gx Gy sx sy Ex Ey Dx Dy Wx Wy d t ls Hd Hl) as (H & EH & F).
  exists (pjs gx gy sx sy d t ls), (pjs gx gy sx sy (2 - d) (negb t) (starl ls)). split; [now apply (disc_val close)|]. split.
  - apply (disc_val close); auto; [lia|now apply repr_star|]. destruct d as [|[|[|d]]]; [| | |lia]; destruct w as [|f [|g [|]]]; try discriminate; reflexivity.
  - unfold form_H. cbn [degree isprimal gref array]. rewrite Eh. cbn [grid_of2 gH gdim]. rewrite EH. cbn [bind]. rewrite F. reflexivity.
Qed.

Lemma has_points g c : default_extent g -> usable close (kd g) (sz g) -> cells_of g = Ok c -> exists pts, points c = Ok pts.
Proof.
  intros D U E. destruct (refines close (fun _ => grid_1d never Periodic 1) g c 0 true (fun _ => 0) D U E ltac:(lia)) as (_ & pts & _ & Ep & _); [|eauto].
  apply (zero_resolved close); auto. apply (Nd_pos g 0 true). apply (works_good close); auto. now apply (usable_works close).
Qed.
(** refinement evaluates the components at the points of the refined grid *)
Theorem C80_refinement_exact r d t w : refers2 r -> default_extent gx -> default_extent gy -> usable close (kd gx) (sz gx) -> usable close (kd gy) (sz gy) -> (d <= 2)%nat ->
  resolved2 gx gy d t w ->
  exists sx sy px py a, cells_of gx = Ok sx /\ cells_of gy = Ok sy /\ points sx = Ok px /\ points sy = Ok py /\ disc G d t w a /\
    form_Rf heap (MkForm d t r a) = Ok (map (fun f => mk2 (length py) (length px) (fun i j => f (nth j px 0) (nth i py 0))) w).
Proof.
  intros [EG Eh] Dx Dy Ux Uy Hd Hw. pose proof (works_good close gx Dx (usable_works close _ _ Ux)) as Gx. pose proof (works_good close gy Dy (usable_works close _ _ Uy)) as Gy.
  destruct (product_ok close gx gy Gx Gy) as (sx & sy & _ & Ex & Ey & _). destruct (has_points gx sx Dx Ux Ex) as [px Px]. destruct (has_points gy sy Dy Uy Ey) as [py Py].
  destruct (resolved_repr gx gy d t w Hd Hw) as (ls & Hr & Hl & L). destruct (T_val close gx gy G EG Gx Gy sx sy Ex Ey Dx Dy Ux Uy px py Px Py d t ls Hd Hl) as (T & ET & F).
  exists sx, sy, px, py, (pjs gx gy sx sy d t ls). repeat (split; [assumption|]). split; [now apply (disc_val close)|].
  unfold form_Rf. cbn [degree isprimal gref array]. rewrite Eh. cbn [grid_of2 gT]. rewrite ET. cbn [bind]. rewrite F. apply f_equal.
  assert (length px = rf gx) as Lx by (now apply (len_pts close gx sx)). assert (length py = rf gy) as Ly by (now apply (len_pts close gy sy)).
  unfold ref. rewrite map_map, Lx, Ly. clear - Hr. induction Hr as [|f l w ls [Hc Hf] Hr IH]; cbn [map]; [reflexivity|]. f_equal; [|exact IH]. apply mk2_ext. intros. unfold smp. now rewrite Hf.
Qed.
(** the wedge product of discretised forms is the discretised wedge product, on the refined grid's terms: if the product is fine *)
Theorem C80_wedge_exact r t d0 p0 w0 d1 p1 w1 : refers2 r -> default_extent gx -> default_extent gy -> usable close (kd gx) (sz gx) -> usable close (kd gy) (sz gy) -> (d0 + d1 <= 2)%nat ->
  resolved2 gx gy d0 p0 w0 -> resolved2 gx gy d1 p1 w1 -> fine2 gx gy (d0 + d1) (wedgef w0 w1) ->
  exists a b c, disc G d0 p0 w0 a /\ disc G d1 p1 w1 b /\ disc G (d0 + d1) t (wedgef w0 w1) c /\
    form_W heap t (MkForm d0 p0 r a) (MkForm d1 p1 r b) = Ok (MkForm (d0 + d1) t r c).
Proof.
  intros [EG Eh] Dx Dy Ux Uy Hd H0 H1 Hf. pose proof (works_good close gx Dx (usable_works close _ _ Ux)) as Gx. pose proof (works_good close gy Dy (usable_works close _ _ Uy)) as Gy.
  destruct (product_ok close gx gy Gx Gy) as (sx & sy & _ & Ex & Ey & _). destruct (has_points gx sx Dx Ux Ex) as [px Px]. destruct (has_points gy sy Dy Uy Ey) as [py Py].
  destruct (resolved_repr gx gy d0 p0 w0 ltac:(lia) H0) as (ls0 & Hr0 & Hl0 & L0). destruct (resolved_repr gx gy d1 p1 w1 ltac:(lia) H1) as (ls1 & Hr1 & Hl1 & L1). destruct (fine_repr gx gy (d0 + d1) _ Hd Hf) as (ls & Hr & Hl & L).
  exists (pjs gx gy sx sy d0 p0 ls0), (pjs gx gy sx sy d1 p1 ls1), (pjs gx gy sx sy (d0 + d1) t ls). split; [apply (disc_val close); auto; lia|]. split; [apply (disc_val close); auto; lia|]. split; [now apply (disc_val close)|].
  unfold form_W. cbn [degree isprimal gref array]. rewrite Nat.eqb_refl, Eh. cbn [negb grid_of2 gW]. rewrite (W_entry2 close gx gy (conj Gx Ux) (conj Gy Uy) G EG) by auto. cbn [bind].
  assert ((if direct d0 p0 d1 p1 t then np_bin Rmult else get_w2 (g2T G) (g2U G) d0 p0 d1 p1 t) (pjs gx gy sx sy d0 p0 ls0) (pjs gx gy sx sy d1 p1 ls1) = Ok (pjs gx gy sx sy (d0 + d1) t ls)) as ->; [|reflexivity].
  destruct (direct d0 p0 d1 p1 t) eqn:Ed.
  - unfold direct in Ed. apply andb_prop in Ed as [Ed E3]. apply andb_prop in Ed as [Ed E2]. apply andb_prop in Ed as [E0 E1]. apply eqb_prop in E0, E1. apply Nat.eqb_eq in E2, E3. subst p1 t d1 d0. clear Hf.
    cbn [ncomp Nat.eqb Nat.add] in *. destruct w0 as [|f [|]]; try discriminate. destruct w1 as [|g [|]]; try discriminate. cbn [wedgef map] in *.
    inversion Hr0 as [|? l0 ? z0 [C0 F0] Z0]; subst. inversion Z0; subst. inversion Hr1 as [|? l1 ? z1 [C1 F1] Z1]; subst. inversion Z1; subst. inversion Hr as [|? l2 ? z2 [C2 F2] Z2]; subst. inversion Z2; subst. cbn [pjs].
    rewrite <- (P_sep0 gx gy sx sy Ex Ey Gx Gy p0 l0 f), <- (P_sep0 gx gy sx sy Ex Ey Gx Gy p0 l1 g), <- (P_sep0 gx gy sx sy Ex Ey Gx Gy p0 l2 (mul f g)) by auto.
    unfold np_bin. rewrite !length_flat, Nat.eqb_refl. now rewrite flat_zip.
  - destruct (T_val close gx gy G EG Gx Gy sx sy Ex Ey Dx Dy Ux Uy px py Px Py d0 p0 ls0 ltac:(lia) Hl0) as (T & ET & F0).
    destruct (T_val close gx gy G EG Gx Gy sx sy Ex Ey Dx Dy Ux Uy px py Px Py d1 p1 ls1 ltac:(lia) Hl1) as (T' & ET' & F1).
    set (A := map (fun l => smp px py (sum_uv l)) ls0) in *. set (B := map (fun l => smp px py (sum_uv l)) ls1) in *.
    assert (length A = ncomp d0) as LA by (unfold A; rewrite map_length; exact (eq_trans (eq_sym (repr_length _ _ Hr0)) L0)). assert (length B = ncomp d1) as LB by (unfold B; rewrite map_length; exact (eq_trans (eq_sym (repr_length _ _ Hr1)) L1)).
    destruct (wcomp_val gx gy d0 d1 A B Hd LA LB) as (wf & Ew & Em).
    destruct (U_val close gx gy G EG Gx Gy sx sy Ex Ey Dx Dy Ux Uy px py Px Py (d0 + d1) t ls (wcomp d0 d1 A B) Hd Hl) as (U & EU & FU).
    { unfold A, B. clear - Hd Hr0 Hr1 Hr L0 L1. destruct d0 as [|[|[|d0]]], d1 as [|[|[|d1]]]; try lia; cbn [ncomp Nat.eqb] in L0, L1;
      destruct w0 as [|a0 [|a1 [|]]]; try discriminate L0;
      destruct w1 as [|b0 [|b1 [|]]]; try discriminate L1;
      cbn [wedgef map] in Hr; repeat match goal with H : repr [_] _ |- _ => apply repr1 in H as (? & -> & ? & ?) | H : repr [_; _] _ |- _ => apply repr2 in H as (? & ? & -> & ? & ? & ? & ?) end;
      cbn [map nth wcomp]; repeat first [apply Forall2_cons|apply Forall2_nil]; intros i j Hi Hj; unfold fmul, fsub, smp;
      repeat match goal with H : forall x y, _ = sum_uv ?l x y |- context [sum_uv ?l _ _] => rewrite <- H end; unfold mul; ring. }
    unfold get_w2. rewrite ET; cbn [bind]. rewrite F0; cbn [bind]. rewrite ET'; cbn [bind]. rewrite F1; cbn [bind]. rewrite Ew; cbn [bind]. rewrite Em; cbn [bind]. rewrite EU; cbn [bind]. exact FU.
Qed.
(** the contraction likewise *)
Theorem C80_contraction_exact r t p0 X d p w : refers2 r -> default_extent gx -> default_extent gy -> usable close (kd gx) (sz gx) -> usable close (kd gy) (sz gy) -> (1 <= d <= 2)%nat ->
  resolved2 gx gy 1 p0 X -> resolved2 gx gy d p w -> fine2 gx gy (d - 1) (contractf X w) ->
  exists a b c, disc G 1 p0 X a /\ disc G d p w b /\ disc G (d - 1) t (contractf X w) c /\
    form_C heap t (MkForm 1 p0 r a) (MkForm d p r b) = Ok (MkForm (d - 1) t r c).
Proof.
  intros [EG Eh] Dx Dy Ux Uy Hd H0 H1 Hf. pose proof (works_good close gx Dx (usable_works close _ _ Ux)) as Gx. pose proof (works_good close gy Dy (usable_works close _ _ Uy)) as Gy.
  destruct (product_ok close gx gy Gx Gy) as (sx & sy & _ & Ex & Ey & _). destruct (has_points gx sx Dx Ux Ex) as [px Px]. destruct (has_points gy sy Dy Uy Ey) as [py Py].
  destruct (resolved_repr gx gy 1 p0 X ltac:(lia) H0) as (ls0 & Hr0 & Hl0 & L0). destruct (resolved_repr gx gy d p w ltac:(lia) H1) as (ls1 & Hr1 & Hl1 & L1). destruct (fine_repr gx gy (d - 1) _ ltac:(lia) Hf) as (ls & Hr & Hl & L).
  exists (pjs gx gy sx sy 1 p0 ls0), (pjs gx gy sx sy d p ls1), (pjs gx gy sx sy (d - 1) t ls). split; [apply (disc_val close); auto; lia|]. split; [apply (disc_val close); auto; lia|]. split; [apply (disc_val close); auto; lia|].
  unfold form_C. cbn [degree isprimal gref array]. rewrite !Nat.eqb_refl, Eh. cbn [negb andb grid_of2 gC]. rewrite (C_entry2 close gx gy (conj Gx Ux) (conj Gy Uy) G EG) by auto. cbn [bind].
  assert (get_c2 (g2T G) (g2U G) p0 d p t (pjs gx gy sx sy 1 p0 ls0) (pjs gx gy sx sy d p ls1) = Ok (pjs gx gy sx sy (d - 1) t ls)) as ->; [|reflexivity].
  destruct (T_val close gx gy G EG Gx Gy sx sy Ex Ey Dx Dy Ux Uy px py Px Py 1 p0 ls0 ltac:(lia) Hl0) as (T & ET & F0).
  destruct (T_val close gx gy G EG Gx Gy sx sy Ex Ey Dx Dy Ux Uy px py Px Py d p ls1 ltac:(lia) Hl1) as (T' & ET' & F1).
  set (A := map (fun l => smp px py (sum_uv l)) ls0) in *. set (B := map (fun l => smp px py (sum_uv l)) ls1) in *.
  assert (length A = ncomp 1) as LA by (unfold A; rewrite map_length; exact (eq_trans (eq_sym (repr_length _ _ Hr0)) L0)). assert (length B = ncomp d) as LB by (unfold B; rewrite map_length; exact (eq_trans (eq_sym (repr_length _ _ Hr1)) L1)).
  destruct (U_val close gx gy G EG Gx Gy sx sy Ex Ey Dx Dy Ux Uy px py Px Py (d - 1) t ls (ccomp d A B) ltac:(lia) Hl) as (U & EU & FU).
  { unfold A, B. clear - Hd Hr0 Hr1 Hr L0 L1. destruct d as [|[|[|d]]]; try lia; cbn [ncomp Nat.eqb] in L0, L1; destruct X as [|a0 [|a1 [|]]]; try discriminate L0;
    destruct w as [|b0 [|b1 [|]]]; try discriminate L1; cbn [contractf] in Hr;
    repeat match goal with H : repr [_] _ |- _ => apply repr1 in H as (? & -> & ? & ?) | H : repr [_; _] _ |- _ => apply repr2 in H as (? & ? & -> & ? & ? & ? & ?) end;
    cbn [map nth ccomp]; repeat first [apply Forall2_cons|apply Forall2_nil]; intros i j Hi Hj; unfold fmul, fadd, fopp, smp;
    repeat match goal with H : forall x y, _ = sum_uv ?l x y |- context [sum_uv ?l _ _] => rewrite <- H end; ring. }
  unfold get_c2. rewrite ET; cbn [bind]. rewrite F0; cbn [bind]. rewrite ET'; cbn [bind]. rewrite F1; cbn [bind].
  assert (exists c l, nth_error (contraction_2d missing2) d = Some c /\ c (map Ok (ref gx gy A)) (map Ok (ref gx gy B)) = Comps l /\ mapM (fun c => c) l = Ok (ref gx gy (ccomp d A B))) as (c & l & E1 & E2 & E3).
  { clearbody A B. destruct A as [|x0 [|x1 [|]]]; try discriminate LA. destruct d as [|[|[|d]]]; try lia; cbn [ncomp Nat.eqb] in LB.
    - destruct B as [|y0 [|y1 [|]]]; try discriminate LB. eexists _, _. split; [reflexivity|]. split; [reflexivity|]. cbn [ref map nth ccomp mapM bind pmul psub padd popp Arr2Ops]; rewrite ?bin2_mk2; cbn [bind]; rewrite ?bin2_mk2; reflexivity.
    - destruct B as [|y0 [|]]; try discriminate LB. eexists _, _. split; [reflexivity|]. split; [reflexivity|]. cbn [ref map nth ccomp mapM bind pmul psub padd popp Arr2Ops]; rewrite ?neg2_mk2; cbn [bind]; rewrite ?bin2_mk2; reflexivity. }
  rewrite E1; cbn [bind]. rewrite E2. rewrite E3; cbn [bind]. rewrite EU; cbn [bind]. exact FU.
Qed.
End Theorems.

(** ** when the products are fine: except for a primal 0-form times a dual form on a Chebyshev factor *)
Lemma poly_powmul i e q : polynomial e q -> polynomial (i + e) (fun x => x ^ i * q x).
Proof.
  intro H. induction i as [|i IH]; cbn [pow Nat.add]; [apply (poly_ext e _ q); auto; intro; ring|]. apply (poly_ext (S (i + e)) _ (fun x => x * (x ^ i * q x))); [intro; ring|]. now apply poly_mulx.
Qed.
Lemma poly_mul d e p q : polynomial d p -> polynomial e q -> polynomial (d + e) (fun x => p x * q x).
Proof.
  intros [a Ha] H. apply (poly_ext (d + e) _ (fun x => Rsum (S d) (fun i => a i * (x ^ i * q x)))).
  { intro x. rewrite Ha, <- Rsum_scal_r. apply Rsum_ext. intros. ring. }
  apply poly_Rsum. intros i Hi. apply poly_scal. apply (poly_mono (i + e)); [lia|]. now apply poly_powmul.
Qed.
Lemma fine_mul close g d0 p0 d1 p1 u v e : usable close (kd g) (sz g) -> (d0 <= 1)%nat -> (d1 <= 1)%nat -> resolved (kd g) (sz g) d0 p0 u -> resolved (kd g) (sz g) d1 p1 v ->
  (e = 0%nat \/ (d0 + d1 <= 1)%nat /\ (kd g = Chebyshev -> (d0 = 0%nat -> d1 = 1%nat -> p0 = true -> p1 = true) /\ (d1 = 0%nat -> d0 = 1%nat -> p1 = true -> p0 = true) /\ (d0 + d1 = 1)%nat)) ->
  fine g e (fun x => u x * v x).
Proof.
  intros Us Hd0 Hd1 Hu Hv He. split; [intro x; apply (continuous_mult u v); [apply (res_cont _ _ _ _ _ _ Hu)|apply (res_cont _ _ _ _ _ _ Hv)]|].
  destruct He as [->|[Hd Hp]]; [now left|right]. destruct g as [k n a b]. cbn [kd sz] in *. destruct k; cbn [usable resolved] in *; [|contradiction|].
  - destruct Hu as (K & HK & Hu), Hv as (L & HL & Hv). change (grid_N Periodic n d0 p0) with n in HK. change (grid_N Periodic n d1 p1) with n in HL. exists (K + L)%nat. split; [lia|]. now apply td_mult.
  - destruct Us as [Hn _]. destruct (Hp eq_refl) as (H1 & H2 & H3). unfold resolved_chebyshev in *. apply (poly_mono (grid_N Chebyshev n d0 p0 - 1 + (grid_N Chebyshev n d1 p1 - 1))); [|now apply poly_mul].
    destruct d0 as [|[|]], d1 as [|[|]]; try lia; destruct p0, p1; cbn [grid_N sizes_interval]; try lia; exfalso; (discriminate (H1 eq_refl eq_refl eq_refl) || discriminate (H2 eq_refl eq_refl eq_refl)).
Qed.
Lemma sep_mul (A B A' B' A2 B2 : (R -> R) -> Prop) f g : (forall u v, A u -> A' v -> A2 (fun x => u x * v x)) -> (forall u v, B u -> B' v -> B2 (fun x => u x * v x)) ->
  separable A B f -> separable A' B' g -> separable A2 B2 (mul f g).
Proof.
  intros HA HB (l & Hl & El) (m & Hm & Em). exists (mull l m). split.
  - intros u v K. apply in_mull in K as (u1 & v1 & u2 & v2 & K1 & K2 & -> & ->). destruct (Hl _ _ K1), (Hm _ _ K2). auto.
  - intros x y. unfold mul. now rewrite sum_mull, El, Em.
Qed.
Lemma sep_ext A B f g : (forall x y, f x y = g x y) -> separable A B f -> separable A B g.
Proof. intros H (l & Hl & El). exists l. split; auto. intros. now rewrite <- H. Qed.
Lemma sep_lin (A B : (R -> R) -> Prop) f g s : (forall u, A u -> A (fun x => s * u x)) -> separable A B f -> separable A B g -> separable A B (fun x y => f x y + s * g x y).
Proof.
  intros HA (l & Hl & El) (m & Hm & Em). exists (l ++ map (fun p => (fun x => s * fst p x, snd p)) m). split.
  - intros u v K. apply in_app_or in K as [K|K]; [now apply Hl|]. apply in_map_iff in K as ([u' v'] & E & K). cbn [fst snd] in E. injection E as <- <-. destruct (Hm _ _ K). auto.
  - intros x y. rewrite sum_app, El, Em. f_equal. clear. induction m as [|[u v] m IH]; cbn [map sum_uv fst snd]; [ring|]. rewrite <- IH. ring.
Qed.
Lemma fine_scal g d u s : fine g d u -> fine g d (fun x => s * u x).
Proof.
  intros [Hc H]. split; [intro x; apply (continuous_scal_r s u); apply Hc|]. destruct H as [H|H]; [now left|right]. destruct (kd g); [|contradiction|].
  - destruct H as (K & HK & H). exists K. split; auto. now apply td_scal.
  - now apply poly_scal.
Qed.
Theorem C80_wedge_fine close gx gy d0 p0 w0 d1 p1 w1 : usable close (kd gx) (sz gx) -> usable close (kd gy) (sz gy) -> (d0 + d1 <= 2)%nat ->
  resolved2 gx gy d0 p0 w0 -> resolved2 gx gy d1 p1 w1 ->
  p0 = p1 \/ (kd gx = Periodic /\ kd gy = Periodic) \/ (d0 = 0%nat /\ p0 = false) \/ (d1 = 0%nat /\ p1 = false) ->
  fine2 gx gy (d0 + d1) (wedgef w0 w1).
Proof.
  intros Ux Uy Hd H0 H1 Hp.
  assert (forall dx dy ex ey e0 e1 f g, (dx <= 1)%nat -> (dy <= 1)%nat -> (ex <= 1)%nat -> (ey <= 1)%nat -> e0 = (dx + ex)%nat -> e1 = (dy + ey)%nat -> (e0 <= 1)%nat -> (e1 <= 1)%nat ->
    d0 = (dx + dy)%nat -> d1 = (ex + ey)%nat -> res2 gx gy dx dy p0 f -> res2 gx gy ex ey p1 g -> separable (fine gx e0) (fine gy e1) (mul f g)) as M.
  { intros dx dy ex ey e0 e1 f g Hdx Hdy Hex Hey -> -> I0 I1 -> -> Hf Hg. refine (sep_mul _ _ _ _ _ _ f g _ _ Hf Hg); intros u v Hu Hv; [apply (fine_mul close _ dx p0 ex p1 u v); auto|apply (fine_mul close _ dy p0 ey p1 u v); auto].
    - destruct (dx + ex)%nat as [|[|]] eqn:E; [now left| |lia]. right. split; [lia|]. intro Ek. destruct Hp as [->|[[K _]|[[K ->]|[K ->]]]]; repeat split; auto; try congruence; intros; try discriminate; try lia.
    - destruct (dy + ey)%nat as [|[|]] eqn:E; [now left| |lia]. right. split; [lia|]. intro Ek. destruct Hp as [->|[[_ K]|[[K ->]|[K ->]]]]; repeat split; auto; try congruence; intros; try discriminate; try lia. }
  assert (forall f g, mul f g = fun x y => f x y * g x y) as Em by reflexivity.
  assert (forall f g x y, mul f g x y = mul g f x y) as Ec by (intros; unfold mul; ring).
  destruct d0 as [|[|[|d0]]], d1 as [|[|[|d1]]]; try lia; cbn [resolved2] in H0, H1;
  destruct w0 as [|a0 [|a1 [|]]]; try contradiction; destruct w1 as [|b0 [|b1 [|]]]; try contradiction; cbn [wedgef map Nat.add fine2].
  - apply (M 0 0 0 0)%nat; auto.
  - destruct H1. split; [apply (M 0 0 1 0)%nat; auto|apply (M 0 0 0 1)%nat; auto].
  - apply (M 0 0 1 1)%nat; auto.
  - destruct H0. split; (eapply sep_ext; [apply Ec|]); [apply (M 1 0 0 0)%nat; auto|apply (M 0 1 0 0)%nat; auto].
  - destruct H0 as [A0 A1], H1 as [B0 B1]. apply (sep_ext _ _ (fun x y => mul a0 b1 x y + (-1) * mul a1 b0 x y)); [intros; unfold mul; ring|]. apply sep_lin; [intros; now apply fine_scal| |].
    + apply (M 1 0 0 1)%nat; auto.
    + apply (M 0 1 1 0)%nat; auto.
  - apply (M 1 1 0 0)%nat; auto.
Qed.
Theorem C80_contraction_fine close gx gy p0 X d p w : usable close (kd gx) (sz gx) -> usable close (kd gy) (sz gy) -> (1 <= d <= 2)%nat ->
  resolved2 gx gy 1 p0 X -> resolved2 gx gy d p w -> d = 1%nat \/ p0 = p \/ (kd gx = Periodic /\ kd gy = Periodic) \/ p0 = false ->
  fine2 gx gy (d - 1) (contractf X w).
Proof.
  intros Ux Uy Hd H0 H1 Hp. cbn [resolved2] in H0. destruct X as [|X0 [|X1 [|]]]; try contradiction. destruct H0 as [HX0 HX1]. destruct d as [|[|[|d]]]; try lia; cbn [resolved2] in H1.
  - destruct w as [|a0 [|a1 [|]]]; try contradiction. destruct H1 as [A0 A1]. cbn [contractf Nat.sub fine2].
    apply (sep_ext _ _ (fun x y => mul X0 a0 x y + 1 * mul X1 a1 x y)); [intros; unfold mul; ring|]. apply sep_lin; [intros; now apply fine_scal| |].
    + refine (sep_mul _ _ _ _ _ _ _ _ _ _ HX0 A0); intros u v Hu Hv; [apply (fine_mul close _ 1 p0 1 p)|apply (fine_mul close _ 0 p0 0 p)]; auto.
    + refine (sep_mul _ _ _ _ _ _ _ _ _ _ HX1 A1); intros u v Hu Hv; [apply (fine_mul close _ 0 p0 0 p)|apply (fine_mul close _ 1 p0 1 p)]; auto.
  - destruct w as [|f [|]]; try contradiction. cbn [contractf Nat.sub fine2].
    assert (p0 = p \/ (kd gx = Periodic /\ kd gy = Periodic) \/ p0 = false) as Hp' by (destruct Hp as [K|K]; [discriminate|exact K]). split.
    + apply (sep_ext _ _ (fun x y => 0 * mul X1 f x y + (-1) * mul X1 f x y)); [intros; unfold mul; ring|].
      assert (separable (fine gx 1) (fine gy 0) (mul X1 f)) as S.
      { refine (sep_mul _ _ _ _ _ _ _ _ _ _ HX1 H1); intros u v Hu Hv; [apply (fine_mul close _ 0 p0 1 p)|apply (fine_mul close _ 1 p0 1 p)]; auto.
        right. split; [lia|]. intro Ek. destruct Hp' as [->|[[K _] | -> ]]; repeat split; auto; try congruence; intros; discriminate. }
      apply (sep_ext _ _ (fun x y => mul X1 f x y + (-2) * mul X1 f x y)); [intros; unfold mul; ring|]. apply sep_lin; auto. intros; now apply fine_scal.
    + refine (sep_mul _ _ _ _ _ _ _ _ _ _ HX0 H1); intros u v Hu Hv; [apply (fine_mul close _ 1 p0 1 p)|apply (fine_mul close _ 0 p0 1 p)]; auto.
      right. split; [lia|]. intro Ek. destruct Hp' as [->|[[_ K] | -> ]]; repeat split; auto; try congruence; intros; discriminate.
Qed.

(** ** C81: the Laplacian *)
Lemma sep_cont (A B : (R -> R) -> Prop) f : (forall u, A u -> cs u) -> (forall v, B v -> cs v) -> separable A B f -> cont2 f.
Proof.
  intros HA HB (l & Hl & El) x y. apply (continuity_2d_pt_ext (sum_uv l)); [intros; now rewrite El|]. clear El. induction l as [|[u v] l IH].
  - apply (continuity_2d_pt_const x y 0).
  - destruct (Hl u v) as [Hu Hv]; [now left|]. cbn [sum_uv]. apply continuity_2d_pt_plus; [|apply IH; intros; apply Hl; now right].
    apply continuity_2d_pt_mult.
    + apply (continuity_1d_2d_pt_comp u (fun x y => x)); [apply continuity_pt_filterlim, HA; auto|apply continuity_2d_pt_id1].
    + apply (continuity_1d_2d_pt_comp v (fun x y => y)); [apply continuity_pt_filterlim, HB; auto|apply continuity_2d_pt_id2].
Qed.
Lemma sep_dx (A B A' : (R -> R) -> Prop) f : (forall u, A u -> exists u', (forall x, is_derive u x (u' x)) /\ A' u') -> separable A B f -> exists fx, partial_x f fx /\ separable A' B fx.
Proof.
  intros HA (l & Hl & El). assert (exists m, (forall u v, In (u, v) m -> A' u /\ B v) /\ partial_x (sum_uv l) (sum_uv m)) as (m & Hm & Em).
  { clear El. induction l as [|[u v] l IH].
    - exists []. split; [intros _ _ []|]. intros x y. exact (@is_derive_const R_AbsRing R_NormedModule 0 x).
    - destruct IH as (m & Hm & Em); [intros; apply Hl; now right|]. destruct (Hl u v) as [Hu Hv]; [now left|]. destruct (HA u Hu) as (u' & Hd & Hu'). exists ((u', v) :: m). split.
      + intros a b [E|K]; [injection E as <- <-; auto|auto].
      + intros x y. cbn [sum_uv]. apply (is_derive_plus (fun x => u x * v y) (fun x => sum_uv l x y)); [|apply Em].
        apply (is_derive_ext (fun x => scal (v y) (u x))); [intro; apply Rmult_comm|]. rewrite Rmult_comm. apply (is_derive_scal u x (v y) (u' x)). apply Hd. }
  exists (sum_uv m). split; [|exists m; auto]. intros x y. apply (is_derive_ext (fun x => sum_uv l x y)); [intro; symmetry; apply El|apply Em].
Qed.
Lemma sep_swap (A B : (R -> R) -> Prop) f : separable A B f -> separable B A (fun x y => f y x).
Proof.
  intros (l & Hl & El). exists (map (fun p => (snd p, fst p)) l). split.
  - intros u v K. apply in_map_iff in K as ([u' v'] & E & K). cbn [fst snd] in E. injection E as <- <-. destruct (Hl _ _ K). auto.
  - intros x y. rewrite El. clear. induction l as [|[u v] l IH]; cbn [map sum_uv fst snd]; [reflexivity|]. rewrite IH. ring.
Qed.
Lemma sep_dy (A B B' : (R -> R) -> Prop) f : (forall u, B u -> exists u', (forall x, is_derive u x (u' x)) /\ B' u') -> separable A B f -> exists fy, partial_y f fy /\ separable A B' fy.
Proof.
  intros HB H. apply sep_swap in H. destruct (sep_dx B A B' _ HB H) as (g & Hg & Sg). exists (fun x y => g y x). split; [intros x y; apply (Hg y x)|now apply sep_swap in Sg].
Qed.
Lemma partial_x_unique f g h x y : partial_x f g -> partial_x f h -> g x y = h x y.
Proof. intros Hg Hh. rewrite <- (is_derive_unique _ _ _ (Hg x y)). apply (is_derive_unique _ _ _ (Hh x y)). Qed.
Lemma partial_y_unique f g h x y : partial_y f g -> partial_y f h -> g x y = h x y.
Proof. intros Hg Hh. rewrite <- (is_derive_unique _ _ _ (Hg x y)). apply (is_derive_unique _ _ _ (Hh x y)). Qed.
(** the derivative of a function resolved by primal 0-forms is resolved by primal 1-forms, the second derivative by dual 1-forms *)
Lemma res_deriv k n u : k <> Regular -> resolved k n 0 true u -> exists u', (forall x, is_derive u x (u' x)) /\ resolved k n 1 true u'.
Proof.
  intros Hk H. destruct k; [|congruence|]; cbn [resolved] in *.
  - destruct H as (K & HK & H). destruct (td_deriv K u H) as (u' & H' & D). exists u'. split; auto. exists K. auto.
  - unfold resolved_chebyshev in *. cbn [grid_N sizes_interval] in *. assert (forall x, exists v, is_derive u x v) as Ed.
    { intro x. destruct H as [a Ha]. exists (Rsum (S (n - 1)) (fun i => a i * (INR i * x ^ pred i))). apply (is_derive_ext (fun x => Rsum (S (n - 1)) (fun i => a i * x ^ i))); [intro; symmetry; apply Ha|].
      apply (is_derive_Rsum (S (n - 1)) (fun i t => a i * t ^ i) (fun i t => a i * (INR i * t ^ pred i))). intros i _. auto_derive; auto; ring. }
    exists (Derive u). assert (forall x, is_derive u x (Derive u x)) as D by (intro x; destruct (Ed x) as [v Hv]; rewrite (is_derive_unique _ _ _ Hv); exact Hv). split; auto.
    apply (poly_derivative (fun _ => grid_1d never Periodic 1) (n - 1) u); auto.
Qed.
Lemma res_weaken k n u : k <> Regular -> resolved k n 1 true u -> resolved k n 0 true u /\ resolved k n 1 false u.
Proof.
  intros Hk H. destruct k; [|congruence|]; cbn [resolved] in *; [now split|]. unfold resolved_chebyshev in *. cbn [grid_N sizes_interval] in *. split; (apply (poly_mono (n - 1 - 1)); auto; lia).
Qed.
Lemma res_periodic n d t u x : resolved Periodic n d t u -> u (x + 2 * PI) = u x.
Proof. intros (K & _ & H). now apply (td_periodic K). Qed.
Lemma sep_periodic_x gx gy dx dy t f : default_extent gx -> res2 gx gy dx dy t f -> periodic_x gx f.
Proof.
  intros D (l & Hl & El) Ek x y. unfold default_extent in D. rewrite Ek in D. destruct D as [-> ->]. rewrite !El. clear El. induction l as [|[u v] l IH]; cbn [sum_uv]; [reflexivity|].
  rewrite IH by (intros; apply Hl; now right). destruct (Hl u v) as [Hu _]; [now left|]. rewrite Ek in Hu. replace (x + (2 * PI - 0)) with (x + 2 * PI) by ring. now rewrite (res_periodic _ _ _ _ _ Hu).
Qed.
Lemma sep_periodic_y gx gy dx dy t f : default_extent gy -> res2 gx gy dx dy t f -> periodic_y gy f.
Proof.
  intros D (l & Hl & El) Ek x y. unfold default_extent in D. rewrite Ek in D. destruct D as [-> ->]. rewrite !El. clear El. induction l as [|[u v] l IH]; cbn [sum_uv]; [reflexivity|].
  rewrite IH by (intros; apply Hl; now right). destruct (Hl u v) as [_ Hu]; [now left|]. rewrite Ek in Hu. replace (y + (2 * PI - 0)) with (y + 2 * PI) by ring. now rewrite (res_periodic _ _ _ _ _ Hu).
Qed.
Lemma periodic_wraps_x g f : periodic_x g f -> wraps_x g f.
Proof. intros H Ek y. rewrite <- (H Ek (lo g) y). f_equal. ring. Qed.
Lemma periodic_wraps_y g f : periodic_y g f -> wraps_y g f.
Proof. intros H Ek y. rewrite <- (H Ek y (lo g)). f_equal. ring. Qed.
Lemma disc_get G d t w P : tget (g2P G) (d, t) = Ok P -> forall a, P w = Ok a -> disc G d t w a.
Proof. intros E a F. exists P. auto. Qed.
Lemma form_D2 close heap gx gy G r d t D a b : refers2 close heap gx gy G r -> tget (g2D G) (d, t) = Ok D -> D a = Ok b -> form_D heap (MkForm d t r a) = Ok (ZForm (MkForm (d + 1) t r b)).
Proof.
  intros [_ Eh] E F. unfold form_D. cbn [degree isprimal gref array]. rewrite Eh. cbn [grid_of2 gD].
  pose proof (tget_map (fun (_ : key) (o : op1) f => bind (o f) (fun a => Ok (RArr a))) (g2D G) (d, t)) as M. cbn beta in M. rewrite E in M. unfold op1 in M. rewrite M. cbn [bind]. rewrite F. reflexivity.
Qed.
(** * d * d f = f_xx + f_yy on primal 0-forms; where a factor is not periodic, the normal derivative on the boundary is added to the
    2-form before the last Hodge star *)
Theorem C81_laplacian close heap gx gy G r f fx fy fxx fyy : refers2 close heap gx gy G r -> default_extent gx -> default_extent gy ->
  works close (kd gx) (sz gx) -> works close (kd gy) (sz gy) -> kd gx <> Regular -> kd gy <> Regular ->
  resolved2 gx gy 0 true [f] -> partial_x f fx -> partial_y f fy -> partial_x fx fxx -> partial_y fy fyy ->
  exists a z1 z2 z3 BC bc z4 c, disc G 0 true [f] a /\
    form_D heap (MkForm 0 true r a) = Ok (ZForm z1) /\ form_H heap z1 = Ok z2 /\ form_D heap z2 = Ok (ZForm z3) /\
    tget (g2BC G) (2%nat, false) = Ok BC /\ BC [fun x y => - fy x y; fx] = Ok bc /\ binary Badd z3 (OArr bc) = Ok z4 /\
    form_H heap z4 = Ok (MkForm 0 true r c) /\ disc G 0 true [fun x y => fxx x y + fyy x y] c /\
    (kd gx = Periodic -> kd gy = Periodic -> z4 = z3).
Proof.
  intros Hr Dx Dy Wx Wy Kx Ky Hf Hfx Hfy Hfxx Hfyy. pose proof Hr as [EG Eh]. pose proof (works_good close gx Dx Wx) as Gx. pose proof (works_good close gy Dy Wy) as Gy. cbn [resolved2] in Hf.
  pose proof (fun u => res_deriv (kd gx) (sz gx) u Kx) as Rdx. pose proof (fun u => res_deriv (kd gy) (sz gy) u Ky) as Rdy.
  assert (res2 gx gy 1 0 true fx) as Sfx. { destruct (sep_dx _ _ _ f Rdx Hf) as (g & Hg & Sg). apply (sep_ext _ _ g); auto. intros. now apply (partial_x_unique f). }
  assert (res2 gx gy 0 1 true fy) as Sfy. { destruct (sep_dy _ _ _ f Rdy Hf) as (g & Hg & Sg). apply (sep_ext _ _ g); auto. intros. now apply (partial_y_unique f). }
  assert (forall dx dy dx' dy' t t' g, (forall u, resolved (kd gx) (sz gx) dx t u -> resolved (kd gx) (sz gx) dx' t' u) -> (forall u, resolved (kd gy) (sz gy) dy t u -> resolved (kd gy) (sz gy) dy' t' u) -> res2 gx gy dx dy t g -> res2 gx gy dx' dy' t' g) as SM.
  { intros dx dy dx' dy' t t' g A B. apply sep_mono; auto. }
  assert (forall u, resolved (kd gx) (sz gx) 1 true u -> resolved (kd gx) (sz gx) 0 true u) as W0x by (intros u H; now apply res_weaken). assert (forall u, resolved (kd gy) (sz gy) 1 true u -> resolved (kd gy) (sz gy) 0 true u) as W0y by (intros u H; now apply res_weaken).
  assert (res2 gx gy 1 0 true fxx) as Sfxx. { destruct (sep_dx _ _ _ fx (fun u H => Rdx u (W0x u H)) Sfx) as (g & Hg & Sg). apply (sep_ext _ _ g); auto. intros. now apply (partial_x_unique fx). }
  assert (res2 gx gy 0 1 true fyy) as Sfyy. { destruct (sep_dy _ _ _ fy (fun u H => Rdy u (W0y u H)) Sfy) as (g & Hg & Sg). apply (sep_ext _ _ g); auto. intros. now apply (partial_y_unique fy). }
  destruct (sep_dy _ _ _ fx Rdy Sfx) as (fxy & Hfxy & Sfxy). destruct (sep_dx _ _ _ fy Rdx Sfy) as (fyx & Hfyx & Sfyx).
  assert (forall dx dy t g, res2 gx gy dx dy t g -> cont2 g) as CC by (intros dx dy t g; apply sep_cont; intros u Hu z; apply (res_cont _ _ _ _ _ _ Hu)).
  assert (forall g, cont2 g -> cont2 (fun x y => - g x y)) as CN by (intros g Hg x y; apply continuity_2d_pt_opp; apply Hg).
  assert (C1_with f fx fy) as C1 by (split; [assumption|split; [assumption|split; eapply CC; eassumption]]).
  assert (C1_with fx fxx fxy) as C2 by (split; [assumption|split; [assumption|split; eapply CC; eassumption]]).
  assert (C1_with (fun x y => - fy x y) (fun x y => - fyx x y) (fun x y => - fyy x y)) as C3.
  { split; [|split; [|split; apply CN; eapply CC; eauto]]; intros x y; [apply (is_derive_opp (fun x => fy x y)); apply Hfyx|apply (is_derive_opp (fun y => fy x y)); apply Hfyy]. }
  pose proof (sep_periodic_x gx gy 0 0 true f Dx Hf) as Pfx. pose proof (sep_periodic_y gx gy 0 0 true f Dy Hf) as Pfy.
  destruct (C45_stokes0_primal close gx gy G f fx fy Gx Gy EG C1 (periodic_wraps_x _ _ Pfx) (periodic_wraps_y _ _ Pfy)) as (P0 & P1 & D0 & u & v & E0 & E1 & ED0 & F0 & F1 & FD0).
  destruct (C80_hodge_exact close heap gx gy G r 1 true [fx; fy] Hr Dx Dy Wx Wy ltac:(lia) (conj Sfx Sfy)) as (v' & w & Dv & Dw & EH).
  pose proof (disc_fun G 1 true _ v' v Dv (disc_get G 1 true _ P1 E1 v F1)) as ->. cbn [star Nat.sub negb] in *.
  assert (periodic_y gy (fun x y => - fy x y)) as Pn by (intros Ek x y; rewrite (sep_periodic_y gx gy 0 1 true fy Dy Sfy Ek x y); reflexivity).
  pose proof (sep_periodic_x gx gy 1 0 true fx Dx Sfx) as Px.
  destruct (C45_stokes1_dual close gx gy G (fun x y => - fy x y) (fun x y => - fyx x y) (fun x y => - fyy x y) fx fxx fxy Gx Gy EG C3 C2 Pn Px) as (Q1 & Q2 & D1 & BC & w' & q & z & b & A1 & A2 & A3 & A4 & A5 & A6 & A7 & A8 & A9 & A10).
  pose proof (disc_fun G 1 false _ w' w (disc_get G 1 false _ Q1 A1 w' A5) Dw) as ->.
  assert (res2 gx gy 1 1 false (fun x y => fxx x y + fyy x y)) as Slap.
  { apply (sep_ext _ _ (fun x y => fxx x y + 1 * fyy x y)); [intros; ring|]. apply sep_lin.
    - intros u0 Hu0. destruct (kd gx); cbn [resolved] in *; [|congruence|].
      + destruct Hu0 as (K & HK & Hu0). exists K. split; auto. now apply td_scal.
      + now apply poly_scal.
    - revert Sfxx. apply SM; intros u0 Hu0; [now apply res_weaken|]. revert Hu0. destruct (kd gy); auto; congruence.
    - revert Sfyy. apply SM; intros u0 Hu0; [|now apply res_weaken]. revert Hu0. destruct (kd gx); auto; congruence. }
  destruct (C80_hodge_exact close heap gx gy G r 2 false [fun x y => fxx x y + fyy x y] Hr Dx Dy Wx Wy ltac:(lia) Slap) as (q' & c & Dq & Dc & EH2). cbn [star Nat.sub negb] in *.
  assert (q' = q) as ->. { apply (disc_fun G 2 false [fun x y => fxx x y + fyy x y]); auto. apply (disc_get G 2 false _ Q2 A2). rewrite <- A6. do 2 f_equal. do 2 (apply functional_extensionality; intro). ring. }
  exists u, (MkForm 1 true r v), (MkForm 1 false r w), (MkForm 2 false r z), BC, b, (MkForm 2 false r q), c.
  split; [apply (disc_get G 0 true _ P0 E0 u F0)|]. split; [apply (form_D2 close heap gx gy G r 0 true D0); auto|]. split; [exact EH|]. split; [apply (form_D2 close heap gx gy G r 1 false D1); auto|].
  split; [exact A4|]. split; [exact A8|]. split; [|split; [exact EH2|split; [exact Dc|]]].
  - unfold binary. cbn [bop_fn bind degree isprimal gref array]. unfold np_bin. rewrite A9, Nat.eqb_refl. cbn [bind]. rewrite <- A10. reflexivity.
  - intros Ekx Eky. f_equal. rewrite <- A10. destruct (product_ok close gx gy Gx Gy) as (sx & sy & G' & Ex & Ey & E & _ & _ & _ & _ & _ & HB & _). rewrite EG in E. injection E as <-.
    destruct (B2_flat gx gy sx sy Gx Gy Ex Ey (fun x y => - fy x y) fx) as (b' & Eb & Hb). rewrite HB in A4. rewrite A4 in Eb. injection Eb as <-. rewrite A8 in Hb. injection Hb as Hb.
    rewrite (flat_zero _ _ _) in Hb.
    + subst b. rewrite repeat_length in A9. rewrite <- A9. clear. unfold vadd. induction z as [|x z IH]; cbn [length repeat zipw]; [reflexivity|]. rewrite IH. f_equal. change nadd with Rplus. ring.
    + intros i j Hi Hj. cbv zeta. destruct (mask_periodic gx sx j Gx Ex Ekx Hj) as [M1 M2]. destruct (mask_periodic gy sy i Gy Ey Eky Hi) as [M3 M4].
      rewrite !when_Reqb_neq by assumption. ring.
Qed.

From Verif Require Props.Grid2.
(** ** instances on the product of the periodic and the Chebyshev grid with 3 points: f = sin(x) y^2, w = sin(x) dx + sin(x) dy *)
Lemma sep1 (A B : (R -> R) -> Prop) u v : A u -> B v -> separable A B (fun x y => u x * v y).
Proof. intros HA HB. exists [(u, v)]. split; [|intros; cbn; ring]. intros ? ? [E|[]]. injection E as <- <-. auto. Qed.
Lemma che_works : works never Chebyshev 3 /\ usable never Chebyshev 3.
Proof. split; (split; [lia|left; intros ? ? E; discriminate E]). Qed.
Definition fi (x y : R) : R := sin x * y ^ 2.
Definition wi : list (R -> R -> R) := [fun x y => sin x * 1; fun x y => sin x * 1].
Lemma fi_resolved t : t = true -> resolved2 per3 che3 0 t [fi].
Proof. intros ->. apply (sep1 _ _ sin (fun y => y ^ 2)); [now apply sin_resolved|exact sqr_poly]. Qed.
Lemma wi_resolved t : resolved2 per3 che3 1 t wi.
Proof. split; apply (sep1 _ _ sin (fun _ => 1)); try (now apply sin_resolved); destruct t; apply poly_const. Qed.
Example C80_instance : exists G a b c e h, product never per3 che3 = Ok G /\ let heap := fun _ : nat => grid_of2 G in
  disc G 0 true [fi] a /\ disc G 1 true wi b /\
  disc G 1 false (star wi) h /\ form_H heap (MkForm 1 true 0 b) = Ok (MkForm 1 false 0 h) /\
  disc G 1 false [fun x y => fi x y * (sin x * 1); fun x y => fi x y * (sin x * 1)] c /\ form_W heap false (MkForm 0 true 0 a) (MkForm 1 true 0 b) = Ok (MkForm 1 false 0 c) /\
  disc G 0 true [fun x y => sin x * 1 * (sin x * 1) + sin x * 1 * (sin x * 1)] e /\ form_C heap true (MkForm 1 true 0 b) (MkForm 1 true 0 b) = Ok (MkForm 0 true 0 e).
Proof.
  destruct che_works as [Wc Uc]. assert (works never Periodic 3 /\ usable never Periodic 3) as [Wp Up] by (cbn; lia).
  assert (good per3 /\ good che3) as [Gp Gc] by (split; split; cbn; try lia; pose proof PI_RGT_0; lra).
  destruct (Props.Grid2.C46_product_exists never per3 che3 Gp Gc) as (G & EG). exists G.
  assert (refers2 never (fun _ => grid_of2 G) per3 che3 G 0) as HR by (split; auto).
  assert (default_extent per3 /\ default_extent che3) as [Dp Dc] by (split; split; reflexivity).
  destruct (C80_hodge_exact never _ per3 che3 G 0 1 true wi HR Dp Dc Wp Wc ltac:(lia) (wi_resolved true)) as (b & h & Eb & Eh & Hh).
  destruct (C80_wedge_exact never _ per3 che3 G 0 false 0 true [fi] 1 true wi HR Dp Dc Up Uc ltac:(lia) (fi_resolved _ eq_refl) (wi_resolved true)) as (a & b' & c & Ea & Eb' & Ec & Hc).
  { apply (C80_wedge_fine never) with (p0 := true) (p1 := true); auto; [now apply fi_resolved|apply wi_resolved]. }
  destruct (C80_contraction_exact never _ per3 che3 G 0 true true wi 1 true wi HR Dp Dc Up Uc ltac:(lia) (wi_resolved true) (wi_resolved true)) as (b1 & b2 & e & Eb1 & Eb2 & Ee & He).
  { apply (C80_contraction_fine never) with (p0 := true) (p := true); auto using wi_resolved. }
  pose proof (disc_fun G _ _ _ _ _ Eb Eb') as <-. pose proof (disc_fun G _ _ _ _ _ Eb Eb1) as <-. pose proof (disc_fun G _ _ _ _ _ Eb Eb2) as <-.
  exists a, b, c, e, h. cbn zeta. auto 12.
Qed.
Example C81_instance : exists G a z1 z2 z3 BC bc z4 c, product never per3 che3 = Ok G /\ let heap := fun _ : nat => grid_of2 G in
  disc G 0 true [fi] a /\ form_D heap (MkForm 0 true 0 a) = Ok (ZForm z1) /\ form_H heap z1 = Ok z2 /\ form_D heap z2 = Ok (ZForm z3) /\
  tget (g2BC G) (2%nat, false) = Ok BC /\ BC [fun x y => - (sin x * (2 * y)); fun x y => cos x * y ^ 2] = Ok bc /\ binary Badd z3 (OArr bc) = Ok z4 /\
  form_H heap z4 = Ok (MkForm 0 true 0 c) /\ disc G 0 true [fun x y => - sin x * y ^ 2 + sin x * 2] c.
Proof.
  destruct che_works as [Wc Uc]. assert (works never Periodic 3) as Wp by (cbn; lia).
  assert (good per3 /\ good che3) as [Gp Gc] by (split; split; cbn; try lia; pose proof PI_RGT_0; lra).
  destruct (Props.Grid2.C46_product_exists never per3 che3 Gp Gc) as (G & EG). exists G.
  assert (refers2 never (fun _ => grid_of2 G) per3 che3 G 0) as HR by (split; auto).
  assert (default_extent per3 /\ default_extent che3) as [Dp Dc] by (split; split; reflexivity).
  destruct (C81_laplacian never _ per3 che3 G 0 fi (fun x y => cos x * y ^ 2) (fun x y => sin x * (2 * y)) (fun x y => - sin x * y ^ 2) (fun x y => sin x * 2) HR Dp Dc Wp Wc)
    as (a & z1 & z2 & z3 & BC & bc & z4 & c & H1 & H2 & H3 & H4 & H5 & H6 & H7 & H8 & H9 & _); try discriminate; try (now apply fi_resolved);
    try (intros x y; unfold fi; auto_derive; auto; ring).
  exists a, z1, z2, z3, BC, bc, z4, c. cbn zeta. auto 12.
Qed.
