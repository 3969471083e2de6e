(** C77 on product grids: discretisation commutes with the Hodge star, the wedge product and the contraction of forms in the plane. *)
From Coq Require Import ZArith Reals List Lia Lra Arith Bool FunctionalExtensionality.
From Coq Require Import ZifyNat.
From Verif Require Import Model.Sym.
From Coquelicot Require Import Coquelicot.
From Verif Require Import Model.Num Model.Np Model.Basis Model.Grids1 Model.Common Model.Decform Model.Grid2 Model.Discretise Spec.Ext Spec.Sympy Spec.Tiling Spec.Plane Spec.Resolved Spec.Poly
  Proofs.ListLemmas Proofs.RIntLemmas Proofs.Lin Proofs.TableLin Proofs.GridsThm Proofs.Grid2P Proofs.Grid2Ops Proofs.Stokes2 Props.Symbolic Props.Refinement Props.Grid2 Props.Basis2 Props.Exact1 Props.Stokes2 Proofs.DiscretiseP Props.Discretise.
From Verif Require Import Props.Decform Props.Exact2 Props.Commute.
Import ListNotations.
Local Open Scope R_scope.

(** a symbolic form of degree d on the chart of the module's symbols x and y, whose components mention no other symbol, and its components as functions *)
Definition plane_form (id d : nat) (comps : list expr) (f : sform) : Prop :=
  f = MkSform d (chart2 id) comps /\ length comps = (if Nat.eqb d 1 then 2 else 1)%nat /\ (d <= 2)%nat /\ forall e, In e comps -> only [0; 1]%nat e = true.
Lemma plane_cases id d comps f : plane_form id d comps f -> (d <> 1%nat /\ exists e, comps = [e] /\ only [0; 1]%nat e = true) \/ (d = 1%nat /\ exists e e', comps = [e; e'] /\ only [0; 1]%nat e = true /\ only [0; 1]%nat e' = true).
Proof.
  intros (_ & L & _ & O). destruct (Nat.eqb_spec d 1) as [->|N].
  - right. split; [reflexivity|]. destruct comps as [|e [|e' [|]]]; try discriminate. exists e, e'. split; [reflexivity|]. split; apply O; cbn; auto.
  - left. split; [exact N|]. destruct comps as [|e [|]]; try discriminate. exists e. split; [reflexivity|]. apply O. cbn. auto.
Qed.
Lemma only_mul a b : only [0; 1]%nat a = true -> only [0; 1]%nat b = true -> only [0; 1]%nat (Mul a b) = true.
Proof. rewrite !only_spec. intros [U F] [U' F']. cbn [undefined free]. rewrite U, U'. split; [reflexivity|]. intros v Hv. apply in_app_or in Hv. destruct Hv; auto. Qed.
Lemma only_add a b : only [0; 1]%nat a = true -> only [0; 1]%nat b = true -> only [0; 1]%nat (Add a b) = true.
Proof. rewrite !only_spec. intros [U F] [U' F']. cbn [undefined free]. rewrite U, U'. split; [reflexivity|]. intros v Hv. apply in_app_or in Hv. destruct Hv; auto. Qed.
Lemma only_opp a : only [0; 1]%nat a = true -> only [0; 1]%nat (Opp a) = true.
Proof. rewrite !only_spec. intros [U F]. cbn [undefined free]. auto. Qed.
Ltac cmp := repeat (match goal with |- ?a :: ?l = ?b :: ?m => apply (f_equal2 (@cons _)) end); try reflexivity; let x := fresh in let y := fresh in extensionality x; extensionality y; unfold fn2, mul; cbn [eval]; ring.

Section Commute2.
Variable auto : expr -> expr.
Variable closed2 : nat -> list expr -> bool.
Hypothesis Sa : sound_auto auto.
Variable close : C -> C -> bool.
Variable heap : nat -> grid (list (arr R)).
Variables (gx gy : grid1) (G : grid2) (r : nat).
Hypothesis EG : product close gx gy = Ok G. Hypothesis Eh : heap r = grid_of2 G.
Hypothesis Dx : default_extent gx. Hypothesis Dy : default_extent gy.
Lemma disc_to id d t comps a : Exact2.disc G d t (map fn2 comps) a -> closed2 d comps = true -> (forall e, In e comps -> only [0; 1]%nat e = true) ->
  to_discrete2 auto closed2 (MkSform d (chart2 id) comps) r G t = Ok (MkForm d t r a).
Proof. intros (P & EP & Ea) Hc Ho. eapply disc2; eauto. Qed.

(** the Hodge star *)
Theorem C77_plane_hodge id d t comps f : works close (kd gx) (sz gx) -> works close (kd gy) (sz gy) -> plane_form id d comps f -> closed2 d comps = true ->
  resolved2 gx gy d t (map fn2 comps) ->
  exists h, Sym.H (SForm f) = Ok (SForm h) /\ sdeg h = (2 - d)%nat /\ (closed2 (sdeg h) (scomps h) = true ->
  exists a b, to_discrete2 auto closed2 f r G t = Ok a /\ to_discrete2 auto closed2 h r G (negb t) = Ok b /\ form_H heap a = Ok b).
Proof.
  intros Wx Wy Hf Hc Hr. destruct Hf as (-> & Hf). assert (plane_form id d comps (MkSform d (chart2 id) comps)) as Hf' by (split; auto). destruct Hf as (_ & Hd & Ho).
  destruct (C80_hodge_exact close heap gx gy G r d t (map fn2 comps) (conj EG Eh) Dx Dy Wx Wy Hd Hr) as (a & b & Da & Db & E).
  assert (exists hc, Sym.H (SForm (MkSform d (chart2 id) comps)) = Ok (SForm (MkSform (2 - d) (chart2 id) hc)) /\ map fn2 hc = star (map fn2 comps) /\ (forall e, In e hc -> only [0; 1]%nat e = true)) as (hc & Eh' & Em & Oh).
  { destruct (plane_cases _ _ _ _ Hf') as [(N & e & -> & O1)|(-> & e & e' & -> & O1 & O2)].
    - exists [e]. destruct d as [|[|[|d]]]; [|congruence| |lia]; (split; [reflexivity|]); (split; [reflexivity|]); intros e' [<-|[]]; exact O1.
    - exists [Opp e'; e]. split; [reflexivity|]. split.
      + cbn [map star]. cmp.
      + intros c [<-|[<-|[]]]; auto using only_opp. }
  exists (MkSform (2 - d) (chart2 id) hc). split; [exact Eh'|]. split; [reflexivity|]. cbn [sdeg scomps]. intro Hc'. exists (MkForm d t r a), (MkForm (2 - d) (negb t) r b).
  split; [now apply disc_to|]. split; [apply disc_to; auto; now rewrite Em|]. exact E.
Qed.
(** the wedge product *)
Theorem C77_plane_wedge id t d0 t0 u f d1 t1 v g : usable close (kd gx) (sz gx) -> usable close (kd gy) (sz gy) -> plane_form id d0 u f -> plane_form id d1 v g -> (d0 + d1 <= 2)%nat ->
  closed2 d0 u = true -> closed2 d1 v = true -> resolved2 gx gy d0 t0 (map fn2 u) -> resolved2 gx gy d1 t1 (map fn2 v) -> fine2 gx gy (d0 + d1) (wedgef (map fn2 u) (map fn2 v)) ->
  exists w, Sym.W (SForm f) (SForm g) = Ok (SForm w) /\ sdeg w = (d0 + d1)%nat /\ (closed2 (sdeg w) (scomps w) = true ->
  exists a b c, to_discrete2 auto closed2 f r G t0 = Ok a /\ to_discrete2 auto closed2 g r G t1 = Ok b /\ to_discrete2 auto closed2 w r G t = Ok c /\ form_W heap t a b = Ok c).
Proof.
  intros Ux Uy Hf Hg Hd Cu Cv Ru Rv Fw. pose proof (plane_cases _ _ _ _ Hf) as Kf. pose proof (plane_cases _ _ _ _ Hg) as Kg. destruct Hf as (-> & _ & Hd0 & Ou), Hg as (-> & _ & Hd1 & Ov).
  destruct (C80_wedge_exact close heap gx gy G r t d0 t0 (map fn2 u) d1 t1 (map fn2 v) (conj EG Eh) Dx Dy Ux Uy Hd Ru Rv Fw) as (a & b & c & Da & Db & Dc & E).
  assert (exists wc, Sym.W (SForm (MkSform d0 (chart2 id) u)) (SForm (MkSform d1 (chart2 id) v)) = Ok (SForm (MkSform (d0 + d1) (chart2 id) wc)) /\ map fn2 wc = wedgef (map fn2 u) (map fn2 v) /\ (forall e, In e wc -> only [0; 1]%nat e = true)) as (wc & Ew & Em & Ow).
  { unfold Sym.W, sW. cbn [sgrid chart2 sdeg].
    destruct Kf as [(N0 & e & -> & O1)|(-> & e & e' & -> & O1 & O2)], Kg as [(N1 & q & -> & Q1)|(-> & q & q' & -> & Q1 & Q2)].
    - destruct d0 as [|[|[|d0]]], d1 as [|[|[|d1]]]; try lia; cbn; rewrite Nat.eqb_refl; (eexists; split; [reflexivity|]); (split; [cbn [map wedgef]; cmp|]); intros c0 [<-|[]]; auto using only_mul.
    - destruct d0 as [|[|[|d0]]]; try lia; cbn; rewrite Nat.eqb_refl; (eexists; split; [reflexivity|]); (split; [cbn [map wedgef]; cmp|]); intros c0 [<-|[<-|[]]]; auto using only_mul.
    - destruct d1 as [|[|[|d1]]]; try lia; cbn; rewrite Nat.eqb_refl; (eexists; split; [reflexivity|]); (split; [cbn [map wedgef]; cmp|]); intros c0 [<-|[<-|[]]]; auto using only_mul.
    - cbn; rewrite Nat.eqb_refl; (eexists; split; [reflexivity|]); (split; [cbn [map wedgef]; cmp|]); intros c0 [<-|[]]; auto 6 using only_mul, only_add, only_opp. }
  exists (MkSform (d0 + d1) (chart2 id) wc). split; [exact Ew|]. split; [reflexivity|]. cbn [sdeg scomps]. intro Cw. exists (MkForm d0 t0 r a), (MkForm d1 t1 r b), (MkForm (d0 + d1) t r c).
  split; [now apply disc_to|]. split; [now apply disc_to|]. split; [apply disc_to; auto; now rewrite Em|exact E].
Qed.
(** the contraction with a vector field *)
Theorem C77_plane_contraction id t t0 X f d t1 v g : usable close (kd gx) (sz gx) -> usable close (kd gy) (sz gy) -> plane_form id 1 X f -> plane_form id d v g -> (1 <= d)%nat ->
  closed2 1 X = true -> closed2 d v = true -> resolved2 gx gy 1 t0 (map fn2 X) -> resolved2 gx gy d t1 (map fn2 v) -> fine2 gx gy (d - 1) (contractf (map fn2 X) (map fn2 v)) ->
  exists w, Sym.C (SForm f) (SForm g) = Ok (SForm w) /\ sdeg w = (d - 1)%nat /\ (closed2 (sdeg w) (scomps w) = true ->
  exists a b c, to_discrete2 auto closed2 f r G t0 = Ok a /\ to_discrete2 auto closed2 g r G t1 = Ok b /\ to_discrete2 auto closed2 w r G t = Ok c /\ form_C heap t a b = Ok c).
Proof.
  intros Ux Uy Hf Hg Hd Cu Cv Ru Rv Fw. pose proof (plane_cases _ _ _ _ Hf) as Kf. pose proof (plane_cases _ _ _ _ Hg) as Kg. destruct Hf as (-> & _ & Hd0 & Ou), Hg as (-> & _ & Hd1 & Ov).
  destruct (C80_contraction_exact close heap gx gy G r t t0 (map fn2 X) d t1 (map fn2 v) (conj EG Eh) Dx Dy Ux Uy (conj Hd Hd1) Ru Rv Fw) as (a & b & c & Da & Db & Dc & E).
  assert (exists wc, Sym.C (SForm (MkSform 1 (chart2 id) X)) (SForm (MkSform d (chart2 id) v)) = Ok (SForm (MkSform (d - 1) (chart2 id) wc)) /\ map fn2 wc = contractf (map fn2 X) (map fn2 v) /\ (forall e, In e wc -> only [0; 1]%nat e = true)) as (wc & Ew & Em & Ow).
  { unfold Sym.C, sC. cbn [sgrid chart2 sdeg]. destruct Kf as [(N0 & _)|(_ & e & e' & -> & O1 & O2)]; [congruence|]. destruct Kg as [(N1 & q & -> & Q1)|(-> & q & q' & -> & Q1 & Q2)].
    - destruct d as [|[|[|d]]]; try lia. cbn. rewrite ?Nat.eqb_refl. (eexists; split; [reflexivity|]). (split; [cbn [map contractf]; cmp|]); intros c0 [<-|[<-|[]]]; auto 6 using only_mul, only_add, only_opp.
    - cbn. rewrite ?Nat.eqb_refl. (eexists; split; [reflexivity|]). (split; [cbn [map contractf]; cmp|]); intros c0 [<-|[]]; auto 6 using only_mul, only_add, only_opp. }
  exists (MkSform (d - 1) (chart2 id) wc). split; [exact Ew|]. split; [reflexivity|]. cbn [sdeg scomps]. intro Cw. exists (MkForm 1 t0 r a), (MkForm d t1 r b), (MkForm (d - 1) t r c).
  split; [now apply disc_to|]. split; [now apply disc_to|]. split; [apply disc_to; auto; now rewrite Em|exact E].
Qed.
End Commute2.
(** sin(x) y^2 and sin(x) dx + sin(x) dy on the product of the periodic and the Chebyshev grid with three points, with a sympy that integrates everything *)
Example C77_plane_instance : exists G, product never per3 che3 = Ok G /\ let heap := fun _ : nat => grid_of2 G in
  let P := fun f t => to_discrete2 (fun e => e) (fun _ _ => true) f 0 G t in
  let f := MkSform 0 (chart2 0) [Mul (Sin (Sym 0)) (Pow (Sym 1) 2)] in let g := MkSform 1 (chart2 0) [Mul (Sin (Sym 0)) (Cst 1); Mul (Sin (Sym 0)) (Cst 1)] in
  (exists h a b, Sym.H (SForm g) = Ok (SForm h) /\ P g true = Ok a /\ P h false = Ok b /\ form_H heap a = Ok b) /\
  (exists w a b c, Sym.W (SForm f) (SForm g) = Ok (SForm w) /\ P f true = Ok a /\ P g true = Ok b /\ P w false = Ok c /\ form_W heap false a b = Ok c) /\
  (exists w a b c, Sym.C (SForm g) (SForm g) = Ok (SForm w) /\ P g true = Ok a /\ P g true = Ok b /\ P w true = Ok c /\ form_C heap true a b = Ok c).
Proof.
  destruct che_works as [Wc Uc]. assert (works never Periodic 3 /\ usable never Periodic 3) as [Wp Up] by (cbn; lia).
  assert (good per3 /\ good che3) as [Gp Gc] by (split; split; cbn; try lia; pose proof PI_RGT_0; lra).
  destruct (Props.Grid2.C46_product_exists never per3 che3 Gp Gc) as (G & EG). exists G. split; [exact EG|]. cbv zeta.
  assert (default_extent per3 /\ default_extent che3) as [Dp Dc] by (split; split; reflexivity).
  assert (plane_form 0 0 [Mul (Sin (Sym 0)) (Pow (Sym 1) 2)] (MkSform 0 (chart2 0) [Mul (Sin (Sym 0)) (Pow (Sym 1) 2)])) as Pf by (split; [reflexivity|]; split; [reflexivity|]; split; [lia|]; intros e [<-|[]]; reflexivity).
  assert (plane_form 0 1 [Mul (Sin (Sym 0)) (Cst 1); Mul (Sin (Sym 0)) (Cst 1)] (MkSform 1 (chart2 0) [Mul (Sin (Sym 0)) (Cst 1); Mul (Sin (Sym 0)) (Cst 1)])) as Pg by (split; [reflexivity|]; split; [reflexivity|]; split; [lia|]; intros e [<-|[<-|[]]]; reflexivity).
  assert (map fn2 [Mul (Sin (Sym 0)) (Pow (Sym 1) 2)] = [fi]) as Ef by (cbn [map]; f_equal; extensionality x; extensionality y; unfold fn2, fi; cbn [eval]; cbn; ring).
  assert (map fn2 [Mul (Sin (Sym 0)) (Cst 1); Mul (Sin (Sym 0)) (Cst 1)] = wi) as Eg by reflexivity.
  split; [|split].
  - destruct (C77_plane_hodge (fun e => e) (fun _ _ => true) sound_id never (fun _ => grid_of2 G) per3 che3 G 0 EG eq_refl Dp Dc 0 1 true _ _ Wp Wc Pg eq_refl) as (h & E1 & _ & K); [rewrite Eg; apply wi_resolved|].
    destruct (K eq_refl) as (a & b & K1 & K2 & K3). exists h, a, b. auto.
  - destruct (C77_plane_wedge (fun e => e) (fun _ _ => true) sound_id never (fun _ => grid_of2 G) per3 che3 G 0 EG eq_refl Dp Dc 0 false 0 true _ _ 1 true _ _ Up Uc Pf Pg ltac:(lia) eq_refl eq_refl) as (w & E1 & _ & K); rewrite ?Ef, ?Eg; [now apply fi_resolved|apply wi_resolved| |].
    + apply (C80_wedge_fine never) with (p0 := true) (p1 := true); auto; [now apply fi_resolved|apply wi_resolved].
    + destruct (K eq_refl) as (a & b & c & K1 & K2 & K3 & K4). exists w, a, b, c. auto.
  - destruct (C77_plane_contraction (fun e => e) (fun _ _ => true) sound_id never (fun _ => grid_of2 G) per3 che3 G 0 EG eq_refl Dp Dc 0 true true _ _ 1 true _ _ Up Uc Pg Pg ltac:(lia) eq_refl eq_refl) as (w & E1 & _ & K); rewrite ?Eg; [apply wi_resolved|apply wi_resolved| |].
    + apply (C80_contraction_fine never) with (p0 := true) (p := true); auto using wi_resolved.
    + destruct (K eq_refl) as (a & b & c & K1 & K2 & K3 & K4). exists w, a, b, c. auto.
Qed.
