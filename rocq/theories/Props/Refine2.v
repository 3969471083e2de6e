(** C47: refinement on product grids. *)
From Coq Require Import ZArith Reals List Lia Lra Arith Bool.
From Coq Require Import ZifyNat ZifyBool.
From Verif Require Import Model.Sym.
From Coquelicot Require Import Coquelicot.
From Verif Require Import Model.Num Model.Np Model.Spectral Model.Chebyshev Model.Grids1 Model.Common Model.Decform Model.Grid2 Spec.Tiling
  Proofs.ListLemmas Proofs.RingSums Proofs.Lin Proofs.TableLin Proofs.Arr2 Proofs.Grid2P Proofs.Grid2Ops Props.Refinement Props.Grid2.
Import ListNotations.
Local Open Scope nat_scope.
Ltac Zify.zify_post_hook ::= Z.div_mod_to_equations.

(** periodic or Chebyshev grids with at least one edge on which the numerical test does not misfire *)
Definition refinable (close : C -> C -> bool) (g : grid1) : Prop := good g /\ usable close (kd g) (sz g).
Definition rf (g : grid1) : nat := refined (kd g) (sz g).
Lemma rf_pos g : good g -> 0 < rf g.
Proof. intros [Hb _]. unfold rf. destruct (kd g); cbn in *; lia. Qed.
Lemma t_pair close g d t : refinable close g -> d <= 1 -> exists T U T' U', lin (Nd g d t) (rf g) T' /\ lin (rf g) (Nd g d t) U' /\
  tget (rT (refine_of close (kd g))) (d, t) = Ok T /\ tget (rU (refine_of close (kd g))) (d, t) = Ok U /\
  (forall f, length f = Nd g d t -> T f = Ok (T' f)) /\ (forall f, length f = rf g -> U f = Ok (U' f)) /\ (forall f, length f = Nd g d t -> U' (T' f) = f).
Proof.
  intros [Gg Hu] Hd. destruct (usable_ok _ _ _ Hu) as (Hn & Hg & Hk).
  destruct (table_T_lin close (kd g) (sz g) d t Hn Hg Hd Hk) as (T & ET & T' & LT & FT). destruct (table_U_lin close (kd g) (sz g) d t Hn Hd Hk) as (U & EU & U' & LU & FU).
  exists T, U, T', U'. repeat (split; [assumption|]). intros f L. destruct (round_trip close (kd g) (sz g) d t f Hu Hd L) as (T2 & U2 & x & E1 & E2 & E3 & E4 & E5).
  rewrite ET in E1. injection E1 as <-. rewrite EU in E2. injection E2 as <-. rewrite FT in E3 by auto. injection E3 as E3. rewrite <- E3 in E5. rewrite FU in E5 by (rewrite E3; auto). now injection E5.
Qed.
Section S.
Variables (close : C -> C -> bool) (gx gy : grid1).
Hypothesis Rx : refinable close gx. Hypothesis Ry : refinable close gy.
Notation tx := (rT (refine_of close (kd gx))). Notation ty := (rT (refine_of close (kd gy))).
Notation ux := (rU (refine_of close (kd gx))). Notation uy := (rU (refine_of close (kd gy))).
Let Gx := Logic.proj1 Rx. Let Gy := Logic.proj1 Ry.
(** the refinement of one component, of degree dy along y and dx along x, and back *)
Lemma t_block dy dx t F : dx <= 1 -> dy <= 1 ->
  exists F', tyx ty tx dy dx t (mk2 (Nd gy dy t) (Nd gx dx t) F) = Ok (mk2 (rf gy) (rf gx) F') /\
  tyx uy ux dy dx t (mk2 (rf gy) (rf gx) F') = Ok (mk2 (Nd gy dy t) (Nd gx dx t) F).
Proof.
  intros Hx Hy. destruct (t_pair close gx dx t Rx Hx) as (T & U & T' & U' & A1 & A2 & A3 & A4 & A5 & A6 & A7). destruct (t_pair close gy dy t Ry Hy) as (V & W & V' & W' & B1 & B2 & B3 & B4 & B5 & B6 & B7).
  pose proof (Nd_pos gx dx t Gx). pose proof (Nd_pos gy dy t Gy). pose proof (rf_pos gx Gx). pose proof (rf_pos gy Gy).
  exists (oncols (Nd gy dy t) V' (onrows (Nd gx dx t) T' F)). unfold tyx. rewrite A3, B3, A4, B4. cbn [bind].
  rewrite (along1_flat _ T' _ _ (rf gx)) by auto. cbn [bind]. rewrite (along0_flat _ V' _ _ (rf gy)) by auto. split; [reflexivity|].
  rewrite (along1_flat _ U' _ _ (Nd gx dx t)) by auto. cbn [bind]. rewrite (along0_flat _ W' _ _ (Nd gy dy t)) by auto. f_equal. apply mk2_ext. intros i j Hi Hj.
  rewrite (oncols_ext _ _ _ (oncols (Nd gy dy t) V' F)).
  - apply (oncols_inv (Nd gy dy t) (rf gy)); auto.
  - intros k Hk. rewrite (rows_cols (Nd gy dy t) (rf gx) (Nd gx dx t) (rf gy)) by auto. apply oncols_ext. intros l Hl. apply (onrows_inv (Nd gx dx t) (rf gx)); auto.
Qed.
End S.
Lemma T_get gx gy {Y} (T : nat -> bool -> blk R -> res Y) d t : d <= 2 -> exists o, tget (reshapeT (table6 (shp2 gx gy)) (table6 T)) (d, t) = Ok o /\ forall f, o f = bind (reshape f (shp2 gx gy d t)) (T d t).
Proof.
  intro Hd. unfold reshapeT. pose proof (tget_map (fun k v f => bind (tget (table6 (shp2 gx gy)) k) (fun s => bind (reshape f s) v)) (table6 T) (d, t)) as E.
  eexists. split; [etransitivity; [exact E|]; rewrite tget_table6 by auto; reflexivity|]. intro f. cbn beta. rewrite tget_table6 by auto. reflexivity.
Qed.
Lemma U_get {X} (U : nat -> bool -> X -> res (blk R)) d t : d <= 2 -> exists o, tget (reshapeU (table6 U)) (d, t) = Ok o /\ forall f, o f = bind (U d t f) (fun b => bind (unshape b) (fun r => Ok (fst r))).
Proof.
  intro Hd. unfold reshapeU. pose proof (tget_map (fun _ v f => bind (v f) (fun b => bind (unshape (A := R) b) (fun r => Ok (fst r)))) (table6 U) (d, t)) as E.
  eexists. split; [etransitivity; [exact E|]; rewrite tget_table6 by auto; reflexivity|]. reflexivity.
Qed.
(** T[d, t] gives one array per component, all of the shape of the refined grid; U[d, t] takes them back *)
Theorem C47_round_trip close gx gy G d t f : refinable close gx -> refinable close gy -> product close gx gy = Ok G -> d <= 2 -> tget (g2N G) (d, t) = Ok (length f) ->
  exists T U g, tget (g2T G) (d, t) = Ok T /\ tget (g2U G) (d, t) = Ok U /\ T f = Ok g /\
  length g = (if Nat.eqb d 1 then 2 else 1) /\ (forall a, In a g -> nr a = refined (kd gy) (sz gy) /\ nc a = refined (kd gx) (sz gx) /\ length (dat a) = nr a * nc a) /\
  U g = Ok f.
Proof.
  intros Rx Ry EG Hd EN. pose proof (Logic.proj1 Rx) as Gx. pose proof (Logic.proj1 Ry) as Gy.
  destruct (product_ok close gx gy Gx Gy) as (sx & sy & G' & _ & _ & E & _ & _ & HN & _ & _ & _ & _ & _ & _ & HT & HU & _). rewrite EG in E. injection E as <-.
  rewrite HN in EN. rewrite HT, HU. rewrite tget_table6 in EN by auto. injection EN as L.
  unfold to_refine, from_refine.
  match goal with |- context [reshapeT _ (table6 ?t0)] => destruct (T_get gx gy t0 d t Hd) as (T & ET & FT) end.
  match goal with |- context [reshapeU (table6 ?u0)] => destruct (U_get u0 d t Hd) as (U & EU & FU) end.
  assert (forall a : arr R, (exists F, a = mk2 (rf gy) (rf gx) F) -> nr a = rf gy /\ nc a = rf gx /\ length (dat a) = nr a * nc a) as Sh.
  { intros a (F & ->). split; [reflexivity|]. split; [reflexivity|]. apply length_flat. }
  destruct (Nat.eqb_spec d 1) as [->|Hd1].
  - cbn [N2] in L. destruct (split_two f _ _ (eq_sym L)) as (f0 & f1 & -> & L0 & L1). rewrite (flat_ent _ _ f0 L0), (flat_ent _ _ f1 L1).
    destruct (t_block close gx gy Rx Ry 0 1 t (ent (Nd gx 1 t) f0)) as (F0 & A0 & B0); [lia..|]. destruct (t_block close gx gy Rx Ry 1 0 t (ent (Nd gx 0 t) f1)) as (F1 & A1 & B1); [lia..|].
    eexists T, U, _. split; [exact ET|]. split; [exact EU|]. rewrite FT. cbn [shp2]. rewrite reshape_flat2. cbn [bind get_pair fst snd]. rewrite A0; cbn [bind]. rewrite A1; cbn [bind]. split; [reflexivity|]. split; [reflexivity|]. split.
    { intros a [<-|[<-|[]]]; apply Sh; eauto. }
    rewrite FU. cbn [item nth_error bind]. rewrite B0; cbn [bind]. rewrite B1; cbn [bind]. rewrite unshape_mk22. reflexivity.
  - assert (exists e, d = 2 * e /\ e <= 1) as (e & -> & He) by (destruct d as [|[|[|d]]]; [exists 0|lia|exists 1|lia]; lia).
    assert (length f = Nd gy e t * Nd gx e t) as L' by (rewrite <- L; destruct e as [|[|e]]; [reflexivity|reflexivity|lia]). rewrite (flat_ent _ _ f L').
    destruct (t_block close gx gy Rx Ry e e t (ent (Nd gx e t) f) He He) as (F & A & B).
    eexists T, U, _. split; [exact ET|]. split; [exact EU|]. rewrite FT. replace (shp2 gx gy (2 * e) t) with (SInt (Nd gy e t) (Nd gx e t)) by (destruct e as [|[|e]]; [reflexivity|reflexivity|lia]).
    rewrite reshape_flat. cbn [bind]. split; [|split; [|split]].
    + destruct e as [|[|e]]; [| |lia]; cbn [Nat.mul Nat.add]; cbn [get_arr bind]; [change (0 / 2) with 0|change (2 / 2) with 1]; rewrite A; reflexivity.
    + reflexivity.
    + intros a [<-|[]]. apply Sh; eauto.
    + rewrite FU. destruct e as [|[|e]]; [| |lia]; cbn [Nat.mul Nat.add item nth_error bind]; [change (0 / 2) with 0|change (2 / 2) with 1]; rewrite B; reflexivity.
Qed.
Example C47_instance : exists G T U g, product np_isclose gp gc = Ok G /\ tget (g2T G) (2, true) = Ok T /\ tget (g2U G) (2, true) = Ok U /\
  T [1;2;3;4;5;6;7;8;9]%R = Ok g /\ U g = Ok [1;2;3;4;5;6;7;8;9]%R.
Proof.
  destruct sound_samples as (Sp & Sc & _). pose proof (Logic.proj1 Sp) as Gp. pose proof (Logic.proj1 Sc) as Gc. destruct (product_ok np_isclose gp gc Gp Gc) as (sx & sy & G & _ & _ & E & _ & HS & HN & _).
  destruct (C47_round_trip np_isclose gp gc G 2 true [1;2;3;4;5;6;7;8;9]%R) as (T & U & g & E1 & E2 & E3 & _ & _ & E4); auto.
  - split; [exact Gp|]. cbn. lia.
  - split; [exact Gc|]. cbn. split; [lia|]. right. split; auto; lia.
  - rewrite HN. reflexivity.
  - exists G, T, U, g. auto.
Qed.
(** a regular factor cannot be refined *)
Theorem C47_regular_raises close gx gy G d t f : good gx -> good gy -> kd gx = Regular \/ kd gy = Regular -> product close gx gy = Ok G -> d <= 2 -> tget (g2N G) (d, t) = Ok (length f) ->
  exists T, tget (g2T G) (d, t) = Ok T /\ forall g, T f <> Ok g.
Proof.
  intros Gx Gy K EG Hd EN.
  destruct (product_ok close gx gy Gx Gy) as (sx & sy & G' & _ & _ & E & _ & _ & HN & _ & _ & _ & _ & _ & _ & HT & HU & _). rewrite EG in E. injection E as <-.
  rewrite HN in EN. rewrite HT. rewrite tget_table6 in EN by auto. injection EN as L. unfold to_refine.
  match goal with |- context [reshapeT _ (table6 ?t0)] => destruct (T_get gx gy t0 d t Hd) as (T & ET & FT) end.
  exists T. split; [exact ET|]. intros g Eg. rewrite FT in Eg.
  assert (forall (a : arr R) dy dx, dx <= 1 -> dy <= 1 -> 0 < nr a -> forall b, tyx (rT (refine_of close (kd gy))) (rT (refine_of close (kd gx))) dy dx t a <> Ok b) as NT.
  { intros a dy dx Hx Hy Ha b. unfold tyx. destruct (tget (rT (refine_of close (kd gx))) (dx, t)) as [o|] eqn:Eo; cbn [bind]; [|discriminate].
    destruct (along1 o a) as [a'|] eqn:Ea; cbn [bind]; [|discriminate].
    destruct (tget (rT (refine_of close (kd gy))) (dy, t)) as [o'|] eqn:Eo'; cbn [bind]; [|discriminate].
    destruct K as [K|K]; rewrite K in *.
    - assert (o = raise_NI) as -> by (destruct dx as [|[|dx]]; [| |lia]; destruct t; now injection Eo). unfold along1 in Ea. destruct (nr a); [lia|]. discriminate.
    - assert (o' = raise_NI) as -> by (destruct dy as [|[|dy]]; [| |lia]; destruct t; now injection Eo'). unfold along0, along1. unfold transpose. cbn [nr mk2]. destruct (nc a') as [|n] eqn:En; cbn; discriminate. }
  destruct (Nat.eqb_spec d 1) as [->|Hd1].
  - cbn [N2] in L. destruct (split_two f _ _ (eq_sym L)) as (f0 & f1 & -> & L0 & L1). rewrite (flat_ent _ _ f0 L0), (flat_ent _ _ f1 L1) in Eg. cbn [shp2] in Eg. rewrite reshape_flat2 in Eg. cbn [bind get_pair fst snd] in Eg.
    match type of Eg with bind ?x _ = _ => destruct x as [a|] eqn:Ea end; cbn [bind] in Eg; [|discriminate]. now apply NT in Ea; [|lia|lia|cbn [nr mk2]; now apply Nd_pos].
  - assert (exists e, d = 2 * e /\ e <= 1) as (e & -> & He) by (destruct d as [|[|[|d]]]; [exists 0|lia|exists 1|lia]; lia).
    assert (length f = Nd gy e t * Nd gx e t) as L' by (rewrite <- L; destruct e as [|[|e]]; [reflexivity|reflexivity|lia]). rewrite (flat_ent _ _ f L') in Eg.
    replace (shp2 gx gy (2 * e) t) with (SInt (Nd gy e t) (Nd gx e t)) in Eg by (destruct e as [|[|e]]; [reflexivity|reflexivity|lia]). rewrite reshape_flat in Eg. cbn [bind] in Eg.
    destruct e as [|[|e]]; [| |lia]; cbn [Nat.mul Nat.add get_arr bind] in Eg; [change (0 / 2) with 0 in Eg|change (2 / 2) with 1 in Eg];
    (match type of Eg with bind ?x _ = _ => destruct x as [a|] eqn:Ea end; cbn [bind] in Eg; [|discriminate]; now apply NT in Ea; [|lia|lia|cbn [nr mk2]; now apply Nd_pos]).
Qed.
