(** C42-C44: exterior derivative and Hodge star on product grids. *)
From Coq Require Import ZArith Reals List Lia Lra Arith Bool.
From Coq Require Import ZifyNat ZifyBool.
From Verif Require Import Model.Sym.
From Coquelicot Require Import Coquelicot.
From Verif Require Import Model.Num Model.Np Model.Spectral Model.Basis Model.Grids1 Model.Regular Model.Chebyshev Model.Common Model.Decform Model.Grid2 Spec.Tiling
  Proofs.ListLemmas Proofs.RingSums Proofs.Grids1P Proofs.GridsThm Proofs.Lin Proofs.TableLin Proofs.Kernels Proofs.Ops Proofs.Cheb1 Proofs.Cheb3 Proofs.Arr2 Proofs.Grid2P Proofs.Grid2Ops Proofs.RegularP Proofs.RegularBasis Props.Regular Props.Refinement.
Import ListNotations.
Local Open Scope nat_scope.
Ltac Zify.zify_post_hook ::= Z.div_mod_to_equations.

(** [good g]: at least one edge, lo < hi.  [sound]: moreover the numerical test of the Chebyshev stars does
    not misfire (it compares exactly, or is numpy's and n <= 927, theorem C26) *)
Definition sound (close : C -> C -> bool) (g : grid1) : Prop := good g /\ (kd g = Chebyshev -> guard_ok close (sz g)).
Lemma sound_guarded close g : sound close g -> guarded close (kd g) (sz g).
Proof. intros [[Hb _] G]. destruct (kd g) eqn:E; cbn [guarded]; auto. apply (guard_ok_guarded close (sz g) Hb). auto. Qed.

(** the product of good grids exists *)
Theorem C46_product_exists close gx gy : good gx -> good gy -> exists G, product close gx gy = Ok G.
Proof. intros Gx Gy. destruct (product_ok close gx gy Gx Gy) as (sx & sy & G & _ & _ & E & _). now exists G. Qed.

(** ** C42 *)
Theorem C42_dd close gx gy G t f : good gx -> good gy -> product close gx gy = Ok G -> tget (g2N G) (0, t) = Ok (length f) ->
  exists D0 D1 g n1 n2, tget (g2D G) (0, t) = Ok D0 /\ tget (g2D G) (1, t) = Ok D1 /\ tget (g2N G) (1, t) = Ok n1 /\ tget (g2N G) (2, t) = Ok n2 /\
  D0 f = Ok g /\ length g = n1 /\ D1 g = Ok (repeat 0%R n2).
Proof.
  intros Gx Gy EG EN. destruct (product_ok close gx gy Gx Gy) as (sx & sy & G' & _ & _ & E & _ & _ & HN & _ & _ & _ & _ & HD & _). rewrite EG in E. injection E as <-.
  rewrite HN in EN |- *. rewrite HD. rewrite tget_table6 in EN by lia. cbn [N2] in EN. injection EN as L.
  destruct (D0_flat gx gy Gx Gy t) as (o0 & E0 & H0). destruct (D1_flat gx gy Gx Gy t) as (o1 & E1 & H1).
  rewrite (flat_ent _ _ f (eq_sym L)). eexists o0, o1, _, _, _. split; [exact E0|]. split; [exact E1|]. rewrite !tget_table6 by lia. split; [reflexivity|]. split; [reflexivity|].
  split; [apply H0|]. split; [rewrite app_length, !length_flat; reflexivity|]. rewrite H1. f_equal. cbn [N2]. apply flat_zero. intros i j Hi Hj.
  rewrite (rows_cols (Nd gy 0 t) (Nd gx 0 t) (Nd gx 1 t) (Nd gy 1 t)) by auto using lin_dv. ring.
Qed.

(** ** C43: d of a 2-form raises TypeError instead of giving 0; [form_D] is the attribute D of discrete forms *)
Theorem C43_d_top_refuted close gx gy G heap r t f : good gx -> good gy -> product close gx gy = Ok G -> tget (g2N G) (2, t) = Ok (length f) -> heap r = grid_of2 G ->
  exists D2, tget (g2D G) (2, t) = Ok D2 /\ D2 f = Err TypeError /\ form_D heap (MkForm 2 t r f) = Err TypeError.
Proof.
  intros Gx Gy EG EN Eh. destruct (product_ok close gx gy Gx Gy) as (sx & sy & G' & _ & _ & E & _ & _ & HN & _ & _ & _ & _ & HD & _). rewrite EG in E. injection E as <-.
  rewrite HN in EN. rewrite tget_table6 in EN by lia. injection EN as L. destruct (D2_get gx gy t) as (o & E & Eo). rewrite HD. exists o. split; [exact E|]. split; [now apply Eo|].
  unfold form_D. cbn [degree isprimal gref array]. rewrite Eh. unfold grid_of2. cbn [gD]. rewrite HD.
  pose proof (tget_map (fun _ (v : op1) f => bind (v f) (fun a => Ok (RArr a))) (reshapeO (table6 (shp2 gx gy)) (derivative (d1 (kd gx)) (d1 (kd gy)))) (2, t)) as X. cbn beta in X.
  assert (forall (T : res (list R -> res rarr)) v, T = v -> bind T (fun d => bind (d f) (fun a => match a with RZero => Ok ZZero | RArr a => Ok (ZForm (MkForm (2 + 1) t r a)) end)) = bind v (fun d => bind (d f) (fun a => match a with RZero => Ok ZZero | RArr a => Ok (ZForm (MkForm (2 + 1) t r a)) end))) as Y by (intros; now subst).
  etransitivity; [apply (Y _ _ X)|]. rewrite E. cbn [bind]. rewrite Eo by auto. reflexivity.
Qed.

(** ** C44 *)
Lemma real_of_inv H H' f v : H (cplxv f) = Ok (cplxv v) -> bind (H (cplxv f)) H' = Ok (cplxv f) -> bind (real_of H f) (real_of H') = Ok f.
Proof.
  intros E E'. unfold real_of at 1. rewrite E in *. cbn [bind] in *. rewrite realv_cplxv. unfold real_of. rewrite E'. cbn [bind]. now rewrite realv_cplxv.
Qed.
Lemma h_inv close g d t f : sound close g -> d <= 1 -> length f = Nd g d t -> bind (hget close g d t f) (hget close g (1 - d) (negb t)) = Ok f.
Proof.
  intros [[Hb _] G] Hd L. unfold hget. unfold Nd in L. destruct (kd g) eqn:Ek; cbn [dec_of Common.dH].
  - cbn [big_enough] in Hb. assert (0 < length f) as Lf by (change (grid_N Periodic (sz g) d t) with (sz g) in L; lia).
    assert (forall o : list R -> list R, (forall a, 0 < length a -> length (o a) = length a) -> forall o', (forall a, 0 < length a -> o' (o a) = a) -> bind (spec o f) (spec o') = Ok f) as K.
    { intros o Lo o' Ho. destruct f as [|x f]; [cbn in Lf; lia|]. cbn [spec bind]. pose proof (Lo (x :: f) Lf) as Lo'. pose proof (Ho (x :: f) Lf) as E. destruct (o (x :: f)) as [|y v]; [cbn in Lo'; lia|]. cbn [spec]. now rewrite E. }
    destruct d as [|[|d]]; [| |lia]; destruct t; cbn; apply K; auto using length_opH, length_opHinv, H_Hinv, Hinv_H.
  - cbn [big_enough] in Hb. set (n := sz g) in *.
    destruct (C23_hodge_is_P_R n (tab n (fun i => nth i f 0%R)) (tab (n - 1) (fun i => nth i f 0%R)) Hb (length_tab _ _) (length_tab _ _)) as (c & Ec & H). cbv zeta in H. destruct H as (H0 & H0d & (v & _ & H1) & (w & _ & H1d)).
    destruct d as [|[|d]]; [| |lia]; destruct t; cbn in L |- *; rewrite <- L in *; rewrite <- (list_tab 0%R f) in *.
    + eapply real_of_inv; [exact H0|]. apply reg_inv0. rewrite length_cplxv. lia.
    + eapply real_of_inv; [exact H0d|]. apply reg_inv1. rewrite length_cplxv. lia.
    + eapply real_of_inv; [exact H1|]. apply reg_inv1'. rewrite length_cplxv. lia.
    + eapply real_of_inv; [exact H1d|]. apply reg_inv0'. rewrite length_cplxv. lia.
  - cbn [big_enough] in Hb. pose proof (guard_ok_guarded close (sz g) Hb (G eq_refl)) as K. cbn [guarded] in K.
    destruct d as [|[|d]]; [| |lia]; destruct t; cbn in L |- *.
    + now apply (Cheb3.H1d_H0 (sz g)).
    + now apply (Cheb1.H1_H0d (sz g)).
    + now apply (Cheb1.H0d_H1 (sz g)).
    + now apply (Cheb3.H0_H1d (sz g)).
Qed.
(** the 1D stars as linear maps with their inverses *)
Lemma h_pair close g d t : sound close g -> d <= 1 -> exists h h', lin (Nd g d t) (Nd g (1 - d) (negb t)) h /\ lin (Nd g (1 - d) (negb t)) (Nd g d t) h' /\
  (forall f, length f = Nd g d t -> hget close g d t f = Ok (h f)) /\ (forall f, length f = Nd g (1 - d) (negb t) -> hget close g (1 - d) (negb t) f = Ok (h' f)) /\
  (forall f, length f = Nd g d t -> h' (h f) = f).
Proof.
  intros Sg Hd. pose proof (sound_guarded _ _ Sg) as K. destruct (rlin_h close g d t (Logic.proj1 Sg) K Hd) as (h & Lh & Eh). destruct (rlin_h close g (1 - d) (negb t) (Logic.proj1 Sg) K ltac:(lia)) as (h' & Lh' & Eh').
  replace (1 - (1 - d)) with d in Lh' by lia. rewrite negb_involutive in Lh'. exists h, h'. repeat (split; [assumption|]). intros f L. pose proof (h_inv close g d t f Sg Hd L) as E. rewrite Eh in E by auto. cbn [bind] in E.
  rewrite Eh' in E by exact (lin_len _ _ h f Lh L). now injection E.
Qed.
Theorem C44_hodge close gx gy G d t f : sound close gx -> sound close gy -> product close gx gy = Ok G -> d <= 2 -> tget (g2N G) (d, t) = Ok (length f) ->
  exists H H' g, tget (g2H G) (d, t) = Ok H /\ tget (g2H G) (2 - d, negb t) = Ok H' /\ H f = Ok g /\ tget (g2N G) (2 - d, negb t) = Ok (length g) /\
  H' g = Ok (if Nat.eqb d 1 then map Ropp f else f).
Proof.
  intros Sx Sy EG Hd EN. pose proof (Logic.proj1 Sx) as Gx. pose proof (Logic.proj1 Sy) as Gy.
  destruct (product_ok close gx gy Gx Gy) as (sx & sy & G' & _ & _ & E & _ & _ & HN & _ & _ & _ & _ & _ & HH & _). rewrite EG in E. injection E as <-.
  rewrite HN in *. rewrite HH. rewrite tget_table6 in EN by auto. injection EN as L. rewrite tget_table6 by lia.
  destruct (Nat.eqb_spec d 1) as [->|Hd1].
  - cbn [N2 Nat.sub] in *. destruct (split_two f _ _ (eq_sym L)) as (f0 & f1 & -> & L0 & L1). rewrite (flat_ent _ _ f0 L0), (flat_ent _ _ f1 L1).
    destruct (h_pair close gx 0 t Sx ltac:(lia)) as (hx0 & hx0' & A1 & A2 & A3 & A4 & A5). destruct (h_pair close gx 1 t Sx ltac:(lia)) as (hx1 & hx1' & B1 & B2 & B3 & B4 & B5).
    destruct (h_pair close gy 0 t Sy ltac:(lia)) as (hy0 & hy0' & C1 & C2 & C3 & C4 & C5). destruct (h_pair close gy 1 t Sy ltac:(lia)) as (hy1 & hy1' & D1 & D2 & D3 & D4 & D5). cbn [Nat.sub] in *.
    destruct (H1_flat close gx gy Gx Gy t hx0 hx1 hy0 hy1) as (o & Eo & Ho); [intros d h [[= <- <-]|[[= <- <-]|[]]]; split; assumption..|].
    destruct (H1_flat close gx gy Gx Gy (negb t) hx1' hx0' hy1' hy0') as (o' & Eo' & Ho'); [intros d h [[= <- <-]|[[= <- <-]|[]]]; cbn [Nat.sub]; rewrite ?negb_involutive; split; assumption..|].
    rewrite negb_involutive in Ho'. eexists o, o', _. split; [exact Eo|]. split; [exact Eo'|]. split; [apply Ho|]. split; [rewrite app_length, !length_flat; reflexivity|]. rewrite Ho'. f_equal. rewrite map_app, !flat_opp. f_equal.
    + apply flat_ext. intros i j Hi Hj. f_equal.
      rewrite (onrows_ext _ _ _ (onrows (Nd gx 1 t) hx1 (ent (Nd gx 1 t) f0))).
      2:{ intros k Hk. apply (oncols_inv (Nd gy 0 t) (Nd gy 1 (negb t))); auto. }
      apply (onrows_inv (Nd gx 1 t) (Nd gx 0 (negb t))); auto.
    + apply flat_ext. intros i j Hi Hj.
      set (X := onrows (Nd gx 0 t) hx0 (oncols (Nd gy 1 t) hy1 (ent (Nd gx 0 t) f1))).
      rewrite (oncols_ext _ _ _ (fun i j => - onrows (Nd gx 1 (negb t)) hx0' X i j)%R).
      2:{ intros k Hk. now apply (onrows_opp _ (Nd gx 0 t)). }
      rewrite (oncols_opp _ (Nd gy 1 t)) by auto. f_equal.
      rewrite (oncols_ext _ _ _ (oncols (Nd gy 1 t) hy1 (ent (Nd gx 0 t) f1))).
      2:{ intros k Hk. apply (onrows_inv (Nd gx 0 t) (Nd gx 1 (negb t))); auto. }
      apply (oncols_inv (Nd gy 1 t) (Nd gy 0 (negb t))); auto.
  - assert (exists e, d = 2 * e /\ 2 - d = 2 * (1 - e) /\ e <= 1) as (e & E & E' & He) by (destruct d as [|[|[|d]]]; [exists 0|lia|exists 1|lia]; lia).
    rewrite E' in *. subst d. assert (length f = Nd gy e t * Nd gx e t) as L' by (rewrite <- L; destruct e as [|[|e]]; [reflexivity|reflexivity|lia]). rewrite (flat_ent _ _ f L').
    destruct (h_pair close gx e t Sx He) as (hx & hx' & A1 & A2 & A3 & A4 & A5). destruct (h_pair close gy e t Sy He) as (hy & hy' & C1 & C2 & C3 & C4 & C5).
    destruct (H02_flat close gx gy Gx Gy e t hx hy He) as (o & Eo & Ho); auto.
    destruct (H02_flat close gx gy Gx Gy (1 - e) (negb t) hx' hy' ltac:(lia)) as (o' & Eo' & Ho'); rewrite ?negb_involutive; replace (1 - (1 - e)) with e by lia; auto.
    rewrite negb_involutive in Ho'. replace (1 - (1 - e)) with e in Ho' by lia.
    eexists o, o', _. split; [exact Eo|]. split; [exact Eo'|]. split; [apply Ho|]. split; [rewrite length_flat; destruct e as [|[|e]]; [reflexivity|reflexivity|lia]|]. rewrite Ho'. f_equal.
    apply flat_ext. intros i j Hi Hj.
    rewrite (onrows_ext _ _ _ (onrows (Nd gx e t) hx (ent (Nd gx e t) f))).
    2:{ intros k Hk. rewrite (oncols_ext _ _ _ (oncols (Nd gy e t) hy (onrows (Nd gx e t) hx (ent (Nd gx e t) f)))).
        2:{ intros l Hl. now apply (rows_cols (Nd gy e t) (Nd gx e t) (Nd gx (1 - e) (negb t)) (Nd gy (1 - e) (negb t))). }
        apply (oncols_inv (Nd gy e t) (Nd gy (1 - e) (negb t))); auto. }
    apply (onrows_inv (Nd gx e t) (Nd gx (1 - e) (negb t))); auto.
Qed.
Definition gp : grid1 := MkGrid1 Periodic 3 0 1.
Definition gc : grid1 := MkGrid1 Chebyshev 4 (-1) 1.
Definition gr : grid1 := MkGrid1 Regular 2 2 5.
Lemma sound_samples : sound np_isclose gp /\ sound np_isclose gc /\ sound np_isclose gr.
Proof. unfold sound, good, guard_ok, gp, gc, gr. cbn. repeat split; try lia; try lra; try discriminate; right; split; auto; lia. Qed.
Example C44_instance : exists G H H' g, product np_isclose gr gp = Ok G /\ tget (g2H G) (1, false) = Ok H /\ tget (g2H G) (1, true) = Ok H' /\
  H [1;2;3;4;5;6;7;8;9]%R = Ok g /\ H' g = Ok (map Ropp [1;2;3;4;5;6;7;8;9]%R).
Proof.
  destruct sound_samples as (Sp & _ & Sr). destruct (C46_product_exists np_isclose gr gp (Logic.proj1 Sr) (Logic.proj1 Sp)) as (G & E). exists G.
  destruct (C44_hodge np_isclose gr gp G 1 false [1;2;3;4;5;6;7;8;9]%R Sr Sp E) as (H & H' & g & E1 & E2 & E3 & _ & E4); [lia| |exists H, H', g; auto].
  destruct (product_ok np_isclose gr gp (Logic.proj1 Sr) (Logic.proj1 Sp)) as (sx & sy & G' & _ & _ & E' & _ & _ & HN & _). rewrite E in E'. injection E' as <-. rewrite HN. reflexivity.
Qed.
Example C42_instance : exists G D0 D1 g, product np_isclose gr gp = Ok G /\ tget (g2D G) (0, true) = Ok D0 /\ tget (g2D G) (1, true) = Ok D1 /\
  D0 [1;2;3;4;5;6]%R = Ok g /\ D1 g = Ok [0;0;0]%R.
Proof.
  destruct sound_samples as (Sp & _ & Sr). destruct (C46_product_exists np_isclose gr gp (Logic.proj1 Sr) (Logic.proj1 Sp)) as (G & E). exists G.
  destruct (product_ok np_isclose gr gp (Logic.proj1 Sr) (Logic.proj1 Sp)) as (sx & sy & G' & _ & _ & E' & _ & _ & HN & _). rewrite E in E'. injection E' as <-.
  destruct (C42_dd np_isclose gr gp G true [1;2;3;4;5;6]%R (Logic.proj1 Sr) (Logic.proj1 Sp) E) as (D0 & D1 & g & n1 & n2 & E0 & E1 & En1 & En2 & Eg & _ & Ed); [rewrite HN; reflexivity|].
  exists D0, D1, g. rewrite HN in En2. cbv in En2. injection En2 as <-. auto.
Qed.
Example C43_instance : exists G, product np_isclose gr gp = Ok G /\ form_D (fun _ => grid_of2 G) (MkForm 2 true 0 [1;2;3]%R) = Err TypeError.
Proof.
  destruct sound_samples as (Sp & _ & Sr). destruct (C46_product_exists np_isclose gr gp (Logic.proj1 Sr) (Logic.proj1 Sp)) as (G & E). exists G.
  destruct (product_ok np_isclose gr gp (Logic.proj1 Sr) (Logic.proj1 Sp)) as (sx & sy & G' & _ & _ & E' & _ & _ & HN & _). rewrite E in E'. injection E' as <-.
  destruct (C43_d_top_refuted np_isclose gr gp G (fun _ => grid_of2 G) 0 true [1;2;3]%R (Logic.proj1 Sr) (Logic.proj1 Sp) E) as (D2 & _ & _ & H); [rewrite HN; reflexivity|reflexivity|auto].
Qed.
