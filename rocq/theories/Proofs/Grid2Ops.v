(** The operators of the product grid on flat arrays given entry by entry. *)
From Coq Require Import ZArith Reals List Lia Lra Arith Bool.
From Coq Require Import ZifyNat ZifyBool.
From Verif Require Import Model.Sym.
From Coquelicot Require Import Coquelicot.
From Verif Require Import Model.Num Model.Np Model.Spectral Model.Basis Model.Grids1 Model.Regular Model.Chebyshev Model.Common Model.Decform Model.Grid2 Spec.Tiling
  Proofs.ListLemmas Proofs.RingSums Proofs.Grids1P Proofs.GridsThm Proofs.Lin Proofs.TableLin Proofs.Arr2 Proofs.Grid2P.
Import ListNotations.
Local Open Scope nat_scope.
Ltac Zify.zify_post_hook ::= Z.div_mod_to_equations.

(** an operator applied to every row, to every column *)
Definition onrows (m : nat) (g : list R -> list R) (F : nat -> nat -> R) (i j : nat) : R := nth j (g (tab m (F i))) 0%R.
Definition oncols (m : nat) (g : list R -> list R) (F : nat -> nat -> R) (i j : nat) : R := nth i (g (tab m (fun i => F i j))) 0%R.
Lemma onrows_ext m g F G i j : (forall k, k < m -> F i k = G i k) -> onrows m g F i j = onrows m g G i j.
Proof. intro E. unfold onrows. now rewrite (tab_ext m _ (G i)). Qed.
Lemma oncols_ext m g F G i j : (forall k, k < m -> F k j = G k j) -> oncols m g F i j = oncols m g G i j.
Proof. intro E. unfold oncols. now rewrite (tab_ext m _ (fun i => G i j)). Qed.
Lemma along1_flat o g r m n F : 0 < r -> lin m n g -> (forall f, length f = m -> o f = Ok (g f)) -> along1 o (mk2 r m F) = Ok (mk2 r n (onrows m g F)).
Proof. intros Hr Hg E. refine (along1_mk2 o g r m n F Hr _). intros l Hl. split; auto. now apply (lin_len m n g). Qed.
Lemma along0_flat o g c m n F : 0 < c -> lin m n g -> (forall f, length f = m -> o f = Ok (g f)) -> along0 o (mk2 m c F) = Ok (mk2 n c (oncols m g F)).
Proof. intros Hr Hg E. refine (along0_mk2 o g m c n F Hr _). intros l Hl. split; auto. now apply (lin_len m n g). Qed.
Lemma rows_cols r c p q g h F i j : lin c p g -> lin r q h -> i < q -> j < p -> onrows c g (oncols r h F) i j = oncols r h (onrows c g F) i j.
Proof. intros Hg Hh Hi Hj. exact (axes_commute (A := R) r c p q g h F i j Hg Hh Hi Hj). Qed.
Lemma onrows_inv c p g g' F i j : (forall l, length l = c -> g' (g l) = l) -> lin c p g -> j < c -> onrows p g' (onrows c g F) i j = F i j.
Proof.
  intros E L Hj. unfold onrows. 
  rewrite <- (lin_len c p g (tab c (F i)) L) at 1 by apply length_tab. rewrite <- (list_tab 0%R). rewrite E by apply length_tab. now rewrite nth_tab.
Qed.
Lemma oncols_inv c p g g' F i j : (forall l, length l = c -> g' (g l) = l) -> lin c p g -> i < c -> oncols p g' (oncols c g F) i j = F i j.
Proof. intros. exact (onrows_inv c p g g' (fun i j => F j i) j i ltac:(auto) ltac:(auto) ltac:(auto)). Qed.

Lemma onrows_opp c p g F i j : lin c p g -> j < p -> onrows c g (fun i j => - F i j)%R i j = (- onrows c g F i j)%R.
Proof.
  intros L Hj. unfold onrows. transitivity (nth j (g (tab c (fun k => bsum 1 (fun _ => (-1 * F i k)%R)))) 0%R).
  { do 2 f_equal. apply tab_ext. intros k Hk. cbn. ring. }
  etransitivity; [exact (nth_lin_bsum (A := R) c p g 1 (fun _ => (-1)%R) (fun _ => F i) j L Hj)|]. cbn. ring.
Qed.
Lemma oncols_opp c p g F i j : lin c p g -> i < p -> oncols c g (fun i j => - F i j)%R i j = (- oncols c g F i j)%R.
Proof. intros. exact (onrows_opp c p g (fun i j => F j i) j i ltac:(auto) ltac:(auto)). Qed.

(** ** the derivative *)
Definition dv (g : grid1) (t : bool) : list R -> list R := fun f => if t then grid_D0 (kd g) f else grid_D0d (kd g) f.
Lemma lin_dv g t : good g -> lin (Nd g 0 t) (Nd g 1 t) (dv g t).
Proof. intros [Hb _]. unfold dv, Nd. destruct t; [apply lin_D0|apply lin_D0d]. destruct (kd g); cbn in Hb; lia. Qed.
Section G.
Variables (close : C -> C -> bool) (gx gy : grid1).
Hypothesis Gx : good gx. Hypothesis Gy : good gy.
Notation shape := (table6 (shp2 gx gy)).
Lemma D0_flat t : exists o, tget (reshapeO shape (derivative (d1 (kd gx)) (d1 (kd gy)))) (0, t) = Ok o /\ forall F, o (flat (Nd gy 0 t) (Nd gx 0 t) F) =
    Ok (flat (Nd gy 0 t) (Nd gx 1 t) (onrows (Nd gx 0 t) (dv gx t) F) ++ flat (Nd gy 1 t) (Nd gx 0 t) (oncols (Nd gy 0 t) (dv gy t) F)).
Proof.
  destruct (op_get gx gy (fun d t => match d with 0 => D2_0 (d1 (kd gx) t) (d1 (kd gy) t) | 1 => D2_1 (d1 (kd gx) t) (d1 (kd gy) t) | _ => fun _ => Ok BInt end) 0 t ltac:(lia)) as (o & E & Eo).
  exists o. split; [exact E|]. intro F. rewrite Eo. cbn [shp2]. rewrite reshape_flat. cbn [bind]. unfold D2_0. cbn [get_arr bind].
  pose proof (Nd_pos gx 0 t Gx). pose proof (Nd_pos gy 0 t Gy).
  rewrite (along1_flat _ (dv gx t) _ _ (Nd gx 1 t)) by (auto using lin_dv). cbn [bind].
  rewrite (along0_flat _ (dv gy t) _ _ (Nd gy 1 t)) by (auto using lin_dv). cbn [bind]. rewrite unshape_mk22. reflexivity.
Qed.
Lemma D1_flat t : exists o, tget (reshapeO shape (derivative (d1 (kd gx)) (d1 (kd gy)))) (1, t) = Ok o /\ forall F F', o (flat (Nd gy 0 t) (Nd gx 1 t) F ++ flat (Nd gy 1 t) (Nd gx 0 t) F') =
    Ok (flat (Nd gy 1 t) (Nd gx 1 t) (fun i j => - oncols (Nd gy 0 t) (dv gy t) F i j + onrows (Nd gx 0 t) (dv gx t) F' i j)%R).
Proof.
  destruct (op_get gx gy (fun d t => match d with 0 => D2_0 (d1 (kd gx) t) (d1 (kd gy) t) | 1 => D2_1 (d1 (kd gx) t) (d1 (kd gy) t) | _ => fun _ => Ok BInt end) 1 t ltac:(lia)) as (o & E & Eo).
  exists o. split; [exact E|]. intros F F'. rewrite Eo. cbn [shp2]. rewrite reshape_flat2. cbn [bind]. unfold D2_1. cbn [get_pair bind fst snd].
  pose proof (Nd_pos gx 1 t Gx). pose proof (Nd_pos gy 1 t Gy).
  rewrite (along0_flat _ (dv gy t) _ _ (Nd gy 1 t)) by (auto using lin_dv). cbn [bind].
  rewrite (along1_flat _ (dv gx t) _ _ (Nd gx 1 t)) by (auto using lin_dv). cbn [bind]. rewrite neg2_mk2, bin2_mk2. cbn [bind]. rewrite unshape_mk2. reflexivity.
Qed.
Lemma D2_get t : exists o, tget (reshapeO shape (derivative (d1 (kd gx)) (d1 (kd gy)))) (2, t) = Ok o /\ forall f, length f = Nd gy 1 t * Nd gx 1 t -> o f = Err TypeError.
Proof.
  destruct (op_get gx gy (fun d t => match d with 0 => D2_0 (d1 (kd gx) t) (d1 (kd gy) t) | 1 => D2_1 (d1 (kd gx) t) (d1 (kd gy) t) | _ => fun _ => Ok BInt end) 2 t ltac:(lia)) as (o & E & Eo).
  exists o. split; [exact E|]. intros f L. rewrite Eo. cbn [shp2]. rewrite (flat_ent _ _ f L). rewrite reshape_flat. reflexivity.
Qed.

(** ** the Hodge stars *)
Hypothesis Hx : guarded close (kd gx) (sz gx). Hypothesis Hy : guarded close (kd gy) (sz gy).
Notation HT := (fun d t => match d with
   | 0 => H2_0 (hget close gx 0 t) (hget close gy 0 t) | 1 => H2_1 (hget close gx 0 t) (hget close gx 1 t) (hget close gy 0 t) (hget close gy 1 t) | _ => H2_0 (hget close gx 1 t) (hget close gy 1 t) end).
Notation lx d t := (Nd gx d t). Notation ly d t := (Nd gy d t).
Lemma H02_flat d t hx hy : d <= 1 -> lin (lx d t) (lx (1 - d) (negb t)) hx -> lin (ly d t) (ly (1 - d) (negb t)) hy ->
  (forall f, length f = lx d t -> hget close gx d t f = Ok (hx f)) -> (forall f, length f = ly d t -> hget close gy d t f = Ok (hy f)) ->
  exists o, tget (reshapeO shape (table6 HT)) (2 * d, t) = Ok o /\ forall F, o (flat (ly d t) (lx d t) F) = Ok (flat (ly (1 - d) (negb t)) (lx (1 - d) (negb t)) (onrows (lx d t) hx (oncols (ly d t) hy F))).
Proof.
  intros Hd Lx Ly Ex Ey. destruct (op_get gx gy HT (2 * d) t ltac:(lia)) as (o & E & Eo). exists o. split; [exact E|]. intro F. rewrite Eo.
  pose proof (Nd_pos gx d t Gx). pose proof (Nd_pos gy (1 - d) (negb t) Gy).
  replace (shp2 gx gy (2 * d) t) with (SInt (ly d t) (lx d t)) by (destruct d as [|[|d]]; [reflexivity|reflexivity|lia]). rewrite reshape_flat. cbn [bind].
  transitivity (bind (H2_0 (hget close gx d t) (hget close gy d t) (BArr (mk2 (ly d t) (lx d t) F))) (fun b => bind (unshape b) (fun r => Ok (fst r)))). { destruct d as [|[|d]]; [reflexivity|reflexivity|lia]. }
  unfold H2_0. cbn [get_arr bind]. rewrite (along0_flat _ hy _ _ (ly (1 - d) (negb t))) by auto. cbn [bind]. rewrite (along1_flat _ hx _ _ (lx (1 - d) (negb t))) by auto. cbn [bind]. rewrite unshape_mk2. reflexivity.
Qed.
Lemma H1_flat t hx0 hx1 hy0 hy1 : (forall d hx, In (d, hx) [(0, hx0); (1, hx1)] -> lin (lx d t) (lx (1 - d) (negb t)) hx /\ (forall f, length f = lx d t -> hget close gx d t f = Ok (hx f))) ->
  (forall d hy, In (d, hy) [(0, hy0); (1, hy1)] -> lin (ly d t) (ly (1 - d) (negb t)) hy /\ (forall f, length f = ly d t -> hget close gy d t f = Ok (hy f))) ->
  exists o, tget (reshapeO shape (table6 HT)) (1, t) = Ok o /\ forall F F', o (flat (ly 0 t) (lx 1 t) F ++ flat (ly 1 t) (lx 0 t) F') =
   Ok (flat (ly 0 (negb t)) (lx 1 (negb t)) (fun i j => - onrows (lx 0 t) hx0 (oncols (ly 1 t) hy1 F') i j)%R ++
       flat (ly 1 (negb t)) (lx 0 (negb t)) (oncols (ly 0 t) hy0 (onrows (lx 1 t) hx1 F))).
Proof.
  intros Kx Ky. destruct (Kx 0 hx0) as [Lx0 Ex0]; [now left|]. destruct (Kx 1 hx1) as [Lx1 Ex1]; [right; now left|]. destruct (Ky 0 hy0) as [Ly0 Ey0]; [now left|]. destruct (Ky 1 hy1) as [Ly1 Ey1]; [right; now left|].
  destruct (op_get gx gy HT 1 t ltac:(lia)) as (o & E & Eo). exists o. split; [exact E|]. intros F F'. rewrite Eo. cbn [shp2]. rewrite reshape_flat2. cbn [bind]. unfold H2_1. cbn [get_pair bind fst snd].
  cbn [Nat.sub] in *.
  pose proof (Nd_pos gx 0 t Gx). pose proof (Nd_pos gx 0 (negb t) Gx). pose proof (Nd_pos gy 0 t Gy). pose proof (Nd_pos gy 0 (negb t) Gy).
  rewrite (along0_flat _ hy1 _ _ (ly 0 (negb t))) by auto. cbn [bind]. rewrite (along1_flat _ hx0 _ _ (lx 1 (negb t))) by auto. cbn [bind].
  rewrite (along1_flat _ hx1 _ _ (lx 0 (negb t))) by auto. cbn [bind]. rewrite (along0_flat _ hy0 _ _ (ly 1 (negb t))) by auto. cbn [bind]. rewrite neg2_mk2, unshape_mk22. reflexivity.
Qed.
End G.
