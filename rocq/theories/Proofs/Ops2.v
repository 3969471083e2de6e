(** The derivatives and Hodge stars of a product grid as linear functions of the flat arrays, and Stokes' theorem for them. *)
From Coq Require Import ZArith Reals List Lia Lra Arith Bool.
From Coq Require Import ZifyNat ZifyBool.
From Verif Require Import Model.Sym.
From Coquelicot Require Import Coquelicot.
From Verif Require Import Model.Num Model.Np Model.Spectral Model.Basis Model.Grids1 Model.Regular Model.Chebyshev Model.Common Model.Decform Model.Grid2 Model.Laplacian Spec.Trig Spec.Tiling
  Proofs.ListLemmas Proofs.RingSums Proofs.Sums Proofs.Grids1P Proofs.GridsThm Proofs.Lin Proofs.Mirror Proofs.TableLin Proofs.Arr2 Proofs.Grid2P Proofs.Grid2Ops Proofs.LaplaceP Proofs.Cohomology Proofs.Gram Proofs.InjSurj
  Props.Grid1 Props.Grid2 Props.Exact1 Props.Laplacian Props.Cohomology Props.Energy Props.Poisson2.
Import ListNotations.
Local Open Scope R_scope.
Ltac Zify.zify_post_hook ::= Z.div_mod_to_equations.

Lemma lin_skipn k m : (k <= m)%nat -> lin (A := R) m (m - k) (skipn k).
Proof. intro H. apply (lin_reindex _ _ _ (fun j => (k + j)%nat)); [intros f L; rewrite skipn_length; lia|]. intros f j L Hj. apply nth_firstn_skipn. Qed.
Lemma lin_part0 p q : lin (A := R) (p + q) p (firstn p). Proof. apply lin_firstn. lia. Qed.
Lemma lin_part1 p q : lin (A := R) (p + q) q (skipn p). Proof. pose proof (lin_skipn p (p + q) ltac:(lia)) as H. replace (p + q - p)%nat with q in H by lia. exact H. Qed.
Lemma lin_oppR m n (g : list R -> list R) : lin m n g -> lin m n (fun f => map Ropp (g f)). Proof. exact (lin_opp (A := R) m n g). Qed.
Section P.
Variables (close : C -> C -> bool) (gx gy : grid1) (G : grid2).
Hypothesis Sx : sound close gx. Hypothesis Sy : sound close gy. Hypothesis EG : product close gx gy = Ok G.
Let Gx : good gx := Logic.proj1 Sx. Let Gy : good gy := Logic.proj1 Sy.
Lemma two_parts t w : length w = N2 gx gy 1 t -> w = flat (Nd gy 0 t) (Nd gx 1 t) (ent (Nd gx 1 t) (firstn (Nd gy 0 t * Nd gx 1 t) w)) ++ flat (Nd gy 1 t) (Nd gx 0 t) (ent (Nd gx 0 t) (skipn (Nd gy 0 t * Nd gx 1 t) w)).
Proof. intro L. cbn [N2] in L. rewrite <- !flat_ent by (rewrite ?firstn_length, ?skipn_length; lia). symmetry. apply firstn_skipn. Qed.
Lemma D0_fun t : exists D, lin (N2 gx gy 0 t) (N2 gx gy 1 t) D /\ forall f, isform G 0 t f -> deriv G 0 t f (D f).
Proof.
  exists (fun f => flat (Nd gy 0 t) (Nd gx 1 t) (onrows (Nd gx 0 t) (dv gx t) (ent (Nd gx 0 t) f)) ++ flat (Nd gy 1 t) (Nd gx 0 t) (oncols (Nd gy 0 t) (dv gy t) (ent (Nd gx 0 t) f))). split.
  - cbn [N2]. apply lin_app; [apply lin_rows|apply lin_cols]; now apply lin_dv.
  - intros f Ff. rewrite (form0 close gx gy G t Gx Gy EG f Ff) at 1. now apply (deriv0 close gx gy G t Gx Gy EG).
Qed.
Lemma D1_fun t : exists D, lin (N2 gx gy 1 t) (N2 gx gy 2 t) D /\ forall f, isform G 1 t f -> deriv G 1 t f (D f).
Proof.
  set (p := (Nd gy 0 t * Nd gx 1 t)%nat).
  exists (fun w => vadd (map Ropp (flat (Nd gy 1 t) (Nd gx 1 t) (oncols (Nd gy 0 t) (dv gy t) (ent (Nd gx 1 t) (firstn p w))))) (flat (Nd gy 1 t) (Nd gx 1 t) (onrows (Nd gx 0 t) (dv gx t) (ent (Nd gx 0 t) (skipn p w))))). split.
  - cbn [N2]. apply lin_vadd; [apply lin_oppR|].
    + exact (lin_comp (A := R) _ _ _ _ _ (lin_part0 _ _) (lin_cols (Nd gx 1 t) _ _ _ (lin_dv gy t Gy))).
    + exact (lin_comp (A := R) _ _ _ _ _ (lin_part1 _ _) (lin_rows (Nd gy 1 t) _ _ _ (lin_dv gx t Gx))).
  - intros w Fw. apply (isform_len close gx gy G t Gx Gy EG 1 w ltac:(lia)) in Fw. rewrite (two_parts t w Fw) at 1. apply (deriv1 close gx gy G t Gx Gy EG). rewrite flat_opp. unfold vadd. rewrite flat_zip. reflexivity.
Qed.
Lemma S_fun d t : (d <= 2)%nat -> exists S, lin (N2 gx gy d t) (N2 gx gy (2 - d) (negb t)) S /\ forall f, isform G d t f -> star G d t f (S f).
Proof.
  intro Hd. assert (d = 1%nat \/ exists e, (e <= 1)%nat /\ d = (2 * e)%nat) as [->|(e & He & ->)] by (destruct d as [|[|[|d]]]; [right; exists 0%nat|left|right; exists 1%nat|]; lia).
  - destruct (h_pair close gx 0 t Sx ltac:(lia)) as (hx0 & _ & Lx0 & _ & Ex0 & _). destruct (h_pair close gx 1 t Sx ltac:(lia)) as (hx1 & _ & Lx1 & _ & Ex1 & _).
    destruct (h_pair close gy 0 t Sy ltac:(lia)) as (hy0 & _ & Ly0 & _ & Ey0 & _). destruct (h_pair close gy 1 t Sy ltac:(lia)) as (hy1 & _ & Ly1 & _ & Ey1 & _). cbn [Nat.sub] in *.
    destruct (H1_flat close gx gy Gx Gy t hx0 hx1 hy0 hy1) as (o & Eo & Ho); [intros d h [[= <- <-]|[[= <- <-]|[]]]; split; assumption..|].
    set (p := (Nd gy 0 t * Nd gx 1 t)%nat). set (mx := Nd gx 0 t) in *. set (nx := Nd gx 1 t) in *. set (my := Nd gy 0 t) in *. set (ny := Nd gy 1 t) in *.
    set (S0 := fun w => flat (Nd gy 0 (negb t)) (Nd gx 1 (negb t)) (onrows mx hx0 (ent mx (flat (Nd gy 0 (negb t)) mx (oncols ny hy1 (ent mx (skipn p w))))))).
    set (S1 := fun w => flat (Nd gy 1 (negb t)) (Nd gx 0 (negb t)) (oncols my hy0 (ent (Nd gx 0 (negb t)) (flat my (Nd gx 0 (negb t)) (onrows nx hx1 (ent nx (firstn p w))))))).
    exists (fun w => map Ropp (S0 w) ++ S1 w). split.
    + cbn [N2]. fold mx nx my ny p. apply lin_app; [apply lin_oppR|].
      * exact (lin_comp (A := R) _ _ _ _ _ (lin_comp (A := R) _ _ _ _ _ (lin_part1 p _) (lin_cols mx _ _ _ Ly1)) (lin_rows (Nd gy 0 (negb t)) _ _ _ Lx0)).
      * exact (lin_comp (A := R) _ _ _ _ _ (lin_comp (A := R) _ _ _ _ _ (lin_part0 p _) (lin_rows my _ _ _ Lx1)) (lin_cols (Nd gx 0 (negb t)) _ _ _ Ly0)).
    + intros w Fw. apply (isform_len close gx gy G t Gx Gy EG 1 w ltac:(lia)) in Fw. unfold star. rewrite (hodge_field close gx gy G Gx Gy EG). exists o. split; [exact Eo|]. rewrite (two_parts t w Fw) at 1. fold p mx nx my ny. rewrite Ho. f_equal. unfold S0, S1. rewrite flat_opp. f_equal; apply flat_ext; intros i j Hi Hj.
      * f_equal. apply onrows_ext. intros k Hk. symmetry. now apply ent_flatR.
      * apply oncols_ext. intros k Hk. symmetry. now apply ent_flatR.
  - destruct (h_pair close gx e t Sx He) as (hx & _ & Lx & _ & Ex & _). destruct (h_pair close gy e t Sy He) as (hy & _ & Ly & _ & Ey & _). destruct (H02_flat close gx gy Gx Gy e t hx hy He) as (o & Eo & Ho); auto.
    assert (N2 gx gy (2 * e) t = (Nd gy e t * Nd gx e t)%nat) as N1 by (destruct e as [|[|e]]; [reflexivity|reflexivity|lia]).
    assert (N2 gx gy (2 - 2 * e) (negb t) = (Nd gy (1 - e) (negb t) * Nd gx (1 - e) (negb t))%nat) as N1' by (destruct e as [|[|e]]; [reflexivity|reflexivity|lia]).
    exists (fun f => flat (Nd gy (1 - e) (negb t)) (Nd gx (1 - e) (negb t)) (onrows (Nd gx e t) hx (ent (Nd gx e t) (flat (Nd gy (1 - e) (negb t)) (Nd gx e t) (oncols (Nd gy e t) hy (ent (Nd gx e t) f)))))). split.
    + rewrite N1, N1'. exact (lin_comp (A := R) _ _ _ _ _ (lin_cols (Nd gx e t) _ _ _ Ly) (lin_rows (Nd gy (1 - e) (negb t)) _ _ _ Lx)).
    + intros f Ff. apply (isform_len close gx gy G t Gx Gy EG _ f Hd) in Ff. rewrite N1 in Ff. unfold star. rewrite (hodge_field close gx gy G Gx Gy EG). exists o. split; [exact Eo|]. rewrite (flat_ent _ _ f Ff) at 1. rewrite Ho. f_equal. apply flat_ext. intros i j Hi Hj.
      apply onrows_ext. intros k Hk. symmetry. now apply ent_flatR.
Qed.
(** Stokes: the sum of a * D b over faces is minus the sum of D a * b over edges, for a 0-form a and a 1-form b on the dual cells *)
Lemma stokes01 t a b Da Db : isform G 0 t a -> isform G 1 (negb t) b -> deriv G 0 t a Da -> deriv G 1 (negb t) b Db -> pairing a Db = - pairing2 gx gy 1 t Da b.
Proof.
  intros Fa Fb HDa HDb. pose proof (form0 close gx gy G t Gx Gy EG a Fa) as Ea. rewrite Ea in HDa. apply (deriv0 close gx gy G t Gx Gy EG) in HDa.
  apply (isform_len close gx gy G (negb t) Gx Gy EG 1 b ltac:(lia)) in Fb. pose proof (two_parts (negb t) b Fb) as Eb. rewrite Eb in HDb. apply (deriv1 close gx gy G (negb t) Gx Gy EG) in HDb.
  rewrite (X0 gx t), (X1 gx t), (Y0 gy t), (Y1 gy t) in *. set (mx := Nd gx 0 t) in *. set (nx := Nd gx 1 t) in *. set (my := Nd gy 0 t) in *. set (ny := Nd gy 1 t) in *.
  set (B := ent mx (firstn (ny * mx) b)) in *. set (B' := ent nx (skipn (ny * mx) b)) in *. set (A := ent mx a) in *.
  assert (b = flat ny mx (fun i j => - (- B i j)) ++ flat my nx B') as Eb'. { rewrite Eb at 1. f_equal. apply flat_ext. intros; ring. }
  rewrite HDa, Eb'. rewrite (pairing2_turned gx gy t) by apply length_flat. rewrite HDb. rewrite (pairing_dot _ _ (my * mx)) by (rewrite ?length_flat; auto; rewrite Ea; apply length_flat). rewrite Ea at 1.
  rewrite !dot_flat. fold mx nx my ny.
  rewrite (Rsum_ext my _ (fun i => - Rsum mx (fun j => A i j * oncols ny (dv gy (negb t)) B i j) + Rsum mx (fun j => A i j * onrows nx (dv gx (negb t)) B' i j))) by (intros i Hi; rewrite <- Rsum_opp, <- Rsum_plus; apply Rsum_ext; intros; ring).
  rewrite Rsum_plus, Ropp_plus_distr, Rplus_comm. f_equal.
  - rewrite <- Rsum_opp. apply Rsum_ext. intros i Hi.
    pose proof (adjoint_dv gx t (tab mx (A i)) (tab nx (B' i)) Gx (length_tab _ _)) as Q. rewrite (X1 gx t), length_tab in Q. specialize (Q eq_refl). fold mx nx in Q.
    unfold dot in Q. rewrite (Rsum_ext mx _ (fun j => nth j (tab mx (A i)) 0 * nth j (dv gx (negb t) (tab nx (B' i))) 0)) by (intros j Hj; now rewrite nth_tab). rewrite Q. f_equal. apply Rsum_ext. intros j Hj. now rewrite nth_tab.
  - rewrite Rsum_opp. f_equal. rewrite (Rsum_swap my mx), (Rsum_swap ny mx). apply Rsum_ext. intros j Hj.
    pose proof (adjoint_dv gy t (tab my (fun i => A i j)) (tab ny (fun i => B i j)) Gy (length_tab _ _)) as Q. rewrite (Y1 gy t), length_tab in Q. specialize (Q eq_refl). fold my ny in Q.
    unfold dot in Q. rewrite (Rsum_ext my _ (fun i => nth i (tab my (fun i => A i j)) 0 * nth i (dv gy (negb t) (tab ny (fun i => B i j))) 0)) by (intros i Hi; now rewrite nth_tab). rewrite Q. rewrite <- Rsum_opp. apply Rsum_ext. intros i Hi. rewrite nth_tab by auto. unfold oncols. ring.
Qed.
Lemma pairing2_anti t a b : length a = N2 gx gy 1 t -> length b = N2 gx gy 1 (negb t) -> pairing2 gx gy 1 t a b = - pairing2 gx gy 1 (negb t) b a.
Proof.
  intros La Lb. unfold pairing2, horizontal. cbn [Nat.eqb N2] in *. rewrite negb_involutive. rewrite (X0 gx t), (X1 gx t), (Y0 gy t), (Y1 gy t) in *.
  set (mx := Nd gx 0 t) in *. set (nx := Nd gx 1 t) in *. set (my := Nd gy 0 t) in *. set (ny := Nd gy 1 t) in *.
  rewrite (pairing_dot _ _ (my * nx)), (pairing_dot _ _ (ny * mx)), (pairing_dot (firstn _ b) _ (ny * mx)), (pairing_dot (skipn _ b) _ (my * nx)) by (rewrite ?firstn_length, ?skipn_length; lia).
  rewrite (dot_sym _ (skipn _ a)), (dot_sym _ (firstn _ a)). ring.
Qed.
End P.
