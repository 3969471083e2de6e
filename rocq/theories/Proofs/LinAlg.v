(** A linear map with a left inverse between spaces of the same dimension is inverse to it on both sides. *)
From Coq Require Import ZArith Reals List Lia Arith Ring.
From Coq Require Import ZifyNat.
From Coquelicot Require Import Complex.
From Verif Require Import Model.Num Model.Np Proofs.ListLemmas Proofs.RingSums Proofs.Lin.
Import ListNotations.

Section LA.
Context {A : Type} `{NL : NumLaws A}.
Add Ring AringLA : num_ring.
Notation "0" := nzero. Notation "1" := none.
Infix "+" := nadd. Infix "*" := nmul. Infix "-" := nsub. Notation "- x" := (nopp x).
Hypothesis field_inv : forall x : A, {x = 0} + {exists y, x * y = 1}.
Hypothesis one_neq0 : 1 <> 0.

Definition skp (p i : nat) : nat := if Nat.ltb i p then i else S i.
Lemma bsum_skp n p (f : nat -> A) : (p <= n)%nat -> bsum (S n) f = f p + bsum n (fun i => f (skp p i)).
Proof.
  revert p. induction n as [|n IH]; intros p Hp.
  - assert (p = O) by lia. subst. simpl. ring.
  - destruct (Nat.eq_dec p (S n)).
    + subst. rewrite bsum_S_r.
      rewrite (bsum_ext (S n) (fun i => f (skp (S n) i)) f); [ring|].
      intros i Hi. unfold skp. destruct (Nat.ltb_spec i (S n)); [reflexivity|lia].
    + rewrite bsum_S_r, (IH p) by lia. rewrite bsum_S_r.
      replace (skp p n) with (S n); [ring|]. unfold skp. destruct (Nat.ltb_spec n p); lia.
Qed.
Lemma zero_or_pivot n (f : nat -> A) : (forall i, (i < n)%nat -> f i = 0) \/ (exists p y, (p < n)%nat /\ f p * y = 1).
Proof.
  induction n as [|n [IH|(p & y & Hp & E)]].
  - left. intros i Hi. lia.
  - destruct (field_inv (f n)) as [Z|[y E]].
    + left. intros i Hi. destruct (Nat.eq_dec i n); [now subst|apply IH; lia].
    + right. exists n, y. auto.
  - right. exists p, y. auto.
Qed.
(** n+1 vectors of dimension n are linearly dependent *)
Lemma dependent n (v : nat -> nat -> A) : exists c, (exists i, (i <= n)%nat /\ c i <> 0) /\
  forall j, (j < n)%nat -> bsum (S n) (fun i => c i * v i j) = 0.
Proof.
  revert v. induction n as [|n IH]; intro v.
  - exists (fun _ => 1). split; [exists O; auto|]. intros j Hj. lia.
  - destruct (zero_or_pivot (S (S n)) (fun i => v i n)) as [Z|(p & y & Hp & E)].
    + destruct (IH v) as (c & (i & Hi & Ci) & S0). exists (fun i => if Nat.leb i n then c i else 0). split.
      * exists i. split; [lia|]. destruct (Nat.leb_spec i n); [assumption|lia].
      * intros j Hj. destruct (Nat.eq_dec j n).
        -- subst. apply bsum_zero. intros k Hk. rewrite Z by lia. ring.
        -- rewrite bsum_S_r. destruct (Nat.leb_spec (S n) n); [lia|].
           rewrite (bsum_ext (S n) _ (fun i => c i * v i j)); [rewrite S0 by lia; ring|].
           intros k Hk. destruct (Nat.leb_spec k n); [reflexivity|lia].
    + cbv beta in E.
      destruct (IH (fun i j => v (skp p i) j - v (skp p i) n * y * v p j)) as (c & (i & Hi & Ci) & S0).
      set (cp := - bsum (S n) (fun i => c i * (v (skp p i) n * y))).
      exists (fun k => if Nat.eqb k p then cp else c (if Nat.ltb k p then k else (k - 1)%nat)).
      assert (forall i, (if Nat.eqb (skp p i) p then cp else c (if Nat.ltb (skp p i) p then skp p i else (skp p i - 1)%nat)) = c i) as X.
      { intro k. unfold skp. destruct (Nat.ltb_spec k p).
        - destruct (Nat.eqb_spec k p); [lia|]. destruct (Nat.ltb_spec k p); [reflexivity|lia].
        - destruct (Nat.eqb_spec (S k) p); [lia|]. destruct (Nat.ltb_spec (S k) p); [lia|]. f_equal. lia. }
      split.
      * exists (skp p i). split; [unfold skp; destruct (Nat.ltb_spec i p); lia|]. cbv beta. now rewrite X.
      * intros j Hj. rewrite (bsum_skp (S n) p) by lia. cbv beta. rewrite Nat.eqb_refl.
        rewrite (bsum_ext (S n) _ (fun i => c i * v (skp p i) j)) by (intros k _; now rewrite X).
        assert (bsum (S n) (fun i => c i * (v (skp p i) j - v (skp p i) n * y * v p j)) = bsum (S n) (fun i => c i * v (skp p i) j) + cp * v p j) as Y.
        { unfold cp. rewrite (bsum_ext _ _ (fun i => c i * v (skp p i) j - c i * (v (skp p i) n * y) * v p j)) by (intros; ring).
          rewrite bsum_minus, bsum_scal_r. ring. }
        transitivity (bsum (S n) (fun i => c i * v (skp p i) j) + cp * v p j); [ring|]. rewrite <- Y.
        destruct (Nat.eq_dec j n); [|apply S0; lia]. subst. apply bsum_zero. intros k _.
        replace (v (skp p k) n * y * v p n) with (v (skp p k) n * (v p n * y)) by ring. rewrite E. ring.
Qed.
Lemma inv_swap n g g' : lin n n g -> (forall f, length f = n -> length (g' f) = n) ->
  (forall f, length f = n -> g' (g f) = f) -> forall f, length f = n -> g (g' f) = f.
Proof.
  intros G L' I f L.
  destruct (dependent n (fun i j => if Nat.eqb i n then nth j f 0 else nth j (g (unit n i)) 0)) as (c & (k & Hk & Ck) & S0).
  assert (forall j, (j < n)%nat -> bsum n (fun i => nth j (g (unit n i)) 0 * c i) + c n * nth j f 0 = 0) as S1.
  { intros j Hj. etransitivity; [|exact (S0 j Hj)]. rewrite bsum_S_r, Nat.eqb_refl. f_equal. apply bsum_ext. intros i Hi. cbv beta. destruct (Nat.eqb_spec i n) as [->|_]; [exfalso; lia|ring]. }
  assert (forall w, (forall i, (i < n)%nat -> nth i w 0 = c i) -> length w = n -> g w = tab n (fun j => bsum n (fun i => nth j (g (unit n i)) 0 * c i))) as GW.
  { intros w Hw Lw. rewrite (lin_matrix n n g w G Lw). apply tab_ext. intros j _. apply bsum_ext. intros i Hi. now rewrite Hw. }
  destruct (field_inv (c n)) as [Z|[y E]].
  - exfalso. assert (g (tab n c) = g (repeat 0 n)) as X.
    { rewrite (GW (tab n c)) by (intros; rewrite ?nth_tab, ?length_tab; auto).
      rewrite (lin_matrix n n g (repeat 0 n) G (repeat_length _ _)). apply tab_ext. intros j Hj.
      transitivity (@nzero A _).
      - etransitivity; [|exact (S1 j Hj)]. rewrite Z. ring.
      - symmetry. apply bsum_zero. intros i _. rewrite nth_repeat. ring. }
    apply (f_equal g') in X. rewrite !I in X by (now rewrite ?length_tab, ?repeat_length).
    apply Ck. destruct (Nat.eq_dec k n); [now subst|].
    rewrite <- (nth_tab n c k 0) by lia. rewrite X. apply nth_repeat.
  - set (w := tab n (fun i => - (y * c i))).
    assert (f = g w) as ->; [|now rewrite I by (unfold w; now rewrite length_tab)].
    rewrite (lin_matrix n n g w G) by (apply length_tab). rewrite (list_tab 0 f), L. apply tab_ext. intros j Hj.
    transitivity (- (y * (bsum n (fun i => nth j (g (unit n i)) 0 * c i)))).
    + pose proof (S1 j Hj) as S2. replace (nth j f 0) with (c n * y * nth j f 0) by (rewrite E; ring).
      transitivity (y * (bsum n (fun i => nth j (g (unit n i)) 0 * c i) + c n * nth j f 0) - y * bsum n (fun i => nth j (g (unit n i)) 0 * c i)); [ring|].
      rewrite S2. ring.
    + unfold w. rewrite <- bsum_scal, <- bsum_opp. apply bsum_ext. intros i Hi. rewrite nth_tab by auto. ring.
Qed.
End LA.

Lemma field_R : forall x : R, {x = 0%R} + {exists y, (x * y)%R = 1%R}.
Proof. intro x. destruct (Req_EM_T x 0); [now left|right]. exists (/ x)%R. now field. Qed.
Lemma field_C : forall x : C, {x = RtoC 0} + {exists y, Cmult x y = RtoC 1}.
Proof.
  intro x. destruct (Ceq_dec x (RtoC 0)); [now left|right]. exists (Cinv x). now apply Cinv_r.
Qed.
Lemma inv_swap_R n (g g' : list R -> list R) : lin n n g -> (forall f, length f = n -> length (g' f) = n) ->
  (forall f, length f = n -> g' (g f) = f) -> forall f, length f = n -> g (g' f) = f.
Proof. apply (@inv_swap R NumR LawsR field_R). exact R1_neq_R0. Qed.
Lemma inv_swap_C n (g g' : list C -> list C) : lin n n g -> (forall f, length f = n -> length (g' f) = n) ->
  (forall f, length f = n -> g' (g f) = f) -> forall f, length f = n -> g (g' f) = f.
Proof. apply (@inv_swap C NumC LawsC field_C). intro E. apply (f_equal Re) in E. cbn in E. exact (R1_neq_R0 E). Qed.
