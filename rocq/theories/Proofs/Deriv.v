(** Adjointness, kernel, image and matrix of the discrete derivative (C06, C07, C08). *)
From Coq Require Import ZArith Reals List Lia Lra Arith Ring.
From Coq Require Import ZifyNat.
From Coquelicot Require Import Coquelicot.
From Verif Require Import Model.Num Model.Np Model.Spectral Model.Basis Model.Grids1
  Proofs.ListLemmas Proofs.Sums Proofs.RingSums Proofs.Grids1P Proofs.GridsThm.
Import ListNotations.
Local Open Scope nat_scope.

Section Deriv.
Context {A : Type} `{NL : NumLaws A}.
Add Ring Aring2 : num_ring.
Notation "0" := nzero. Notation "1" := none.
Infix "+!" := nadd (at level 50, left associativity). Infix "*!" := nmul (at level 40, left associativity).
Infix "-!" := nsub (at level 50, left associativity). Notation "-! x" := (nopp x) (at level 35).
Notation z := (@nzero A _).

Lemma diff_tabA n (f : nat -> A) : diff (tab (S n) f) = tab n (fun i => f (S i) -! f i).
Proof.
  unfold diff. rewrite tl_tab. apply list_eq_nth with (d := z); unfold vsub; [len; lia|].
  len. intros i Hi. rewrite nth_zipw with (dx := z) (dy := z) by (len; lia). rewrite !nth_tab by lia. reflexivity.
Qed.
Lemma vmul_tabA n (f g : nat -> A) : vmul (tab n f) (tab n g) = tab n (fun i => f i *! g i).
Proof. unfold vmul. now rewrite zipw_tab. Qed.
Lemma D0_periodic_tab n (f : nat -> A) : 0 < n ->
  D0_periodic (tab n f) = tab n (fun i => f (if Nat.eqb (i + 1) n then O else i + 1) -! f i).
Proof. intro H'. unfold D0_periodic, vsub. rewrite roll_m1_tab by auto. now rewrite zipw_tab. Qed.
Lemma D0d_periodic_tab n (f : nat -> A) : 0 < n ->
  D0d_periodic (tab n f) = tab n (fun i => f i -! f (if Nat.eqb i O then n - 1 else i - 1)).
Proof.
  intro H'. unfold D0d_periodic. rewrite D0_periodic_tab, roll_1_tab by auto. apply tab_ext. intros i Hi.
  destruct (Nat.eqb_spec i O) as [->|E].
  - destruct (Nat.eqb_spec (n - 1 + 1) n); [reflexivity|lia].
  - destruct (Nat.eqb_spec (i - 1 + 1) n); [lia|]. do 2 f_equal. lia.
Qed.
Lemma D0d_interval_tab n (f : nat -> A) : 
  D0d_interval (tab n f) = tab (S n) (fun i => (if Nat.eqb i n then 0 else f i) -! (if Nat.eqb i O then 0 else f (i - 1))).
Proof.
  unfold D0d_interval. rewrite bracket_tab, diff_tabA. apply tab_ext. intros i Hi.
  simpl (Nat.eqb (S i) 0). simpl (Nat.eqb (S i) (S n)). cbv iota. replace (S i - 1) with i by lia.
  destruct (Nat.eqb_spec i (S n)); [lia|]. reflexivity.
Qed.

Lemma bsum_rot1 n (h : nat -> nat -> A) : 0 < n ->
  bsum n (fun i => h (if Nat.eqb (i + 1) n then O else i + 1) i) = bsum n (fun i => h i (if Nat.eqb i O then n - 1 else i - 1)).
Proof.
  intro Hn. destruct n as [|n]; [lia|]. rewrite (bsum_S_l n (fun i => h i (if Nat.eqb i O then S n - 1 else i - 1))), bsum_S_r.
  destruct (Nat.eqb_spec (n + 1) (S n)); [|lia]. simpl (Nat.eqb 0 0). cbv iota. replace (S n - 1) with n by lia.
  rewrite (bsum_ext n (fun i => h (if Nat.eqb (i + 1) (S n) then O else i + 1) i) (fun i => h (S i) i)).
  2:{ intros i Hi. destruct (Nat.eqb_spec (i + 1) (S n)); [lia|]. f_equal. lia. }
  rewrite (bsum_ext n (fun i => h (S i) (if Nat.eqb (S i) 0 then n else S i - 1)) (fun i => h (S i) i)).
  2:{ intros i Hi. simpl. f_equal. lia. }
  ring.
Qed.

Lemma adjoint_periodic (f g : list A) : length f = length g -> 0 < length f ->
  lsum (vmul (D0_periodic f) g) = -! lsum (vmul f (D0d_periodic g)).
Proof.
  intros L Hn. rewrite (list_tab z f), (list_tab z g), <- L. set (n := length f) in *.
  rewrite D0_periodic_tab, D0d_periodic_tab by auto. rewrite !vmul_tabA, !lsum_tab.
  set (u := fun i => nth i f z). set (w := fun i => nth i g z).
  transitivity (bsum n (fun i => u (if Nat.eqb (i + 1) n then O else i + 1) *! w i) -! bsum n (fun i => u i *! w i)).
  { rewrite <- bsum_minus. apply bsum_ext. intros. unfold u, w. ring. }
  rewrite (bsum_rot1 n (fun i j => u i *! w j)) by auto. rewrite <- bsum_opp, <- bsum_minus. apply bsum_ext.
  intros. unfold u, w. ring.
Qed.

Lemma adjoint_interval (f g : list A) : length f = S (length g) ->
  lsum (vmul (D0_interval f) g) = -! lsum (vmul f (D0d_interval g)).
Proof.
  intros L. rewrite (list_tab z f), (list_tab z g), L. set (n := length g) in *.
  unfold D0_interval. rewrite diff_tabA, D0d_interval_tab. rewrite !vmul_tabA, !lsum_tab.
  set (u := fun i => nth i f z). set (w := fun i => nth i g z).
  transitivity (bsum n (fun i => u (S i) *! w i) -! bsum n (fun i => u i *! w i)).
  { rewrite <- bsum_minus. apply bsum_ext. intros. unfold u, w. ring. }
  transitivity (-! (bsum (S n) (fun i => u i *! (if Nat.eqb i n then 0 else w i)) -! bsum (S n) (fun i => u i *! (if Nat.eqb i O then 0 else w (i - 1))))).
  2:{ rewrite <- bsum_minus. f_equal. apply bsum_ext. intros. unfold u, w.
      destruct (Nat.eqb i n), (Nat.eqb i O); ring. }
  rewrite (bsum_S_l n (fun i => u i *! (if Nat.eqb i O then 0 else w (i - 1)))).
  rewrite (bsum_S_r n (fun i => u i *! (if Nat.eqb i n then 0 else w i))). rewrite Nat.eqb_refl. simpl (Nat.eqb 0 0). cbv iota.
  rewrite (bsum_ext n (fun i => u i *! (if Nat.eqb i n then 0 else w i)) (fun i => u i *! w i)).
  2:{ intros i Hi. destruct (Nat.eqb_spec i n); [lia|reflexivity]. }
  rewrite (bsum_ext n (fun i => u (S i) *! (if Nat.eqb (S i) 0 then 0 else w (S i - 1))) (fun i => u (S i) *! w i)).
  2:{ intros i Hi. simpl. rewrite Nat.sub_0_r. reflexivity. }
  ring.
Qed.

(** C07 *)
Lemma zeros_tab n : zeros n = tab n (fun _ => z).
Proof.
  apply list_eq_nth with (d := z); unfold zeros; [now len|].
  intros i Hi. rewrite repeat_length in Hi. rewrite nth_tab by auto. apply nth_repeat.
Qed.
Lemma tab_inj n (f g : nat -> A) : tab n f = tab n g -> forall i, i < n -> f i = g i.
Proof. intros E i Hi. rewrite <- (nth_tab n f i z Hi), E. now apply nth_tab. Qed.
Lemma sub0 (a b : A) : a -! b = 0 <-> a = b.
Proof. split; intro E; [|subst; ring]. transitivity ((a -! b) +! b); [ring|]. rewrite E. ring. Qed.

Lemma kernel_periodic (f : list A) : 0 < length f ->
  (D0_periodic f = zeros (length f) <-> forall i j, i < length f -> j < length f -> nth i f z = nth j f z).
Proof.
  intro Hn. rewrite (list_tab z f) at 1. rewrite D0_periodic_tab, zeros_tab by auto. set (n := length f) in *. split.
  - intro E. pose proof (tab_inj _ _ _ E) as E'. cbv beta in E'.
    assert (forall i, i < n -> nth i f z = nth 0 f z) as C.
    { induction i as [|i IH]; intro Hi; [reflexivity|]. specialize (E' i ltac:(lia)).
      destruct (Nat.eqb_spec (i + 1) n); [lia|]. apply (Logic.proj1 (sub0 _ _)) in E'. replace (S i) with (i + 1) by lia. rewrite E'. apply IH. lia. }
    intros i j Hi Hj. rewrite C, (C j); auto.
  - intro C. apply tab_ext. intros i Hi. apply (Logic.proj2 (sub0 _ _)). apply C; auto. destruct (Nat.eqb_spec (i + 1) n); lia.
Qed.
Lemma kernel_interval (f : list A) :
  (D0_interval f = zeros (length f - 1) <-> forall i j, i < length f -> j < length f -> nth i f z = nth j f z).
Proof.
  destruct (length f) as [|n] eqn:L.
  { destruct f; [|discriminate]. split; [intros; lia|reflexivity]. }
  rewrite (list_tab z f) at 1. rewrite L. unfold D0_interval. rewrite diff_tabA, zeros_tab.
  replace (S n - 1) with n by lia. split.
  - intro E. pose proof (tab_inj _ _ _ E) as E'. cbv beta in E'.
    assert (forall i, i < S n -> nth i f z = nth 0 f z) as C.
    { induction i as [|i IH]; intro Hi; [reflexivity|]. specialize (E' i ltac:(lia)). apply (Logic.proj1 (sub0 _ _)) in E'. rewrite E'. apply IH. lia. }
    intros i j Hi Hj. rewrite C, (C j); auto.
  - intro C. apply tab_ext. intros i Hi. apply (Logic.proj2 (sub0 _ _)). apply C; lia.
Qed.

Lemma image_periodic (g : list A) : 0 < length g ->
  ((exists f, length f = length g /\ D0_periodic f = g) <-> lsum g = 0).
Proof.
  intro Hn. split.
  - intros [f [L E]]. rewrite <- E, (list_tab z f), L, D0_periodic_tab, lsum_tab by lia. rewrite bsum_minus.
    rewrite (bsum_rot1 (length g) (fun i _ => nth i f z)) by auto. ring.
  - intro E. rewrite (lsum_bsum g z) in E. set (n := length g) in *.
    exists (tab n (fun i => bsum i (fun j => nth j g z))). split; [now len|].
    rewrite D0_periodic_tab by auto. etransitivity; [|symmetry; apply (list_tab z)]. apply tab_ext. intros i Hi.
    destruct (Nat.eqb_spec (i + 1) n) as [E1|E1].
    + simpl. assert (bsum (S i) (fun j => nth j g z) = 0) as E2 by (replace (S i) with n by lia; exact E).
      simpl in E2. apply (Logic.proj1 (sub0 _ _)).
      transitivity (0 -! (bsum i (fun j => nth j g z) +! nth i g z)); [ring|]. rewrite E2. ring.
    + replace (i + 1) with (S i) by lia. simpl. ring.
Qed.
Lemma image_interval (g : list A) : exists f, length f = S (length g) /\ D0_interval f = g.
Proof.
  exists (tab (S (length g)) (fun i => bsum i (fun j => nth j g z))). split; [now len|].
  unfold D0_interval. rewrite diff_tabA. etransitivity; [|symmetry; apply (list_tab z)]. apply tab_ext. intros i Hi. simpl. ring.
Qed.
Lemma dual_injective (f g : list A) : length f = length g -> D0d_interval f = D0d_interval g -> f = g.
Proof.
  intros L E. rewrite (list_tab z f), (list_tab z g), <- L in E |- *. rewrite !D0d_interval_tab in E.
  pose proof (tab_inj _ _ _ E) as E'. cbv beta in E'. apply tab_ext.
  induction i as [|i IH]; intro Hi.
  - specialize (E' O ltac:(lia)). destruct (Nat.eqb_spec O (length f)); [lia|]. simpl in E'.
    transitivity ((nth O f z -! 0) +! 0); [ring|]. rewrite E'. ring.
  - specialize (E' (S i) ltac:(lia)). destruct (Nat.eqb_spec (S i) (length f)); [lia|]. simpl (Nat.eqb (S i) 0) in E'. cbv iota in E'.
    replace (S i - 1) with i in E' by lia. rewrite <- IH in E' by lia.
    transitivity ((nth (S i) f z -! nth i f z) +! nth i f z); [ring|]. rewrite E'. ring.
Qed.
End Deriv.

(** C08 *)
Lemma sparse_entry_app t1 t2 i j : sparse_entry (t1 ++ t2) i j = (sparse_entry t1 i j + sparse_entry t2 i j)%Z.
Proof.
  assert (forall t acc, fold_left (fun acc e => let '(r, c, v) := e in if (Nat.eqb r i && Nat.eqb c j)%bool then (acc + v)%Z else acc) t acc
     = (acc + sparse_entry t i j)%Z) as Hf.
  { induction t as [|[[r c] v] t IH]; intro acc; unfold sparse_entry; simpl; [lia|].
    rewrite !IH.
    destruct (Nat.eqb r i && Nat.eqb c j)%bool; lia. }
  unfold sparse_entry. rewrite fold_left_app, Hf. reflexivity.
Qed.
Lemma sparse_entry_fun (n s : nat) (c : nat -> nat) v i j :
  sparse_entry (combine (combine (seq s n) (map c (seq s n))) (repeat v n)) i j =
  if (Nat.leb s i && Nat.ltb i (s + n) && Nat.eqb (c i) j)%bool then v else 0%Z.
Proof.
  revert s. induction n as [|n IH]; intro s.
  - simpl. destruct (Nat.leb_spec s i), (Nat.ltb_spec i (s + 0)); try lia; reflexivity.
  - simpl. change ((s, c s, v) :: combine (combine (seq (S s) n) (map c (seq (S s) n))) (repeat v n)) with
      ([(s, c s, v)] ++ combine (combine (seq (S s) n) (map c (seq (S s) n))) (repeat v n)).
    rewrite sparse_entry_app, IH. unfold sparse_entry. simpl fold_left.
    destruct (Nat.eqb_spec s i) as [->|E].
    + destruct (Nat.leb_spec (S i) i); [lia|]. destruct (Nat.leb_spec i i); [|lia].
      destruct (Nat.ltb_spec i (i + S n)); [|lia]. simpl. destruct (Nat.eqb (c i) j); lia.
    + destruct (Nat.leb_spec (S s) i), (Nat.leb_spec s i), (Nat.ltb_spec i (S s + n)), (Nat.ltb_spec i (s + S n)); try lia; simpl; try reflexivity.
Qed.
Lemma derivative_triplets_entry n i j : i < n ->
  sparse_entry (derivative_triplets n) i j =
  ((if Nat.eqb (if Nat.eqb (i + 1) n then 0 else i + 1) j then 1 else 0) - (if Nat.eqb i j then 1 else 0))%Z.
Proof.
  intro Hi. unfold derivative_triplets. rewrite sparse_entry_app.
  replace (roll (-1) (seq 0 n)) with (map (fun i => if Nat.eqb (i + 1) n then 0 else i + 1) (seq 0 n)).
  2:{ change (map (fun i => if Nat.eqb (i + 1) n then 0 else i + 1) (seq 0 n)) with (tab n (fun i => if Nat.eqb (i + 1) n then 0 else i + 1)).
      replace (seq 0 n) with (tab n (fun i => i)) by apply map_id. now rewrite roll_m1_tab by lia. }
  rewrite sparse_entry_fun. replace (combine (seq 0 n) (seq 0 n)) with (combine (seq 0 n) (map (fun i => i) (seq 0 n))) by (now rewrite map_id).
  rewrite sparse_entry_fun. destruct (Nat.leb_spec 0 i); [|lia]. destruct (Nat.ltb_spec i (0 + n)); [|lia].
  simpl andb. destruct (Nat.eqb i j), (Nat.eqb (if Nat.eqb (i+1) n then 0 else i + 1) j); reflexivity.
Qed.
Lemma derivative_matrix_ok (f : list R) : 0 < length f ->
  let n := length f in
  D0_periodic f = tab n (fun i => Rsum n (fun j => IZR (fst (derivative_matrix n) i j) * nth j f 0)%R) /\
  D0d_periodic f = tab n (fun i => Rsum n (fun j => IZR (snd (derivative_matrix n) i j) * nth j f 0)%R).
Proof.
  intros Hn n. set (v := fun i => nth i f 0%R). split.
  - rewrite (list_tab 0%R f) at 1. rewrite D0_periodic_tab by auto. apply tab_ext. intros i Hi. fold n in Hi |- *.
    set (s := if Nat.eqb (i + 1) n then 0 else i + 1).
    assert (s < n) by (unfold s; destruct (Nat.eqb_spec (i + 1) n); lia).
    rewrite (Rsum_ext n _ (fun j => (if Nat.eqb s j then v j else 0) - (if Nat.eqb i j then v j else 0))%R).
    + rewrite Rsum_minus. rewrite (Rsum_single n s), (Rsum_single n i); auto.
      * now rewrite !Nat.eqb_refl.
      * intros k Hk E. destruct (Nat.eqb_spec i k); [congruence|reflexivity].
      * intros k Hk E. destruct (Nat.eqb_spec s k); [congruence|reflexivity].
    + intros j Hj. unfold derivative_matrix. cbn [fst]. rewrite derivative_triplets_entry by auto. fold s. unfold v.
      destruct (Nat.eqb s j), (Nat.eqb i j); simpl; ring.
  - rewrite (list_tab 0%R f) at 1. rewrite D0d_periodic_tab by auto. apply tab_ext. intros i Hi. fold n in Hi |- *.
    set (s := if Nat.eqb i 0 then n - 1 else i - 1).
    assert (s < n) by (unfold s; destruct (Nat.eqb_spec i 0); lia).
    rewrite (Rsum_ext n _ (fun j => (if Nat.eqb i j then v j else 0) - (if Nat.eqb s j then v j else 0))%R).
    + rewrite Rsum_minus. rewrite (Rsum_single n s (fun j => if Nat.eqb s j then v j else 0%R)), (Rsum_single n i); auto.
      * now rewrite !Nat.eqb_refl.
      * intros k Hk E. destruct (Nat.eqb_spec i k); [congruence|reflexivity].
      * intros k Hk E. destruct (Nat.eqb_spec s k); [congruence|reflexivity].
    + intros j Hj. unfold derivative_matrix. cbn [snd]. rewrite derivative_triplets_entry by auto. unfold v, s.
      destruct (Nat.eqb_spec (if Nat.eqb (j + 1) n then 0 else j + 1) i) as [E1|E1],
        (Nat.eqb_spec j i) as [E2|E2], (Nat.eqb_spec i j), (Nat.eqb_spec (if Nat.eqb i 0 then n - 1 else i - 1) j) as [E4|E4];
      try (exfalso; lia); try (simpl; ring);
      destruct (Nat.eqb_spec (j + 1) n), (Nat.eqb_spec i 0); lia.
Qed.
