(** C79: matrices built from indices, diagonals and triplets; the test for equidistant points. *)
From Coq Require Import ZArith Reals List Lia Lra Arith Bool.
From Coq Require Import ZifyNat.
From Verif Require Import Model.Sym.
From Coquelicot Require Import Coquelicot.
From Verif Require Import Model.Num Model.Np Model.Spectral Model.Basis Model.Grids1 Model.Common Model.Grid2 Model.Helper
  Proofs.ListLemmas Proofs.Sums Proofs.RingSums Proofs.Arr2 Proofs.RoundP.
Import ListNotations.
Local Open Scope R_scope.
Ltac Zify.zify_post_hook ::= Z.div_mod_to_equations.

(** sum of g over a list *)
Fixpoint lsum {A} (g : A -> R) (l : list A) : R := match l with [] => 0 | x :: l' => g x + lsum g l' end.
(** the entry (i, j) described by a list of triplets (row, column, value): values at equal positions are added *)
Definition entry (t : list (nat * nat * R)) (i j : nat) : R :=
  lsum (fun e => let '(r, c, v) := e in if (Nat.eqb r i && Nat.eqb c j)%bool then v else 0) t.

Lemma fold_entry t i j a : fold_left (fun acc e => let '(r, c, v) := e in if (Nat.eqb r i && Nat.eqb c j)%bool then (acc + v)%R else acc) t a = a + entry t i j.
Proof.
  revert a. unfold entry. induction t as [|[[r c] v] t IH]; intro a; cbn [fold_left lsum]; [ring|]. rewrite IH. destruct (_ && _)%bool; ring.
Qed.
Lemma csr_val t N M A : csr_matrix t N M = Ok A <-> (forall r c v, In (r, c, v) t -> (r < N)%nat /\ (c < M)%nat) /\ A = mk2 N M (entry t).
Proof.
  unfold csr_matrix. destruct (forallb _ t) eqn:E.
  - rewrite forallb_forall in E. assert (forall r c v, In (r, c, v) t -> (r < N)%nat /\ (c < M)%nat) as K.
    { intros r c v H. specialize (E _ H). cbv beta iota in E. apply andb_prop in E as [E1 E2]. apply Nat.ltb_lt in E1. apply Nat.ltb_lt in E2. auto. }
    split.
    + intro H. injection H as <-. split; auto. apply mk2_ext. intros. rewrite fold_entry. ring.
    + intros [_ ->]. f_equal. apply mk2_ext. intros. rewrite fold_entry. ring.
  - split; [discriminate|]. intros [K _]. exfalso. assert (forallb (fun e => let '(r, c, _) := e in Nat.ltb r N && Nat.ltb c M) t = true); [|congruence].
    apply forallb_forall. intros [[r c] v] H. destruct (K _ _ _ H). apply andb_true_intro. split; now apply Nat.ltb_lt.
Qed.
(** sparse_matrix(ijk, N, M) succeeds exactly when all the indices are in range; the matrix has shape (N, M), its entry
    (i, j) is the sum of the values given for (i, j) *)
Theorem C79_sparse_matrix t N M A : sparse_matrix t N M = Ok A <->
  (forall r c v, In (r, c, v) t -> (r < N)%nat /\ (c < M)%nat) /\
  nr A = N /\ nc A = M /\ length (dat A) = (N * M)%nat /\ forall i j, (i < N)%nat -> (j < M)%nat -> at2 A i j = entry t i j.
Proof.
  unfold sparse_matrix. rewrite csr_val. split.
  - intros [H ->]. split; auto. split; [reflexivity|]. split; [reflexivity|]. split; [apply length_tab|]. intros i j Hi Hj. now rewrite at_mk2.
  - intros (H & E1 & E2 & E3 & E4). split; auto. rewrite (mk2_at A) by (unfold wf2; congruence). subst. apply mk2_ext. auto.
Qed.
Theorem C79_sparse_matrix_raises t N M : (exists r c v, In (r, c, v) t /\ (N <= r \/ M <= c)%nat) -> sparse_matrix t N M = Err ValueError.
Proof.
  intros (r & c & v & H & K). unfold sparse_matrix, csr_matrix. destruct (forallb _ t) eqn:E; [|reflexivity]. rewrite forallb_forall in E. specialize (E _ H). cbv beta iota in E.
  apply andb_prop in E as [E1 E2]. apply Nat.ltb_lt in E1. apply Nat.ltb_lt in E2. lia.
Qed.
Lemma lsum_ext {A} (g h : A -> R) l : (forall x, In x l -> g x = h x) -> lsum g l = lsum h l.
Proof. induction l as [|x l IH]; cbn; intro H; [reflexivity|]. rewrite H, IH; auto. Qed.
Lemma Rsum_lsum {A} n (g : nat -> A -> R) l : Rsum n (fun j => lsum (g j) l) = lsum (fun x => Rsum n (fun j => g j x)) l.
Proof.
  induction l as [|x l IH]; cbn [lsum]; [apply Rsum_zero_ext; auto|]. rewrite <- IH, <- Rsum_plus. reflexivity.
Qed.
(** the matrix times a vector: every triplet (r, c, v) contributes v*x[c] to entry r *)
Theorem C79_sparse_product t N M A x : sparse_matrix t N M = Ok A -> length x = M ->
  exists y, dot A x = Ok y /\ length y = N /\
  forall i, (i < N)%nat -> nth i y 0 = lsum (fun e => let '(r, c, v) := e in if Nat.eqb r i then v * nth c x 0 else 0) t.
Proof.
  intros H L. apply csr_val in H as [H ->]. unfold dot. rewrite nc_mk2, nr_mk2. rewrite (Logic.proj2 (Nat.eqb_eq _ _)) by auto. eexists. split; [reflexivity|]. split; [apply length_tab|].
  intros i Hi. rewrite nth_tab by auto. rewrite bsum_Rsum.
  rewrite (Rsum_ext _ _ (fun j => lsum (fun e => let '(r, c, v) := e in if (Nat.eqb r i && Nat.eqb c j)%bool then v * nth j x 0 else 0) t)).
  2: { intros j Hj. rewrite (at_mk2 (A := R)) by auto. cbn [nmul NumR nzero]. unfold entry. clear. induction t as [|[[r c] v] t IH]; cbn [lsum]; [ring|]. rewrite <- IH. destruct (_ && _)%bool; ring. }
  rewrite (Rsum_lsum M). apply lsum_ext. intros [[r c] v] Hin. destruct (H _ _ _ Hin) as [_ Hc]. destruct (Nat.eqb_spec r i) as [->|].
  - rewrite (Rsum_single M c) by (auto; intros k Hk K; rewrite (Logic.proj2 (Nat.eqb_neq _ _)) by auto; now rewrite andb_false_r). now rewrite Nat.eqb_refl.
  - apply Rsum_zero_ext. auto.
Qed.
(** sparse_diag(x) never raises; it multiplies vectors by x entry by entry *)
Lemma diag_in x r c v : In (r, c, v) (combine (combine (seq 0 (length x)) (seq 0 (length x))) x) <-> r = c /\ (r < length x)%nat /\ nth r x 0 = v.
Proof.
  assert (forall s, In (r, c, v) (combine (combine (seq s (length x)) (seq s (length x))) x) <-> r = c /\ (s <= r < s + length x)%nat /\ nth (r - s) x 0 = v) as K.
  { induction x as [|a x IH]; intro s; cbn [length seq combine In]; [split; [easy|lia]|]. rewrite IH. split.
    - intros [E|(E1 & E2 & E3)]; [injection E; intros; subst; rewrite Nat.sub_diag; cbn; lia || (repeat split; lia || reflexivity)|]. split; auto. split; [lia|].
      replace (r - s)%nat with (S (r - S s))%nat by lia. exact E3.
    - intros (E1 & E2 & E3). destruct (Nat.eq_dec r s) as [->|]; [left; rewrite Nat.sub_diag in E3; cbn in E3; congruence|right]. split; auto. split; [lia|].
      replace (r - s)%nat with (S (r - S s))%nat in E3 by lia. exact E3. }
  rewrite K, Nat.sub_0_r. cbn. intuition lia.
Qed.
Lemma diag_entry x i j : (i < length x)%nat -> entry (combine (combine (seq 0 (length x)) (seq 0 (length x))) x) i j = if Nat.eqb i j then nth i x 0 else 0.
Proof.
  unfold entry. assert (forall s, (s <= i < s + length x)%nat -> lsum (fun e => let '(r, c, v) := e in if (Nat.eqb r i && Nat.eqb c j)%bool then v else 0) (combine (combine (seq s (length x)) (seq s (length x))) x) = if Nat.eqb i j then nth (i - s) x 0 else 0) as K.
  { assert (forall x s, (i < s)%nat -> lsum (fun e => let '(r, c, v) := e in if (Nat.eqb r i && Nat.eqb c j)%bool then v else 0) (combine (combine (seq s (length x)) (seq s (length x))) x) = 0) as Z.
    { clear. induction x as [|a x IH]; intros s Hs; cbn [length seq combine lsum]; [reflexivity|]. rewrite IH by lia. destruct (Nat.eqb_spec s i); [lia|]. cbn. ring. }
    induction x as [|a x IH]; intros s Hs; cbn [length seq combine lsum] in *; [lia|]. destruct (Nat.eqb_spec s i) as [->|].
    - rewrite Z by lia. rewrite Nat.sub_diag. cbn [andb nth]. destruct (Nat.eqb i j); ring.
    - rewrite IH by lia. replace (i - s)%nat with (S (i - S s))%nat by lia. cbn [andb nth]. destruct (Nat.eqb i j); ring. }
  intro H. rewrite K by lia. now rewrite Nat.sub_0_r.
Qed.
Theorem C79_sparse_diag x : exists A, sparse_diag x = Ok A /\ nr A = length x /\ nc A = length x /\
  (forall i j, (i < length x)%nat -> (j < length x)%nat -> at2 A i j = if Nat.eqb i j then nth i x 0 else 0) /\
  forall y, length y = length x -> dot A y = Ok (zipw Rmult x y).
Proof.
  unfold sparse_diag. set (t := combine _ x). assert (csr_matrix t (length x) (length x) = Ok (mk2 (length x) (length x) (entry t))) as E.
  { apply csr_val. split; auto. intros r c v H. apply diag_in in H. lia. }
  rewrite E. eexists. split; [reflexivity|]. split; [reflexivity|]. split; [reflexivity|].
  assert (forall i j, (i < length x)%nat -> (j < length x)%nat -> at2 (mk2 (length x) (length x) (entry t)) i j = if Nat.eqb i j then nth i x 0 else 0) as K.
  { intros i j Hi Hj. rewrite (at_mk2 (A := R)) by auto. now apply diag_entry. }
  split; [exact K|]. intros y L. unfold dot. rewrite nc_mk2, nr_mk2. rewrite (Logic.proj2 (Nat.eqb_eq _ _)) by auto. f_equal.
  apply (list_eq_nth 0); [rewrite length_tab, length_zipw; lia|]. rewrite length_tab. intros i Hi. rewrite nth_tab by auto. rewrite bsum_Rsum.
  rewrite (Rsum_single _ i) by (auto; intros k Hk Kn; rewrite K by auto; rewrite (Logic.proj2 (Nat.eqb_neq _ _)) by auto; cbn [nmul NumR]; ring).
  rewrite K, Nat.eqb_refl by auto. rewrite (nth_zipw Rmult x y i 0 0) by lia. reflexivity.
Qed.
(** to_matrix_by_index(f, N) is the square matrix of the values f(i, j) *)
Theorem C79_by_index f N : let A := to_matrix_by_index f N in
  nr A = N /\ nc A = N /\ length (dat A) = (N * N)%nat /\ forall i j, (i < N)%nat -> (j < N)%nat -> at2 A i j = f i j.
Proof. cbv zeta. unfold to_matrix_by_index. split; [reflexivity|]. split; [reflexivity|]. split; [apply length_tab|]. intros i j Hi Hj. now apply (at_mk2 (A := R)). Qed.
(** periodic.derivative_matrix builds its matrix with sparse_matrix *)
Theorem C79_derivative_matrix n : exists A, sparse_matrix (map (fun e => let '(r, c, v) := e in (r, c, IZR v)) (derivative_triplets n)) n n = Ok A /\
  forall i j, (i < n)%nat -> (j < n)%nat -> at2 A i j = IZR (fst (derivative_matrix n) i j).
Proof.
  set (t := derivative_triplets n). assert (forall r c v, In (r, c, v) t -> (r < n)%nat /\ (c < n)%nat) as K.
  { intros r c v H. unfold t, derivative_triplets in H. apply in_app_iff in H as [H|H]; apply in_combine_l in H; pose proof (in_combine_l _ _ _ _ H) as H1; pose proof (in_combine_r _ _ _ _ H) as H2; apply in_seq in H1; split; try lia.
    - unfold roll in H2. apply in_app_iff in H2. assert (In c (seq 0 n)) as H3; [|apply in_seq in H3; lia].
      rewrite <- (firstn_skipn (Z.to_nat (- -1 mod Z.of_nat (length (seq 0 n)))) (seq 0 n)). apply in_app_iff. tauto.
    - apply in_seq in H2. lia. }
  set (t' := map _ t). assert (sparse_matrix t' n n = Ok (mk2 n n (entry t'))) as E.
  { apply csr_val. split; auto. intros r c v H. unfold t' in H. apply in_map_iff in H as ([[r' c'] v'] & E & H). injection E as <- <- _. eauto. }
  exists (mk2 n n (entry t')). split; [exact E|]. intros i j Hi Hj. rewrite (at_mk2 (A := R)) by auto. cbn [fst derivative_matrix]. fold t. unfold sparse_entry, entry, t'.
  assert (forall a, IZR (fold_left (fun acc e => let '(r, c, v) := e in if (Nat.eqb r i && Nat.eqb c j)%bool then (acc + v)%Z else acc) t a) =
    IZR a + lsum (fun e => let '(r, c, v) := e in if (Nat.eqb r i && Nat.eqb c j)%bool then v else 0) (map (fun e => let '(r, c, v) := e in (r, c, IZR v)) t)) as F.
  { clear. induction t as [|[[r c] v] t IH]; intro a; cbn [fold_left map lsum]; [ring|]. rewrite IH. destruct (_ && _)%bool; [rewrite plus_IZR|]; ring. }
  rewrite F. ring.
Qed.

(** ** is_equidistant *)
Lemma diff_nth (x : list R) i : (S i < length x)%nat -> nth i (diff x) 0 = nth (S i) x 0 - nth i x 0.
Proof.
  intro H. unfold diff, vsub. rewrite (nth_zipw _ (tl x) x i 0 0) by (destruct x; cbn in *; lia). destruct x as [|a x]; [cbn in H; lia|]. reflexivity.
Qed.
Lemma diff_length (x : list R) : length (diff x) = (length x - 1)%nat.
Proof. unfold diff, vsub. rewrite length_zipw. destruct x; cbn; lia. Qed.
(** fewer than two points: IndexError *)
Theorem C79_equidistant_raises x : (length x < 2)%nat <-> is_equidistant x = Err IndexError.
Proof.
  unfold is_equidistant. pose proof (diff_length x) as L. destruct (diff x) as [|d l]; cbn in L; split; intro H; [reflexivity|lia|lia|discriminate].
Qed.
(** exactly equidistant points pass *)
Theorem C79_equidistant_true x h : (2 <= length x)%nat -> (forall i, (S i < length x)%nat -> nth (S i) x 0 - nth i x 0 = h) -> is_equidistant x = Ok true.
Proof.
  intros L H. unfold is_equidistant. pose proof (diff_length x) as Ld. assert (forall d, In d (diff x) -> d = h) as K.
  { intros d Hd. apply (In_nth _ _ 0) in Hd as (i & Hi & <-). rewrite diff_nth by lia. apply H. lia. }
  destruct (diff x) as [|d l]; [cbn in Ld; lia|]. f_equal. apply forallb_forall. intros e He. rewrite (K e He), (K d (or_introl eq_refl)). apply Z.eqb_refl.
Qed.
(** points that pass have distances that agree up to 1e-8 *)
Theorem C79_equidistant_sound x i j : is_equidistant x = Ok true -> (S i < length x)%nat -> (S j < length x)%nat ->
  Rabs ((nth (S i) x 0 - nth i x 0) - (nth (S j) x 0 - nth j x 0)) <= / 10 ^ 8.
Proof.
  intros H Hi Hj. unfold is_equidistant in H. pose proof (diff_length x) as Ld. rewrite <- !diff_nth by auto. destruct (diff x) as [|d l] eqn:E; [discriminate|]. rewrite <- E in *. injection H as H.
  rewrite forallb_forall in H. apply rounded_close. assert (forall k, (S k < length x)%nat -> rounded 8 (nth k (diff x) 0) = rounded 8 d) as K.
  { intros k Hk. apply Z.eqb_eq, H, nth_In. lia. }
  now rewrite !K.
Qed.
(** in every other case the answer is False: never an exception for two or more points *)
Theorem C79_equidistant_total x : (2 <= length x)%nat -> exists b, is_equidistant x = Ok b.
Proof. intro H. unfold is_equidistant. pose proof (diff_length x). destruct (diff x); [cbn in *; lia|eauto]. Qed.

Example C79_instance : is_equidistant [0; 1; 2] = Ok true /\ is_equidistant [0; 1; 5 / 2] = Ok false.
Proof.
  split.
  - apply C79_equidistant_true with 1; [cbn; lia|]. intros [|[|i]] H; cbn in *; try lia; ring.
  - destruct (C79_equidistant_total [0; 1; 5 / 2]) as [[|] E]; [cbn; lia| |exact E]. exfalso. pose proof (C79_equidistant_sound _ 1 0 E) as K. cbn in K.
    assert (Rabs (5 / 2 - 1 - (1 - 0)) <= / (10 * (10 * (10 * (10 * (10 * (10 * (10 * (10 * 1)))))))))%R as K' by (apply K; lia). rewrite Rabs_pos_eq in K' by lra. lra.
Qed.
Example C79_instance_sparse : exists A, sparse_matrix [(0%nat, 1%nat, 1); (1%nat, 0%nat, 2); (0%nat, 1%nat, 3)] 2 2 = Ok A /\ at2 A 0 1 = 1 + 3 /\ dot A [5; 7] = Ok [(1 + 3) * 7; 2 * 5].
Proof.
  destruct (Logic.proj2 (C79_sparse_matrix [(0%nat, 1%nat, 1); (1%nat, 0%nat, 2); (0%nat, 1%nat, 3)] 2 2 (mk2 2 2 (entry [(0%nat, 1%nat, 1); (1%nat, 0%nat, 2); (0%nat, 1%nat, 3)])))).
  - split; [intros r c v [E|[E|[E|[]]]]; injection E; intros; subst; lia|]. split; [reflexivity|]. split; [reflexivity|]. split; [reflexivity|]. intros. now apply at_mk2.
  - eexists. split; [reflexivity|]. split; [rewrite at_mk2 by lia; cbn; ring|].
    unfold dot. cbn [nc nr mk2 length Nat.eqb tab seq map bsum]. rewrite !at_mk2 by lia. cbn. f_equal. f_equal; [ring|]. f_equal. ring.
Qed.
