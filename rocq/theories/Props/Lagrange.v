(** C69: the Lagrange polynomials of dec/spectral.py. *)
From Coq Require Import Reals List Lia Lra Arith.
From Coquelicot Require Import Coquelicot.
From Verif Require Import Model.Num Model.Np Model.Basis Spec.Poly Proofs.ListLemmas Proofs.Sums Proofs.ChebPoly.
Import ListNotations.
Local Open Scope R_scope.

Definition prodl (l : list R) : R := fold_right Rmult 1 l.
Lemma fold_prod l a : fold_left Rmult l a = a * prodl l.
Proof. revert a. induction l as [|x l IH]; intro a; cbn; [ring|]. rewrite IH. unfold prodl. ring. Qed.
Lemma lagrange_prod x i y : (2 <= length x)%nat -> lagrange x i y = Ok (prodl (lagrange_factors x i y)).
Proof.
  intro L. unfold lagrange. destruct (lagrange_factors x i y) eqn:E.
  - exfalso. unfold lagrange_factors in E. apply map_eq_nil in E.
    assert (In (if Nat.eqb i 0 then 1 else 0)%nat (filter (fun j => negb (Nat.eqb j i)) (seq 0 (length x)))) as K.
    { apply filter_In. split; [apply in_seq; destruct (Nat.eqb i 0); lia|]. destruct (Nat.eqb_spec i 0) as [->|]; [reflexivity|]. now destruct i. }
    rewrite E in K. destruct K.
  - rewrite fold_prod. reflexivity.
Qed.
Lemma prodl_zero l : In 0 l -> prodl l = 0.
Proof. induction l as [|a l IH]; intros []; cbn; fold (prodl l); [subst; ring|]. rewrite IH by auto. ring. Qed.
Lemma prodl_one l : (forall a, In a l -> a = 1) -> prodl l = 1.
Proof. induction l as [|a l IH]; intro H; cbn; [reflexivity|]. fold (prodl l). rewrite IH by (intros; apply H; cbn; auto). rewrite (H a) by (cbn; auto). ring. Qed.
Lemma distinct x i j : NoDup x -> (i < length x)%nat -> (j < length x)%nat -> i <> j -> nth i x 0 - nth j x 0 <> 0.
Proof. intros H Hi Hj D E. apply D. apply (Logic.proj1 (NoDup_nth x 0) H); auto. lra. Qed.
Lemma card x i j : NoDup x -> (i < length x)%nat -> (j < length x)%nat -> prodl (lagrange_factors x i (nth j x 0)) = if Nat.eqb i j then 1 else 0.
Proof.
  intros H Hi Hj. unfold lagrange_factors. destruct (Nat.eqb_spec i j) as [->|D].
  - apply prodl_one. intros a Ha. apply in_map_iff in Ha as (k & <- & Hk). apply filter_In in Hk as [Hk K]. apply in_seq in Hk. apply Bool.negb_true_iff, Nat.eqb_neq in K. field. apply distinct; auto. lia.
  - apply prodl_zero. apply in_map_iff. exists j. split; [unfold Rdiv; rewrite Rminus_diag_eq by reflexivity; ring|]. apply filter_In. split; [apply in_seq; lia|]. apply Bool.negb_true_iff, Nat.eqb_neq. auto.
Qed.
(** polynomials with too many zeros *)
Lemma poly_horner d p : polynomial (S d) p -> exists c r, polynomial d r /\ forall x, p x = c + x * r x.
Proof.
  intros [c E]. exists (c 0%nat), (fun x => Rsum (S d) (fun i => c (S i) * x ^ i)). split; [exists (fun i => c (S i)); reflexivity|].
  intro x. rewrite E. rewrite Rsum_S_l. cbn [pow]. rewrite Rmult_1_r. f_equal. rewrite <- Rsum_scal. apply Rsum_ext. intros i _. cbn [pow]. ring.
Qed.
Lemma poly_root d p a : polynomial (S d) p -> exists q, polynomial d q /\ forall x, p x = p a + (x - a) * q x.
Proof.
  revert p. induction d as [|d IH]; intros p Hp; destruct (poly_horner _ _ Hp) as (c & r & Hr & E).
  - exists r. split; auto. intro x. rewrite !E. destruct Hr as [cr Er]. rewrite !Er. cbn. ring.
  - destruct (IH r Hr) as (s & Hs & Es). exists (fun x => r a + x * s x). split; [apply poly_plus; [apply poly_const|now apply poly_mulx]|].
    intro x. rewrite !E, (Es x). ring.
Qed.
Lemma poly_zeros d p l : polynomial d p -> NoDup l -> (d < length l)%nat -> (forall x, In x l -> p x = 0) -> forall x, p x = 0.
Proof.
  revert p l. induction d as [|d IH]; intros p l Hp N L Z x.
  - destruct Hp as [c E]. destruct l as [|a l]; [cbn in L; lia|]. pose proof (Z a (or_introl eq_refl)) as Za. rewrite E in Za |- *. cbn in *. lra.
  - destruct l as [|a l]; [cbn in L; lia|]. destruct (poly_root d p a Hp) as (q & Hq & E). assert (p a = 0) as Za by (apply Z; cbn; auto). inversion N as [|? ? Na Nl]; subst.
    rewrite E, Za. rewrite (IH q l Hq Nl); [ring|cbn in L; lia|]. intros b Hb. assert (p b = 0) as Zb by (apply Z; cbn; auto). rewrite E, Za in Zb.
    assert (b <> a) by (intros ->; auto). apply Rmult_eq_reg_l with (b - a); [|lra]. lra.
Qed.
Lemma poly_uniq d p q l : polynomial d p -> polynomial d q -> NoDup l -> (d < length l)%nat -> (forall x, In x l -> p x = q x) -> forall x, p x = q x.
Proof.
  intros Hp Hq N L E x. assert (p x + -1 * q x = 0); [|lra]. apply (poly_zeros d (fun x => p x + -1 * q x) l); auto.
  - apply poly_plus; auto. now apply poly_scal.
  - intros y Hy. rewrite E by auto. ring.
Qed.
Lemma poly_lagrange x i : polynomial (length x - 1) (fun y => prodl (lagrange_factors x i y)) \/ (length x <= i)%nat.
Proof.
  destruct (Nat.lt_ge_cases i (length x)) as [Hi|]; auto. left. unfold lagrange_factors.
  assert (forall js, polynomial (length js) (fun y => prodl (map (fun j => (y - nth j x 0) / (nth i x 0 - nth j x 0)) js))) as P.
  { induction js as [|j js IH]; [exact (poly_const 0 1)|]. cbn [map prodl fold_right length].
    apply (poly_ext _ _ (fun y => (/ (nth i x 0 - nth j x 0)) * (y * prodl (map (fun j => (y - nth j x 0) / (nth i x 0 - nth j x 0)) js)) + (- nth j x 0 / (nth i x 0 - nth j x 0)) * prodl (map (fun j => (y - nth j x 0) / (nth i x 0 - nth j x 0)) js))).
    - intro y. fold (prodl (map (fun j => (y - nth j x 0) / (nth i x 0 - nth j x 0)) js)). unfold Rdiv. ring.
    - apply poly_plus; apply poly_scal; [now apply poly_mulx|]. apply (poly_mono (length js)); auto. }
  eapply poly_mono; [|apply P].
  assert (forall n, (i < n)%nat -> length (filter (fun j => negb (Nat.eqb j i)) (seq 0 n)) = (n - 1)%nat) as F.
  { induction n as [|n IH]; intro Hn; [lia|]. rewrite seq_S, filter_app, app_length. cbn [filter]. destruct (Nat.eqb_spec (0 + n) i) as [E|E]; cbn [negb length].
    - assert (filter (fun j => negb (Nat.eqb j i)) (seq 0 n) = seq 0 n) as ->; [|rewrite seq_length; lia]. rewrite <- E. clear. cbn [Nat.add]. 
      assert (forall l, (forall k, In k l -> k <> n) -> filter (fun j => negb (Nat.eqb j n)) l = l) as K.
      { induction l as [|k l IH]; intro H; auto. cbn. destruct (Nat.eqb_spec k n) as [e|e]; [exfalso; apply (H k); cbn; auto|]. cbn. f_equal. apply IH. intros; apply H; cbn; auto. }
      apply K. intros k Hk. apply in_seq in Hk. lia.
    - rewrite IH by lia. lia. }
  rewrite F by auto. lia.
Qed.

Theorem C69_cardinal x i j : (2 <= length x)%nat -> NoDup x -> (i < length x)%nat -> (j < length x)%nat -> lagrange x i (nth j x 0) = Ok (if Nat.eqb i j then 1 else 0).
Proof. intros L N Hi Hj. rewrite lagrange_prod by auto. now rewrite card. Qed.
(** every polynomial of degree below the number of nodes is the combination of the Lagrange polynomials with its values at the nodes *)
Theorem C69_reproduce x d p y : (2 <= length x)%nat -> NoDup x -> (d < length x)%nat -> polynomial d p ->
  exists v, (forall i, (i < length x)%nat -> lagrange x i y = Ok (v i)) /\ Rsum (length x) (fun i => p (nth i x 0) * v i) = p y.
Proof.
  intros L N Hd Hp. exists (fun i => prodl (lagrange_factors x i y)). split; [intros; now apply lagrange_prod|].
  apply (poly_uniq (length x - 1) (fun y => Rsum (length x) (fun i => p (nth i x 0) * prodl (lagrange_factors x i y))) p x); auto.
  - apply poly_Rsum. intros i Hi. apply poly_scal. destruct (poly_lagrange x i); auto. lia.
  - apply (poly_mono d); auto. lia.
  - lia.
  - intros z Hz. apply (In_nth x z 0) in Hz as (j & Hj & <-).
    rewrite (Rsum_ext _ _ (fun i => if Nat.eqb i j then p (nth j x 0) else 0)).
    + rewrite (Rsum_single _ j); auto; [now rewrite Nat.eqb_refl|]. intros i Hi D. now apply Nat.eqb_neq in D as ->.
    + intros i Hi. rewrite card by auto. destruct (Nat.eqb_spec i j) as [->|]; ring.
Qed.
Theorem C69_partition_of_unity x y : (2 <= length x)%nat -> NoDup x -> exists v, (forall i, (i < length x)%nat -> lagrange x i y = Ok (v i)) /\ Rsum (length x) v = 1.
Proof.
  intros L N. destruct (C69_reproduce x 0 (fun _ => 1) y L N ltac:(lia) (poly_const 0 1)) as (v & H & E). exists v. split; auto. rewrite <- E. apply Rsum_ext. intros. ring.
Qed.
Theorem C69_one_node_raises a y : lagrange [a] 0 y = Err TypeError.
Proof. reflexivity. Qed.
Example C69_instance : lagrange [0; 1; 3] 1 2 = Ok 1 /\ NoDup [0; 1; 3].
Proof.
  split; [rewrite lagrange_prod by (cbn; lia); apply f_equal; cbn; field|]. repeat constructor; cbn; lra.
Qed.
