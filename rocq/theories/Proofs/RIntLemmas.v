(** Riemann integrals of finite sums and of trigonometric functions. *)
From Coq Require Import ZArith Reals List Lia Lra Arith.
From Coquelicot Require Import Coquelicot.
From Verif Require Import Model.Num Model.Np Proofs.Sums.
Local Open Scope R_scope.

Lemma is_RInt_Rsum n (f : nat -> R -> R) (v : nat -> R) a b :
  (forall i, (i < n)%nat -> is_RInt (f i) a b (v i)) ->
  is_RInt (fun t => Rsum n (fun i => f i t)) a b (Rsum n v).
Proof.
  induction n as [|n IH]; intro H; cbn [Rsum].
  - pose proof (is_RInt_const a b (0 : R)) as H0. unfold scal in H0; simpl in H0; unfold mult in H0; simpl in H0.
    rewrite Rmult_0_r in H0. exact H0.
  - apply (is_RInt_plus (fun t => Rsum n (fun i => f i t)) (f n)); auto.
Qed.

Lemma RInt_Rsum n (f : nat -> R -> R) a b :
  (forall i, (i < n)%nat -> ex_RInt (f i) a b) ->
  RInt (fun t => Rsum n (fun i => f i t)) a b = Rsum n (fun i => RInt (f i) a b).
Proof.
  intro H. apply is_RInt_unique. apply is_RInt_Rsum. intros i Hi. apply (RInt_correct (f i)). auto.
Qed.

Lemma ex_RInt_Rsum n (f : nat -> R -> R) a b :
  (forall i, (i < n)%nat -> ex_RInt (f i) a b) -> ex_RInt (fun t => Rsum n (fun i => f i t)) a b.
Proof.
  intro H. exists (Rsum n (fun i => RInt (f i) a b)).
  apply is_RInt_Rsum. intros i Hi. apply (RInt_correct (f i)); auto.
Qed.

Lemma is_RInt_scal_R (f : R -> R) k a b v : is_RInt f a b v -> is_RInt (fun t => k * f t) a b (k * v).
Proof. intro H. exact (is_RInt_scal f a b k v H). Qed.

Lemma RInt_scal_R (f : R -> R) k a b : ex_RInt f a b -> RInt (fun t => k * f t) a b = k * RInt f a b.
Proof. intro H. apply is_RInt_unique, is_RInt_scal_R, (RInt_correct f), H. Qed.

Lemma ex_RInt_cont_all (f : R -> R) a b : (forall x, continuous f x) -> ex_RInt f a b.
Proof. intro H. apply (ex_RInt_continuous (V := R_CompleteNormedModule) f). intros; apply H. Qed.

Lemma RInt_plus_R (f g : R -> R) a b : ex_RInt f a b -> ex_RInt g a b ->
  RInt (fun t => f t + g t) a b = RInt f a b + RInt g a b.
Proof. intros. exact (RInt_plus f g a b H H0). Qed.
Lemma RInt_minus_R (f g : R -> R) a b : ex_RInt f a b -> ex_RInt g a b ->
  RInt (fun t => f t - g t) a b = RInt f a b - RInt g a b.
Proof. intros. exact (RInt_minus f g a b H H0). Qed.

Lemma continuous_Rsum n (f : nat -> R -> R) x :
  (forall i, (i < n)%nat -> continuous (f i) x) -> continuous (fun t => Rsum n (fun i => f i t)) x.
Proof.
  induction n as [|n IH]; intro H; cbn [Rsum].
  - apply continuous_const.
  - apply (continuous_plus (fun t => Rsum n (fun i => f i t)) (f n)); auto.
Qed.

Lemma continuous_derivable (f : R -> R) x : ex_derive f x -> continuous f x.
Proof. apply (ex_derive_continuous f x). Qed.

(** Fundamental theorem in the shape used everywhere. *)
Lemma is_RInt_der (F f : R -> R) a b :
  (forall x, is_derive F x (f x)) -> (forall x, continuous f x) ->
  is_RInt f a b (F b - F a).
Proof. intros HF Hf. apply (is_RInt_derive F f a b); intros; auto. Qed.

Lemma RInt_shift (f : R -> R) c a b : (forall x, continuous f x) ->
  RInt (fun t => f (t + c)) a b = RInt f (a + c) (b + c).
Proof.
  intro H.
  assert (E := RInt_comp_lin f 1 c a b).
  rewrite !Rmult_1_l in E. rewrite <- E.
  - apply RInt_ext. intros x _. unfold scal; simpl; unfold mult; simpl. f_equal. rewrite Rmult_1_l. f_equal. ring.
  - apply ex_RInt_cont_all; auto.
Qed.

Lemma RInt_cos_lin n c a b : n <> 0 ->
  is_RInt (fun t => cos (n * t + c)) a b ((sin (n * b + c) - sin (n * a + c)) / n).
Proof.
  intro H. replace ((sin (n * b + c) - sin (n * a + c)) / n) with
    (sin (n * b + c) / n - sin (n * a + c) / n) by (field; auto).
  apply (is_RInt_der (fun t => sin (n * t + c) / n)).
  - intro x. auto_derive; auto. field. auto.
  - intro x. apply continuous_derivable. auto_derive. auto.
Qed.
Lemma RInt_sin_lin n c a b : n <> 0 ->
  is_RInt (fun t => sin (n * t + c)) a b (- (cos (n * b + c) - cos (n * a + c)) / n).
Proof.
  intro H. replace (- (cos (n * b + c) - cos (n * a + c)) / n) with
    (- cos (n * b + c) / n - - cos (n * a + c) / n) by (field; auto).
  apply (is_RInt_der (fun t => - cos (n * t + c) / n)).
  - intro x. auto_derive; auto. field. auto.
  - intro x. apply continuous_derivable. auto_derive. auto.
Qed.
Lemma is_RInt_const_R (c a b : R) : is_RInt (fun _ => c) a b ((b - a) * c).
Proof. exact (is_RInt_const a b c). Qed.

Lemma is_RInt_ext_all (f g : R -> R) a b v : (forall x, f x = g x) -> is_RInt f a b v -> is_RInt g a b v.
Proof. intros H. apply is_RInt_ext. intros; apply H. Qed.
