(** Sums over an arbitrary commutative ring. *)
From Coq Require Import ZArith Reals List Lia Arith Ring.
From Coquelicot Require Import Complex.
From Verif Require Import Model.Num Model.Np Proofs.ListLemmas.
Import ListNotations.

#[export] Instance LawsZ : NumLaws Z.
Proof. constructor; intros; unfold nadd, nmul, nsub, nopp, nzero, none, NumZ, NumR, NumC; ring. Qed.
#[export] Instance LawsR : NumLaws R.
Proof. constructor; intros; unfold nadd, nmul, nsub, nopp, nzero, none, NumZ, NumR, NumC; ring. Qed.
#[export] Instance LawsC : NumLaws C.
Proof. constructor; intros; unfold nadd, nmul, nsub, nopp, nzero, none, NumZ, NumR, NumC; ring. Qed.

Section RingSums.
Context {A : Type} `{NL : NumLaws A}.
Add Ring Aring : num_ring.
Notation "0" := nzero. Notation "1" := none.
Infix "+" := nadd. Infix "*" := nmul. Infix "-" := nsub. Notation "- x" := (nopp x).

Lemma bsum_ext n (f g : nat -> A) : (forall i, i < n -> f i = g i) -> bsum n f = bsum n g.
Proof. induction n as [|n IH]; intro E; simpl; [reflexivity|]. rewrite IH, E; auto. Qed.
Lemma bsum_plus n (f g : nat -> A) : bsum n (fun i => f i + g i) = bsum n f + bsum n g.
Proof. induction n as [|n IH]; simpl; [ring|]. rewrite IH. ring. Qed.
Lemma bsum_minus n (f g : nat -> A) : bsum n (fun i => f i - g i) = bsum n f - bsum n g.
Proof. induction n as [|n IH]; simpl; [ring|]. rewrite IH. ring. Qed.
Lemma bsum_opp n (f : nat -> A) : bsum n (fun i => - f i) = - bsum n f.
Proof. induction n as [|n IH]; simpl; [ring|]. rewrite IH. ring. Qed.
Lemma bsum_scal n c (f : nat -> A) : bsum n (fun i => c * f i) = c * bsum n f.
Proof. induction n as [|n IH]; simpl; [ring|]. rewrite IH. ring. Qed.
Lemma bsum_scal_r n c (f : nat -> A) : bsum n (fun i => f i * c) = bsum n f * c.
Proof. induction n as [|n IH]; simpl; [ring|]. rewrite IH. ring. Qed.
Lemma bsum_zero n (f : nat -> A) : (forall i, i < n -> f i = 0) -> bsum n f = 0.
Proof. induction n as [|n IH]; intro E; simpl; [reflexivity|]. rewrite IH, E; auto. ring. Qed.
Lemma bsum_swap n m (f : nat -> nat -> A) : bsum n (fun i => bsum m (fun j => f i j)) = bsum m (fun j => bsum n (fun i => f i j)).
Proof. induction n as [|n IH]; simpl; [now rewrite bsum_zero|]. rewrite IH, <- bsum_plus. reflexivity. Qed.
Lemma bsum_S_r n (f : nat -> A) : bsum (S n) f = bsum n f + f n.
Proof. reflexivity. Qed.
Lemma bsum_S_l n (f : nat -> A) : bsum (S n) f = f O + bsum n (fun i => f (S i)).
Proof. induction n as [|n IH]; simpl in *; [ring|]. rewrite IH. ring. Qed.
Lemma bsum_single n k (f : nat -> A) : k < n -> (forall i, i < n -> i <> k -> f i = 0) -> bsum n f = f k.
Proof.
  induction n as [|n IH]; intros Hk E; [lia|]. simpl. destruct (Nat.eq_dec k n) as [->|Hn].
  - rewrite bsum_zero; [ring|]. intros; apply E; lia.
  - rewrite IH by (try lia; intros; apply E; lia). rewrite (E n) by lia. ring.
Qed.
Lemma bsum_tele n (f : nat -> A) : bsum n (fun i => f (S i) - f i) = f n - f O.
Proof. induction n as [|n IH]; simpl; [ring|]. rewrite IH. ring. Qed.

Lemma lsum_acc (l : list A) acc : fold_left nadd l acc = acc + lsum l.
Proof.
  unfold lsum. revert acc. induction l as [|a l IH]; intro acc; simpl; [ring|].
  rewrite IH, (IH (0 + a)). ring.
Qed.
Lemma lsum_bsum (l : list A) d : lsum l = bsum (length l) (fun i => nth i l d).
Proof.
  induction l as [|a l IH]; [reflexivity|]. unfold lsum. simpl fold_left. rewrite lsum_acc, IH.
  simpl length. rewrite bsum_S_l. simpl. ring.
Qed.
Lemma lsum_tab n (f : nat -> A) : lsum (tab n f) = bsum n f.
Proof.
  rewrite (lsum_bsum _ 0), length_tab. apply bsum_ext. intros i Hi. now rewrite nth_tab.
Qed.
End RingSums.

Lemma bsum_Rsum n f : bsum n f = Rsum n f.
Proof. induction n as [|n IH]; simpl; [reflexivity|]. now rewrite IH. Qed.
Lemma bsum_Csum n f : bsum n f = Csum n f.
Proof. induction n as [|n IH]; simpl; [reflexivity|]. now rewrite IH. Qed.
