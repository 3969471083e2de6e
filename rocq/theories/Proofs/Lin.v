(** Linear operators on arrays, and their matrices. *)
From Coq Require Import ZArith Reals List Lia Lra Arith Ring.
From Coq Require Import ZifyNat.
From Coquelicot Require Import Complex.
From Verif Require Import Model.Num Model.Np Model.Spectral Proofs.ListLemmas Proofs.Sums Proofs.Fourier Proofs.Kernels Proofs.RingSums Proofs.Mirror.
Import ListNotations.
Ltac Zify.zify_post_hook ::= Z.div_mod_to_equations.

Section Lin.
Context {A : Type} `{NL : NumLaws A}.
Add Ring AringL : num_ring.
Notation "0" := nzero. Notation "1" := none.
Infix "+" := nadd. Infix "*" := nmul. Infix "-" := nsub. Notation "- x" := (nopp x).

Definition axpy (c : A) (x y : list A) : list A := zipw (fun a b => c * a + b) x y.
Lemma length_axpy c x y : length x = length y -> length (axpy c x y) = length x.
Proof. intro E. unfold axpy. rewrite length_zipw. lia. Qed.
Lemma nth_axpy c x y i : length x = length y -> nth i (axpy c x y) 0 = c * nth i x 0 + nth i y 0.
Proof.
  intro E. destruct (Nat.lt_ge_cases i (length x)).
  - unfold axpy. now rewrite nth_zipw with (dx := 0) (dy := 0) by lia.
  - rewrite !nth_overflow by (rewrite ?length_axpy; lia). ring.
Qed.

(** linear functionals and linear operators on arrays of length m *)
Definition lf (m : nat) (phi : list A -> A) : Prop :=
  forall c f f', length f = m -> length f' = m -> phi (axpy c f f') = c * phi f + phi f'.
Definition lin (m n : nat) (g : list A -> list A) : Prop :=
  (forall f, length f = m -> length (g f) = n) /\
  (forall c f f', length f = m -> length f' = m -> g (axpy c f f') = axpy c (g f) (g f')).

Lemma lf_ext m p q : (forall f, length f = m -> p f = q f) -> lf m q -> lf m p.
Proof. intros E H c f f' L L'. rewrite !E; auto. rewrite length_axpy; lia. Qed.
Lemma lf_nth m i : lf m (fun f => nth i f 0).
Proof. intros c f f' L L'. apply nth_axpy. lia. Qed.
Lemma lf_zero m : lf m (fun _ => 0). Proof. intros c f f' _ _. ring. Qed.
Lemma lf_add m p q : lf m p -> lf m q -> lf m (fun f => p f + q f).
Proof. intros P Q c f f' L L'. rewrite P, Q by auto. ring. Qed.
Lemma lf_sub m p q : lf m p -> lf m q -> lf m (fun f => p f - q f).
Proof. intros P Q c f f' L L'. rewrite P, Q by auto. ring. Qed.
Lemma lf_opp m p : lf m p -> lf m (fun f => - p f).
Proof. intros P c f f' L L'. rewrite P by auto. ring. Qed.
Lemma lf_scal m d p : lf m p -> lf m (fun f => d * p f).
Proof. intros P c f f' L L'. rewrite P by auto. ring. Qed.
Lemma lf_scal_r m d p : lf m p -> lf m (fun f => p f * d).
Proof. intros P c f f' L L'. rewrite P by auto. ring. Qed.
Lemma lf_bsum m n p : (forall i, (i < n)%nat -> lf m (p i)) -> lf m (fun f => bsum n (fun i => p i f)).
Proof.
  intro P. induction n as [|n IH]; simpl; [apply lf_zero|]. apply (lf_add m (fun f => bsum n (fun i => p i f)) (p n)); [|apply P; lia].
  apply IH. intros; apply P; lia.
Qed.
Lemma lf_if m (b : bool) p q : lf m p -> lf m q -> lf m (fun f => if b then p f else q f).
Proof. now destruct b. Qed.

Lemma lin_ext m n g g' : (forall f, length f = m -> g f = g' f) -> lin m n g' -> lin m n g.
Proof. intros E [L H]. split; [intros; rewrite E; auto|]. intros c f f' H1 H2. rewrite !E; auto. rewrite length_axpy; lia. Qed.
Lemma lin_len m n g f : lin m n g -> length f = m -> length (g f) = n. Proof. intros [H _]; auto. Qed.
Lemma lin_lf m n g i : lin m n g -> lf m (fun f => nth i (g f) 0).
Proof. intros [L H] c f f' H1 H2. rewrite H by auto. apply nth_axpy. now rewrite !L. Qed.
Lemma lin_nth m n g : (forall f, length f = m -> length (g f) = n) -> (forall j, (j < n)%nat -> lf m (fun f => nth j (g f) 0)) -> lin m n g.
Proof.
  intros L H. split; auto. intros c f f' H1 H2. apply list_eq_nth with (d := 0).
  - rewrite length_axpy; rewrite !L; auto. rewrite length_axpy; lia.
  - rewrite L by (rewrite length_axpy; lia). intros i Hi. rewrite nth_axpy by (now rewrite !L). now apply H.
Qed.
(** the general way to prove linearity: entries *)
Lemma lin_tab m n (p : nat -> list A -> A) : (forall j, (j < n)%nat -> lf m (p j)) -> lin m n (fun f => tab n (fun j => p j f)).
Proof.
  intro H. apply lin_nth; [intros; apply length_tab|]. intros j Hj. apply (lf_ext m _ (p j)); auto. intros; now rewrite nth_tab.
Qed.
Lemma lf_lin m n g phi : lin m n g -> lf n phi -> lf m (fun f => phi (g f)).
Proof. intros [L H] P c f f' H1 H2. rewrite H by auto. now rewrite P by auto. Qed.
Lemma lin_id m : lin m m (fun f => f). Proof. split; auto. Qed.
Lemma lin_comp m n p g h : lin m n g -> lin n p h -> lin m p (fun f => h (g f)).
Proof. intros [L H] [L' H']. split; auto. intros c f f' H1 H2. rewrite H, H' by auto. reflexivity. Qed.
Lemma lin_map m n d g : lin m n g -> lin m n (fun f => map (nmul d) (g f)).
Proof.
  intros G. apply lin_nth; [intros; rewrite map_length; now apply (lin_len m n g)|]. intros j Hj.
  apply (lf_ext m _ (fun f => d * nth j (g f) 0)).
  - intros f L. now rewrite nth_map_ with (d' := 0) by (now rewrite (lin_len m n g)).
  - now apply lf_scal, (lin_lf m n).
Qed.
Lemma lin_opp m n g : lin m n g -> lin m n (fun f => map nopp (g f)).
Proof.
  intros G. apply lin_nth; [intros; rewrite map_length; now apply (lin_len m n g)|]. intros j Hj.
  apply (lf_ext m _ (fun f => - nth j (g f) 0)).
  - intros f L. now rewrite nth_map_ with (d' := 0) by (now rewrite (lin_len m n g)).
  - now apply lf_opp, (lin_lf m n).
Qed.
Lemma lin_vadd m n g h : lin m n g -> lin m n h -> lin m n (fun f => vadd (g f) (h f)).
Proof.
  intros G H. apply lin_nth; [intros f L; unfold vadd; rewrite length_zipw, (lin_len m n g), (lin_len m n h); auto; lia|].
  intros j Hj. apply (lf_ext m _ (fun f => nth j (g f) 0 + nth j (h f) 0)).
  - intros f L. unfold vadd. now rewrite nth_zipw with (dx := 0) (dy := 0) by (rewrite ?(lin_len m n g), ?(lin_len m n h); auto).
  - apply lf_add; now apply (lin_lf m n).
Qed.
Lemma lin_vsub m n g h : lin m n g -> lin m n h -> lin m n (fun f => vsub (g f) (h f)).
Proof.
  intros G H. apply lin_nth; [intros f L; unfold vsub; rewrite length_zipw, (lin_len m n g), (lin_len m n h); auto; lia|].
  intros j Hj. apply (lf_ext m _ (fun f => nth j (g f) 0 - nth j (h f) 0)).
  - intros f L. unfold vsub. now rewrite nth_zipw with (dx := 0) (dy := 0) by (rewrite ?(lin_len m n g), ?(lin_len m n h); auto).
  - apply lf_sub; now apply (lin_lf m n).
Qed.
Lemma lin_vmul_r m n g d : length d = n -> lin m n g -> lin m n (fun f => vmul (g f) d).
Proof.
  intros Ld G. apply lin_nth; [intros f L; unfold vmul; rewrite length_zipw, (lin_len m n g); auto; lia|].
  intros j Hj. apply (lf_ext m _ (fun f => nth j (g f) 0 * nth j d 0)).
  - intros f L. unfold vmul. now rewrite nth_zipw with (dx := 0) (dy := 0) by (rewrite ?(lin_len m n g); auto; lia).
  - apply lf_scal_r; now apply (lin_lf m n).
Qed.
(** reordering of entries *)
Lemma lin_reindex m n g (s : nat -> nat) : (forall f, length f = m -> length (g f) = n) ->
  (forall f j, length f = m -> (j < n)%nat -> nth j (g f) 0 = nth (s j) f 0) -> lin m n g.
Proof. intros L H. apply lin_nth; auto. intros j Hj. apply (lf_ext m _ (fun f => nth (s j) f 0)); [auto|apply lf_nth]. Qed.
Lemma lin_roll m k : lin m m (roll k).
Proof. apply (lin_reindex m m _ (fun i => Z.to_nat ((Z.of_nat i - k) mod Z.of_nat m))); [intros; now rewrite length_roll|]. intros f j L Hj. rewrite nth_roll by lia. now rewrite L. Qed.
Lemma lin_rev m : lin m m (@rev A).
Proof. apply (lin_reindex m m _ (fun i => m - S i)%nat); [intros; now rewrite rev_length|]. intros f j L Hj. rewrite rev_nth by lia. now rewrite L. Qed.
Lemma lin_inner m : lin m (m - 2) inner.
Proof. apply (lin_reindex m _ _ (fun i => i + 1)%nat); [intros; now rewrite length_inner; subst|]. intros f j L Hj. rewrite nth_inner by lia. reflexivity. Qed.
Lemma lin_evens m : lin m ((m + 1) / 2) evens.
Proof. apply (lin_reindex m _ _ (fun i => 2 * i)%nat); [intros; rewrite length_evens; now subst|]. intros f j L Hj. now rewrite nth_evens. Qed.
Lemma lin_odds m : lin m (m / 2) odds.
Proof. apply (lin_reindex m _ _ (fun i => 2 * i + 1)%nat); [intros; rewrite length_odds; now subst|]. intros f j L Hj. now rewrite nth_odds. Qed.
Lemma lin_removelast m : lin m (m - 1) (@removelast A).
Proof. apply (lin_reindex m _ _ (fun i => i)); [intros; rewrite length_removelast; now subst|]. intros f j L Hj. rewrite nth_removelast by lia. reflexivity. Qed.
Lemma lin_tl m : lin m (m - 1) (@tl A).
Proof. apply (lin_reindex m _ _ S); [intros; rewrite length_tl; now subst|]. intros f j L Hj. now rewrite nth_tl. Qed.
Lemma lin_firstn m k : (k <= m)%nat -> lin m k (firstn k).
Proof. intro Hk. apply (lin_reindex m _ _ (fun i => i)); [intros; rewrite firstn_length; lia|]. intros f j L Hj. now rewrite nth_firstn_ by lia. Qed.
Lemma lin_app m n p g h : lin m n g -> lin m p h -> lin m (n + p)%nat (fun f => g f ++ h f).
Proof.
  intros G H. apply lin_nth; [intros f L; rewrite app_length, (lin_len m n g), (lin_len m p h); auto|]. intros j Hj.
  destruct (Nat.lt_ge_cases j n).
  - apply (lf_ext m _ (fun f => nth j (g f) 0)); [|now apply (lin_lf m n)]. intros f L. rewrite app_nth1; auto. now rewrite (lin_len m n g).
  - apply (lf_ext m _ (fun f => nth (j - n) (h f) 0)); [|now apply (lin_lf m p)]. intros f L. rewrite app_nth2; rewrite (lin_len m n g); auto.
Qed.
Lemma lin_single m phi : lf m phi -> lin m 1%nat (fun f => [phi f]).
Proof. intro P. apply lin_nth; auto. intros j Hj. destruct j; [|lia]. exact P. Qed.
Lemma lin_zeros m n : lin m n (fun _ => repeat 0 n).
Proof.
  apply lin_nth; [intros; apply repeat_length|]. intros j Hj. apply (lf_ext m _ (fun _ => 0)); [|apply lf_zero]. intros. apply nth_repeat.
Qed.
Lemma lin_weave m n p g h : (p <= n <= p + 1)%nat -> lin m n g -> lin m p h -> lin m (n + p)%nat (fun f => weave (g f) (h f)).
Proof.
  intros Hnp G H. apply lin_nth; [intros f L; rewrite length_weave; rewrite (lin_len m n g), (lin_len m p h); auto|]. intros j Hj.
  destruct (Nat.Even_or_Odd j) as [[k ->]|[k ->]].
  - apply (lf_ext m _ (fun f => nth k (g f) 0)); [|now apply (lin_lf m n)]. intros f L. rewrite nth_weave_even; auto. rewrite (lin_len m n g), (lin_len m p h); auto.
  - apply (lf_ext m _ (fun f => nth k (h f) 0)); [|now apply (lin_lf m p)]. intros f L. rewrite nth_weave_odd; auto. rewrite (lin_len m n g), (lin_len m p h); auto.
Qed.
Lemma cumsum_from_length acc (l : list A) : length (cumsum_from acc l) = length l.
Proof. revert acc. induction l; simpl; intros; auto. Qed.
Lemma nth_cumsum_from acc (l : list A) j : (j < length l)%nat -> nth j (cumsum_from acc l) 0 = acc + bsum (S j) (fun i => nth i l 0).
Proof.
  revert acc j. induction l as [|a l IH]; simpl; intros acc j Hj; [lia|]. destruct j as [|j]; [simpl; ring|].
  rewrite IH by lia. transitivity (acc + bsum (S (S j)) (fun i => nth i (a :: l) 0)); [|reflexivity].
  rewrite (bsum_S_l (S j)). cbn [nth]. ring.
Qed.
Lemma nth_cumsum (l : list A) j : (j < length l)%nat -> nth j (cumsum l) 0 = bsum (S j) (fun i => nth i l 0).
Proof. intro Hj. unfold cumsum. rewrite nth_cumsum_from by auto. ring. Qed.
Lemma length_cumsum (l : list A) : length (cumsum l) = length l. Proof. apply cumsum_from_length. Qed.
Lemma lin_cumsum m : lin m m cumsum.
Proof.
  apply lin_nth; [intros; now rewrite length_cumsum|]. intros j Hj. apply (lf_ext m _ (fun f => bsum (S j) (fun i => nth i f 0))).
  - intros f L. apply nth_cumsum. lia.
  - apply lf_bsum. intros. apply lf_nth.
Qed.
Lemma lf_lsum m : lf m lsum.
Proof.
  apply (lf_ext m _ (fun f => bsum m (fun i => nth i f 0))); [intros f L; rewrite (lsum_bsum _ 0); now rewrite L|]. apply lf_bsum. intros; apply lf_nth.
Qed.
Lemma lin_diff m : lin m (m - 1) diff.
Proof.
  apply lin_nth; [intros; rewrite length_diff; now subst|]. intros j Hj.
  apply (lf_ext m _ (fun f => nth (S j) f 0 - nth j f 0)); [intros; now rewrite nth_diff by lia|]. apply lf_sub; apply lf_nth.
Qed.
Lemma lin_mirror0 m s : (1 < m)%nat -> lin m (2 * (m - 1)) (mirror0 s).
Proof.
  intro Hm. apply lin_nth; [intros; rewrite length_mirror0'; lia|]. intros j Hj.
  apply (lf_ext m _ (fun f => if Nat.ltb j m then nth j f 0 else s * nth (2 * m - 2 - j) f 0)).
  - intros f L. rewrite nth_mirror0 by lia. now rewrite L.
  - apply lf_if; [apply lf_nth|apply lf_scal, lf_nth].
Qed.
Lemma lin_mirror1 m s : lin m (2 * m) (mirror1 s).
Proof.
  apply lin_nth; [intros; rewrite length_mirror1; lia|]. intros j Hj.
  apply (lf_ext m _ (fun f => if Nat.ltb j m then nth j f 0 else s * nth (2 * m - 1 - j) f 0)).
  - intros f L. rewrite nth_mirror1 by lia. now rewrite L.
  - apply lf_if; [apply lf_nth|apply lf_scal, lf_nth].
Qed.

(** the matrix of a linear operator: its columns are the images of the unit vectors *)
Definition unit (m i : nat) : list A := tab m (fun k => if Nat.eqb k i then 1 else 0).
Lemma length_unit m i : length (unit m i) = m. Proof. apply length_tab. Qed.
Lemma nth_unit m i k : (k < m)%nat -> nth k (unit m i) 0 = if Nat.eqb k i then 1 else 0.
Proof. intro. unfold unit. now rewrite nth_tab. Qed.
Lemma lf_zero_val m phi : lf m phi -> phi (repeat 0 m) = 0.
Proof.
  intro P. assert (length (repeat 0 m) = m) as L by apply repeat_length. specialize (P (- (1)) _ _ L L).
  assert (axpy (- (1)) (repeat 0 m) (repeat 0 m) = repeat 0 m) as E.
  { unfold axpy. clear P L. induction m; simpl; [reflexivity|]. rewrite IHm. f_equal. ring. }
  rewrite E in P. rewrite P. ring.
Qed.
Lemma lf_matrix m phi f : lf m phi -> length f = m -> phi f = bsum m (fun i => phi (unit m i) * nth i f 0).
Proof.
  intros P L. set (tr := fun k => tab m (fun i => if Nat.ltb i k then nth i f 0 else 0)).
  assert (forall k, (k <= m)%nat -> phi (tr k) = bsum k (fun i => phi (unit m i) * nth i f 0)) as K.
  { induction k as [|k IH]; intro Hk.
    - simpl. replace (tr O) with (repeat 0 m); [now apply lf_zero_val|]. apply list_eq_nth with (d := 0); unfold tr; [len; lia|]. intros i Hi. rewrite repeat_length in Hi. rewrite nth_tab by lia. simpl. apply nth_repeat.
    - simpl. rewrite <- IH by lia. replace (tr (S k)) with (axpy (nth k f 0) (unit m k) (tr k)).
      + rewrite P by (unfold tr; now rewrite ?length_unit, ?length_tab). ring.
      + assert (length (tr k) = m) as Lt by apply length_tab.
        apply list_eq_nth with (d := 0); [rewrite length_axpy; rewrite length_unit; unfold tr; len; lia|].
        rewrite length_axpy by (rewrite length_unit; lia). rewrite length_unit. intros i Hi.
        rewrite nth_axpy by (rewrite length_unit; lia). rewrite nth_unit by auto. unfold tr. rewrite !nth_tab by auto.
        destruct (Nat.eqb_spec i k), (Nat.ltb_spec i k), (Nat.ltb_spec i (S k)); try lia; subst; ring. }
  rewrite <- K by lia. f_equal. symmetry. rewrite (list_tab 0 f) at 1. rewrite L. unfold tr. apply tab_ext. intros i Hi. destruct (Nat.ltb_spec i m); [reflexivity|lia].
Qed.
Lemma lin_matrix m n g f : lin m n g -> length f = m ->
  g f = tab n (fun j => bsum m (fun i => nth j (g (unit m i)) 0 * nth i f 0)).
Proof.
  intros G L. apply list_eq_nth with (d := 0); [rewrite length_tab; now apply (lin_len m n)|].
  rewrite (lin_len m n g) by auto. intros j Hj. rewrite nth_tab by auto. apply (lf_matrix m (fun f => nth j (g f) 0)); auto. now apply (lin_lf m n).
Qed.
End Lin.

(** ** complex operators *)
Local Open Scope R_scope.
Lemma lin_F m : lin m m F.
Proof.
  apply lin_nth; [intros; now rewrite length_F|]. intros j Hj.
  apply (lf_ext m _ (fun f => bsum m (fun k => nmul (nth k f (RtoC 0)) (cis (- (IZR (fz m j) * xg m k)))))).
  - intros f L. change (@nzero C NumC) with (RtoC 0). rewrite nth_F by lia. rewrite L, bsum_Csum. reflexivity.
  - apply lf_bsum. intros i _. apply lf_scal_r. exact (@lf_nth C NumC LawsC m i).
Qed.
Lemma lin_Finv m : lin m m Finv.
Proof.
  apply lin_nth; [intros; now rewrite length_Finv|]. intros j Hj.
  apply (lf_ext m _ (fun f => nmul (RtoC (/ INR m)) (bsum m (fun k => nmul (nth k f (RtoC 0)) (cis (IZR (fz m k) * xg m j)))))).
  - intros f L. change (@nzero C NumC) with (RtoC 0). rewrite nth_Finv by lia. rewrite L, bsum_Csum. reflexivity.
  - apply lf_scal, lf_bsum. intros i _. apply lf_scal_r. exact (@lf_nth C NumC LawsC m i).
Qed.
Lemma lin_vdiv_r m n g d : length d = n -> lin m n g -> lin m n (fun f => vdiv (g f) d).
Proof.
  intros Ld G. apply (lin_ext m n _ (fun f => vmul (g f) (map Cinv d))).
  - intros f L. unfold vdiv, vmul. pose proof (lin_len m n g f G L). apply list_eq_nth with (d := RtoC 0); len; [lia|]. intros i Hi.
    rewrite !nth_zipw with (dx := RtoC 0) (dy := RtoC 0) by (len; lia). rewrite nth_map_ with (d' := RtoC 0) by lia. reflexivity.
  - apply lin_vmul_r; auto. now rewrite map_length.
Qed.
Lemma lin_fm m D : lin m m (fm D).
Proof.
  apply (lin_ext m m _ (fun f => Finv (tab m (fun i => nmul (nth i (F f) (RtoC 0)) (D (fz m i)))))).
  - intros f L. unfold fm. now rewrite L.
  - apply (lin_comp m m m (fun f => tab m (fun i => nmul (nth i (F f) (RtoC 0)) (D (fz m i)))) Finv); [|apply lin_Finv].
    apply lin_tab. intros j Hj. apply lf_scal_r. exact (lin_lf m m F j (lin_F m)).
Qed.
(** the real part of a complex linear operator applied to a real array *)
Lemma cplxv_axpy c x y : length x = length y -> cplxv (axpy c x y) = axpy (RtoC c) (cplxv x) (cplxv y).
Proof.
  intro L. apply list_eq_nth with (d := RtoC 0).
  - rewrite length_cplxv, !length_axpy by (rewrite ?length_cplxv; auto). now rewrite length_cplxv.
  - rewrite length_cplxv, length_axpy by auto. intros i Hi. pose proof (@nth_axpy C NumC LawsC (RtoC c) (cplxv x) (cplxv y) i) as E.
    change (@nzero C NumC) with (RtoC 0) in E. rewrite E by (now rewrite !length_cplxv).
    unfold cplxv. rewrite !nth_map_ with (d' := 0) by (rewrite ?length_axpy; lia).
    pose proof (@nth_axpy R NumR LawsR c x y i L) as E'. change (@nzero R NumR) with 0 in E'. rewrite E'. apply C_eq; simpl; ring.
Qed.
Lemma realv_axpy c x y : length x = length y -> realv (axpy (RtoC c) x y) = axpy c (realv x) (realv y).
Proof.
  intro L. apply list_eq_nth with (d := 0).
  - rewrite length_realv, !length_axpy by (rewrite ?length_realv; auto). now rewrite length_realv.
  - rewrite length_realv, length_axpy by auto. intros i Hi. pose proof (@nth_axpy R NumR LawsR c (realv x) (realv y) i) as E'. change (@nzero R NumR) with 0 in E'. rewrite E' by (now rewrite !length_realv).
    unfold realv. rewrite !nth_map_ with (d' := RtoC 0) by (rewrite ?length_axpy; lia).
    pose proof (@nth_axpy C NumC LawsC (RtoC c) x y i L) as E. change (@nzero C NumC) with (RtoC 0) in E. rewrite E. change (c * Re (nth i x (RtoC 0)) - 0 * Im (nth i x (RtoC 0)) + Re (nth i y (RtoC 0)) = c * Re (nth i x (RtoC 0)) + Re (nth i y (RtoC 0))). ring.
Qed.
Lemma lin_real m n g : lin m n g -> lin m n (fun f => realv (g (cplxv f))).
Proof.
  intros [L H]. split; [intros; rewrite length_realv; apply L; now rewrite length_cplxv|].
  intros c f f' H1 H2. rewrite cplxv_axpy by lia. rewrite H by (now rewrite length_cplxv).
  apply realv_axpy. now rewrite !L by (now rewrite length_cplxv).
Qed.
