(** Lemmas about the array operations of Model/Np.v. *)
From Coq Require Import ZArith Reals List Lia Arith.
From Coq Require Import ZifyNat.
From Coquelicot Require Import Complex.
From Verif Require Import Model.Num Model.Np.
Import ListNotations.
Ltac Zify.zify_post_hook ::= Z.div_mod_to_equations.

#[global] Arguments Nat.div : simpl never.
#[global] Arguments Nat.modulo : simpl never.

Lemma length_tab {A} n (f : nat -> A) : length (tab n f) = n.
Proof. unfold tab. now rewrite map_length, seq_length. Qed.

Lemma nth_tab {A} n (f : nat -> A) i d : i < n -> nth i (tab n f) d = f i.
Proof.
  intro H. unfold tab. rewrite nth_indep with (d' := f 0) by (now rewrite map_length, seq_length).
  rewrite map_nth, seq_nth by assumption. reflexivity.
Qed.

Lemma list_eq_nth {A} (d : A) (l1 l2 : list A) :
  length l1 = length l2 -> (forall i, i < length l1 -> nth i l1 d = nth i l2 d) -> l1 = l2.
Proof. intros; apply nth_ext with (d := d) (d' := d); auto. Qed.

Lemma list_tab {A} (d : A) (l : list A) : l = tab (length l) (fun i => nth i l d).
Proof.
  apply list_eq_nth with (d := d); [now rewrite length_tab|].
  intros i H. now rewrite nth_tab.
Qed.

Lemma tab_ext {A} n (f g : nat -> A) : (forall i, i < n -> f i = g i) -> tab n f = tab n g.
Proof. intro H. unfold tab. apply map_ext_in. intros a Ha. apply in_seq in Ha. apply H. lia. Qed.

Lemma map_tab {A B} (g : A -> B) n f : map g (tab n f) = tab n (fun i => g (f i)).
Proof. unfold tab. now rewrite map_map. Qed.

Lemma length_zipw {A B D} (op : A -> B -> D) x y :
  length (zipw op x y) = min (length x) (length y).
Proof. revert y; induction x as [|a x IH]; intros [|b y]; simpl; auto. Qed.

Lemma nth_zipw {A B D} (op : A -> B -> D) x y i dx dy d :
  i < length x -> i < length y ->
  nth i (zipw op x y) d = op (nth i x dx) (nth i y dy).
Proof.
  revert y i; induction x as [|a x IH]; intros [|b y] i Hx Hy; simpl in *; try lia.
  destruct i; [reflexivity|]. apply IH; lia.
Qed.

Lemma zipw_tab {A B D} (op : A -> B -> D) n f g :
  zipw op (tab n f) (tab n g) = tab n (fun i => op (f i) (g i)).
Proof.
  unfold tab. induction (seq 0 n) as [|a l IH]; simpl; [reflexivity|]. now rewrite IH.
Qed.

Lemma nth_skipn_ {A} (l : list A) k i d : nth i (skipn k l) d = nth (k + i) l d.
Proof.
  revert k; induction l as [|a l IH]; intros [|k]; simpl; auto. destruct i; reflexivity.
Qed.

Lemma nth_firstn_ {A} (l : list A) k i d : i < k -> nth i (firstn k l) d = nth i l d.
Proof.
  revert k i; induction l as [|a l IH]; intros [|k] i H; simpl; auto; try lia.
  destruct i; auto. apply IH; lia.
Qed.

Lemma roll_shift_lt {A} (k : Z) (l : list A) :
  l <> [] -> Z.to_nat ((- k) mod Z.of_nat (length l)) < length l.
Proof.
  intro H. destruct l as [|a l]; [congruence|]. simpl length.
  pose proof (Z.mod_pos_bound (- k) (Z.of_nat (S (length l)))) as Hb. lia.
Qed.

Lemma length_roll {A} k (l : list A) : length (roll k l) = length l.
Proof.
  unfold roll. destruct l as [|a l]; [now rewrite skipn_nil, firstn_nil|].
  pose proof (roll_shift_lt k (a :: l)) as H. specialize (H ltac:(congruence)).
  rewrite app_length, skipn_length, firstn_length. lia.
Qed.

Lemma nth_roll {A} (k : Z) (l : list A) i d :
  i < length l ->
  nth i (roll k l) d = nth (Z.to_nat ((Z.of_nat i - k) mod Z.of_nat (length l))) l d.
Proof.
  intro H. assert (l <> []) as Hl by (destruct l; simpl in *; [lia|congruence]).
  pose proof (roll_shift_lt k l Hl) as Hs.
  unfold roll. set (s := Z.to_nat ((- k) mod Z.of_nat (length l))) in *.
  assert (Z.of_nat s = (- k) mod Z.of_nat (length l))%Z as Es.
  { unfold s. rewrite Z2Nat.id; auto. apply Z.mod_pos_bound. lia. }
  assert (((Z.of_nat i - k) mod Z.of_nat (length l)) = (Z.of_nat i + Z.of_nat s) mod Z.of_nat (length l))%Z as E.
  { rewrite Es, Zplus_mod_idemp_r. f_equal. }
  rewrite E. destruct (Nat.lt_ge_cases i (length l - s)) as [H1|H1].
  - rewrite app_nth1 by (rewrite skipn_length; lia). rewrite nth_skipn_.
    rewrite Z.mod_small by lia. f_equal. lia.
  - rewrite app_nth2 by (rewrite skipn_length; lia). rewrite skipn_length, nth_firstn_ by lia.
    f_equal. replace (Z.of_nat i + Z.of_nat s)%Z with (Z.of_nat (i + s - length l) + 1 * Z.of_nat (length l))%Z by lia.
    rewrite Z.mod_add by lia. rewrite Z.mod_small by lia. lia.
Qed.

(** The index of [roll] as a natural number, for the two shifts used. *)
Lemma nth_roll_m1 {A} (l : list A) i d :
  i < length l -> nth i (roll (-1) l) d = nth (if Nat.eqb (i + 1) (length l) then 0 else i + 1) l d.
Proof.
  intro H. rewrite nth_roll by auto. f_equal.
  replace (Z.of_nat i - -1)%Z with (Z.of_nat (i + 1)) by lia.
  destruct (Nat.eqb_spec (i + 1) (length l)) as [E|E].
  - rewrite <- E, Z.mod_same by lia. reflexivity.
  - rewrite Z.mod_small by lia. lia.
Qed.

Lemma nth_roll_1 {A} (l : list A) i d :
  i < length l -> nth i (roll 1 l) d = nth (if Nat.eqb i 0 then length l - 1 else i - 1) l d.
Proof.
  intro H. rewrite nth_roll by auto. f_equal.
  destruct (Nat.eqb_spec i 0) as [E|E].
  - subst. replace (Z.of_nat 0 - 1)%Z with (Z.of_nat (length l - 1) + (-1) * Z.of_nat (length l))%Z by lia.
    rewrite Z.mod_add by lia. rewrite Z.mod_small by lia. lia.
  - replace (Z.of_nat i - 1)%Z with (Z.of_nat (i - 1)) by lia. rewrite Z.mod_small by lia. lia.
Qed.

(** Induction on lists two elements at a time. *)
Lemma list_ind2 {A} (P : list A -> Prop) :
  P [] -> (forall a, P [a]) -> (forall a b l, P l -> P (a :: b :: l)) -> forall l, P l.
Proof.
  intros H0 H1 H2 l. assert (P l /\ forall a, P (a :: l)) as [? _]; [|assumption].
  induction l as [|b l [IH1 IH2]]; split; auto.
Qed.

Lemma length_evens {A} (l : list A) : length (evens l) = (length l + 1) / 2.
Proof.
  induction l as [|a|a b l IH] using list_ind2; try reflexivity.
  cbn [evens length]. rewrite IH. cbn [length]. lia.
Qed.

Lemma nth_evens {A} (l : list A) i d : nth i (evens l) d = nth (2 * i) l d.
Proof.
  revert i; induction l as [|a|a b l IH] using list_ind2; intro i.
  - now destruct i.
  - destruct i as [|i]; [reflexivity|]. replace (2 * S i) with (S (S (2 * i))) by lia. simpl.
    destruct i; reflexivity.
  - destruct i as [|i]; [reflexivity|]. replace (2 * S i) with (S (S (2 * i))) by lia.
    cbn [evens nth]. apply IH.
Qed.

Lemma length_tl {A} (l : list A) : length (tl l) = length l - 1.
Proof. destruct l; simpl; lia. Qed.

Lemma nth_tl {A} (l : list A) i d : nth i (tl l) d = nth (S i) l d.
Proof. destruct l; simpl; [destruct i|]; reflexivity. Qed.

Lemma length_odds {A} (l : list A) : length (odds l) = length l / 2.
Proof.
  unfold odds. rewrite length_evens, length_tl. destruct l as [|a l]; cbn [length]; lia.
Qed.

Lemma nth_odds {A} (l : list A) i d : nth i (odds l) d = nth (2 * i + 1) l d.
Proof. unfold odds. rewrite nth_evens, nth_tl. f_equal. lia. Qed.

Lemma length_weave {A} (a b : list A) :
  length b <= length a <= length b + 1 -> length (weave a b) = length a + length b.
Proof.
  revert b; induction a as [|x a IH]; intros b H; [simpl in *; lia|].
  destruct b as [|y b]; simpl in *; [lia|]. rewrite IH; lia.
Qed.

Lemma evens_weave {A} (a b : list A) :
  length b <= length a <= length b + 1 -> evens (weave a b) = a.
Proof.
  revert b; induction a as [|x a IH]; intros b H; [reflexivity|].
  destruct b as [|y b]; simpl in *; [|f_equal; apply IH; lia].
  destruct a; simpl in *; [reflexivity|lia].
Qed.

Lemma odds_weave {A} (a b : list A) :
  length b <= length a <= length b + 1 -> odds (weave a b) = b.
Proof.
  revert b; induction a as [|x a IH]; intros b H; simpl in *.
  - destruct b; simpl in *; [reflexivity|lia].
  - destruct b as [|y b]; [reflexivity|]. cbn [weave]. unfold odds in *; cbn [tl].
    specialize (IH b ltac:(simpl in *; lia)). destruct (weave a b) as [|c w] eqn:E.
    + destruct a; simpl in *; [|destruct b; discriminate]. destruct b; simpl in *; [reflexivity|lia].
    + cbn [evens]. f_equal. exact IH.
Qed.

Lemma weave_evens_odds {A} (l : list A) : weave (evens l) (odds l) = l.
Proof.
  induction l as [|a|a b l IH] using list_ind2; try reflexivity.
  assert (odds (a :: b :: l) = b :: odds l) as E.
  { unfold odds; cbn [tl]. destruct l; reflexivity. }
  rewrite E. cbn [evens weave]. now rewrite IH.
Qed.

Lemma nth_weave_even {A} (a b : list A) i d :
  length b <= length a <= length b + 1 -> nth (2 * i) (weave a b) d = nth i a d.
Proof. intro H. rewrite <- nth_evens, evens_weave; auto. Qed.

Lemma nth_weave_odd {A} (a b : list A) i d :
  length b <= length a <= length b + 1 -> nth (2 * i + 1) (weave a b) d = nth i b d.
Proof. intro H. rewrite <- nth_odds, odds_weave; auto. Qed.

Lemma length_removelast {A} (l : list A) : length (removelast l) = length l - 1.
Proof.
  induction l as [|a l IH]; [reflexivity|]. destruct l; [reflexivity|].
  cbn [removelast length] in *. rewrite IH. lia.
Qed.

Lemma nth_removelast {A} (l : list A) i d : i < length l - 1 -> nth i (removelast l) d = nth i l d.
Proof.
  revert i; induction l as [|a l IH]; intros i H; [reflexivity|].
  destruct l as [|b l]; [simpl in H; lia|].
  destruct i; [reflexivity|]. cbn [removelast] in *. cbn [nth]. apply IH. cbn [length] in *. lia.
Qed.

Lemma length_inner {A} (l : list A) : length (inner l) = length l - 2.
Proof. unfold inner. rewrite length_removelast, length_tl. lia. Qed.

Lemma nth_inner {A} (l : list A) i d : i < length l - 2 -> nth i (inner l) d = nth (i + 1) l d.
Proof.
  intro H. unfold inner. rewrite nth_removelast by (rewrite length_tl; lia).
  rewrite nth_tl. f_equal; lia.
Qed.

Lemma nth_last {A} (l : list A) d : last l d = nth (length l - 1) l d.
Proof.
  induction l as [|a l IH]; [reflexivity|]. destruct l as [|b l]; [reflexivity|].
  cbn [last] in *. rewrite IH. cbn [length]. replace (S (S (length l)) - 1) with (S (S (length l) - 1)) by lia.
  reflexivity.
Qed.

Lemma nth_hd {A} (l : list A) d : hd d l = nth 0 l d.
Proof. destruct l; reflexivity. Qed.

Lemma nth_map_ {A B} (f : A -> B) l i d d' : i < length l -> nth i (map f l) d = f (nth i l d').
Proof.
  intro H. rewrite nth_indep with (d' := f d') by (now rewrite map_length). apply map_nth.
Qed.

Lemma length_diff {A} `{Num A} (l : list A) : length (diff l) = length l - 1.
Proof. unfold diff, vsub. rewrite length_zipw, length_tl. lia. Qed.

Lemma nth_diff {A} `{Num A} (l : list A) i d :
  i < length l - 1 -> nth i (diff l) d = nsub (nth (S i) l d) (nth i l d).
Proof.
  intro H'. unfold diff, vsub. rewrite nth_zipw with (dx := d) (dy := d) by (rewrite ?length_tl; lia).
  now rewrite nth_tl.
Qed.

Lemma length_fftshift {A} (l : list A) : length (fftshift l) = length l.
Proof. apply length_roll. Qed.
Lemma length_ifftshift {A} (l : list A) : length (ifftshift l) = length l.
Proof. apply length_roll. Qed.
Lemma length_fft l : length (fft l) = length l.
Proof. apply length_tab. Qed.
Lemma length_ifft l : length (ifft l) = length l.
Proof. apply length_tab. Qed.
Lemma length_realv l : length (realv l) = length l. Proof. apply map_length. Qed.
Lemma length_cplxv l : length (cplxv l) = length l. Proof. apply map_length. Qed.

Lemma length_fftfreqN N : 0 < N -> length (fftfreqN N) = N.
Proof. intro. unfold fftfreqN. rewrite app_length, !map_length, !seq_length. lia. Qed.

Lemma length_linspace a b n : length (linspace a b n) = n.
Proof. destruct n as [|[|n]]; try reflexivity. unfold linspace. now rewrite length_tab. Qed.

Lemma nth_linspace a b n i d :
  i < S (S n) -> nth i (linspace a b (S (S n))) d = (a + INR i * ((b - a) / INR (S n)))%R.
Proof. intro H. unfold linspace. now rewrite nth_tab. Qed.

#[export] Hint Rewrite @length_tab @length_zipw @length_roll @length_evens @length_odds @length_tl
  @length_removelast @length_inner @length_diff @length_fftshift @length_ifftshift length_fft length_ifft
  length_realv length_cplxv length_linspace @app_length @map_length @rev_length @firstn_length
  @skipn_length @seq_length @repeat_length : len.
Ltac len := repeat (autorewrite with len in *; cbn [length] in *).
