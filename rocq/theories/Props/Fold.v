(** C86: folding a circle onto a half circle and back (fold0, fold1, unfold0), merging half edges (matA), clearing the ends
    (matC), reverse and pick. *)
From Coq Require Import ZArith Reals List Lia Lra Arith.
From Coq Require Import ZifyNat.
From Verif Require Import Model.Num Model.Np Model.Spectral Proofs.ListLemmas Proofs.RingSums Proofs.Mirror.
Import ListNotations.
Local Open Scope R_scope.
Ltac Zify.zify_post_hook ::= Z.div_mod_to_equations.

Lemma nth_firstn_ {A} (l : list A) k i d : (i < k)%nat -> nth i (firstn k l) d = nth i l d.
Proof. revert k i. induction l as [|a l IH]; intros [|k] [|i] H; try lia; try reflexivity; cbn. apply IH. lia. Qed.
Lemma nth_cons_S {A} (x : A) l i d : nth (S i) ([x] ++ l) d = nth i l d.
Proof. reflexivity. Qed.
(** fold1(f, s): entry i of the first half plus s times its mirror image *)
Theorem C86_fold1 (s : R) (f : list R) (m : nat) : length f = (2 * m)%nat ->
  fold1 s f = tab m (fun i => nth i f 0 + s * nth (2 * m - 1 - i) f 0).
Proof.
  intro L. unfold fold1. rewrite L. replace (2 * m / 2)%nat with m by lia. unfold vadd.
  apply list_eq_nth with (d := 0).
  - rewrite length_zipw, map_length, !firstn_length, rev_length, L, length_tab. lia.
  - rewrite length_zipw, map_length, !firstn_length, rev_length, L. intros i Hi. rewrite nth_tab by lia.
    rewrite nth_zipw with (dx := 0) (dy := 0) by (rewrite ?map_length, firstn_length, ?rev_length; lia).
    rewrite nth_map_ with (d' := 0) by (rewrite firstn_length, rev_length; lia). rewrite !nth_firstn_ by lia. rewrite rev_nth by lia. rewrite L. cbn [nadd nmul NumR].
    do 2 f_equal. f_equal. lia.
Qed.
Theorem C86_fold0 (s : R) (f : list R) (m : nat) : length f = (2 * m)%nat -> (1 <= m)%nat ->
  fold0 s f = tab (m + 1) (fun i => if Nat.eqb i 0 then nth 0 f 0 else if Nat.eqb i m then s * nth m f 0 else nth i f 0 + s * nth (2 * m - i) f 0).
Proof.
  intros L Hm. unfold fold0. rewrite L. replace (2 * m / 2)%nat with m by lia. unfold vadd. cbn [nzero NumR].
  assert (length (firstn m f ++ [0]) = (m + 1)%nat) as L1 by (rewrite app_length, firstn_length, L; cbn; lia).
  assert (length ([0] ++ firstn m (rev f)) = (m + 1)%nat) as L2 by (rewrite app_length, firstn_length, rev_length, L; cbn; lia).
  apply list_eq_nth with (d := 0).
  - rewrite length_zipw, map_length, L1, L2, length_tab. lia.
  - rewrite length_zipw, map_length, L1, L2. intros i Hi. rewrite nth_tab by lia.
    rewrite nth_zipw with (dx := 0) (dy := 0) by (rewrite ?map_length; lia). rewrite nth_map_ with (d' := 0) by lia. cbn [nadd nmul NumR].
    assert (nth i ([0] ++ firstn m (rev f)) 0 = if Nat.eqb i 0 then 0 else nth (2 * m - i) f 0) as ->.
    { destruct i as [|i]; [reflexivity|]. cbn [app nth Nat.eqb]. rewrite nth_firstn_ by lia. rewrite rev_nth by lia. f_equal. lia. }
    assert (nth i (firstn m f ++ [0]) 0 = if Nat.eqb i m then 0 else nth i f 0) as ->.
    { destruct (Nat.eqb_spec i m) as [->|].
      - rewrite app_nth2 by (rewrite firstn_length; lia). rewrite firstn_length, L. replace (m - Nat.min m (2 * m))%nat with 0%nat by lia. reflexivity.
      - rewrite app_nth1 by (rewrite firstn_length; lia). apply nth_firstn_. lia. }
    destruct (Nat.eqb_spec i 0) as [->|]; [destruct (Nat.eqb_spec 0 m); [lia|]; ring|]. destruct (Nat.eqb_spec i m) as [->|]; [|reflexivity].
    replace (2 * m - m)%nat with m by lia. ring.
Qed.
(** Folding undoes mirroring, up to the factor 2 of the points that were doubled *)
Theorem C86_fold_mirror (s : R) (f : list R) : s * s = 1 -> let n := length f in
  fold1 s (mirror1 s f) = map (Rmult 2) f /\
  ((2 <= n)%nat -> fold0 s (mirror0 s f) = tab n (fun i => if Nat.eqb i 0 then nth 0 f 0 else if Nat.eqb i (n - 1) then s * nth i f 0 else 2 * nth i f 0)).
Proof.
  intros Hs n. split.
  - rewrite (C86_fold1 s _ n) by apply length_mirror1. apply list_eq_nth with (d := 0); rewrite length_tab; [now rewrite map_length|]. intros i Hi. rewrite nth_tab by auto. rewrite nth_map_ with (d' := 0) by auto.
    rewrite !nth_mirror1 by lia. fold n. destruct (Nat.ltb_spec i n); [|lia]. destruct (Nat.ltb_spec (2 * n - 1 - i) n); [lia|]. cbn [nmul NumR].
    replace (2 * n - 1 - (2 * n - 1 - i))%nat with i by lia. rewrite <- Rmult_assoc, Hs. ring.
  - intro Hn. rewrite (C86_fold0 s _ (n - 1)) by (rewrite ?length_mirror0' by auto; fold n; lia). replace (n - 1 + 1)%nat with n by lia. apply tab_ext. intros i Hi.
    destruct (Nat.eqb_spec i 0); [|destruct (Nat.eqb_spec i (n - 1)) as [->|]].
    + rewrite nth_mirror0 by (fold n; lia). fold n. destruct (Nat.ltb_spec 0 n); [reflexivity|lia].
    + rewrite nth_mirror0 by (fold n; lia). fold n. destruct (Nat.ltb_spec (n - 1) n); [reflexivity|lia].
    + rewrite !nth_mirror0 by (fold n; lia). fold n. destruct (Nat.ltb_spec i n); [|lia]. destruct (Nat.ltb_spec (2 * (n - 1) - i) n); [lia|]. cbn [nmul NumR].
      replace (2 * n - 2 - (2 * (n - 1) - i))%nat with i by lia. rewrite <- Rmult_assoc, Hs. ring.
Qed.
(** unfold0 spreads an array over the circle: half of each inner entry at its own point and minus half at the mirror image *)
Theorem C86_unfold0 (f : list R) : let n := length f in (2 <= n)%nat ->
  unfold0 f = tab (2 * n - 2) (fun i => if Nat.eqb i 0 then nth 0 f 0 else if Nat.eqb i (n - 1) then - nth (n - 1) f 0
    else if Nat.ltb i (n - 1) then nth i f 0 / 2 else - (nth (2 * n - 2 - i) f 0 / 2)).
Proof.
  intros n Hn. unfold unfold0.
  assert (length (inner f) = (n - 2)%nat) as Li by apply length_inner.
  apply list_eq_nth with (d := 0).
  - rewrite !app_length, !map_length, rev_length, Li, length_tab. cbn. lia.
  - rewrite !app_length, !map_length, rev_length, Li. cbn [length]. intros i Hi. rewrite nth_tab by lia.
    destruct i as [|i]; [cbn; destruct f; reflexivity|]. rewrite nth_cons_S. change (Nat.eqb (S i) 0) with false. cbv iota.
    destruct (Nat.ltb_spec i (n - 2)).
    + rewrite app_nth1 by (rewrite map_length; lia). rewrite nth_map_ with (d' := 0) by lia. rewrite nth_inner by (fold n; lia).
      destruct (Nat.eqb_spec (S i) (n - 1)); [lia|]. destruct (Nat.ltb_spec (S i) (n - 1)); [|lia]. replace (i + 1)%nat with (S i) by lia. field.
    + rewrite app_nth2 by (rewrite map_length; lia). rewrite map_length, Li. destruct (Nat.eqb_spec (S i) (n - 1)).
      * replace (i - (n - 2))%nat with 0%nat by lia. change (nth 0 ([- last f 0] ++ map (Rmult (- / 2)) (rev (inner f))) 0) with (- last f 0). rewrite nth_last. fold n. now replace (n - 1)%nat with (S i) by lia.
      * replace (i - (n - 2))%nat with (S (i - (n - 2) - 1)) by lia. rewrite nth_cons_S. rewrite nth_map_ with (d' := 0) by (rewrite rev_length; lia). rewrite rev_nth by lia. rewrite Li, nth_inner by (fold n; lia).
        destruct (Nat.ltb_spec (S i) (n - 1)); [lia|]. replace (n - 2 - S (i - (n - 2) - 1) + 1)%nat with (2 * n - 2 - S i)%nat by lia. field.
Qed.
(** fold0(., -1) undoes unfold0, and unfold0 undoes fold0(., -1) exactly on the arrays that are antisymmetric about the ends;
    on any other array it returns the antisymmetric part *)
Theorem C86_fold_unfold (f : list R) : (2 <= length f)%nat -> fold0 (-1) (unfold0 f) = f.
Proof.
  intro Hn. set (n := length f) in *. assert (length (unfold0 f) = (2 * (n - 1))%nat) as L by (rewrite C86_unfold0 by auto; rewrite length_tab; fold n; lia).
  rewrite (C86_fold0 (-1) _ (n - 1)) by (auto; lia). replace (n - 1 + 1)%nat with n by lia.
  transitivity (tab n (fun i => nth i f 0)); [|symmetry; apply list_tab].
  apply tab_ext. intros i Hi. rewrite C86_unfold0 by auto. fold n.
  destruct (Nat.eqb_spec i 0) as [->|]; [rewrite nth_tab by lia; reflexivity|]. destruct (Nat.eqb_spec i (n - 1)) as [->|].
  - rewrite nth_tab by lia. destruct (Nat.eqb_spec (n - 1) 0); [lia|]. rewrite Nat.eqb_refl. ring.
  - rewrite !nth_tab by lia. destruct (Nat.eqb_spec i 0); [lia|]. destruct (Nat.eqb_spec i (n - 1)); [lia|]. destruct (Nat.ltb_spec i (n - 1)); [|lia].
    destruct (Nat.eqb_spec (2 * (n - 1) - i) 0); [lia|]. destruct (Nat.eqb_spec (2 * (n - 1) - i) (n - 1)); [lia|]. destruct (Nat.ltb_spec (2 * (n - 1) - i) (n - 1)); [lia|].
    replace (2 * n - 2 - (2 * (n - 1) - i))%nat with i by lia. field.
Qed.
Theorem C86_unfold_fold (g : list R) (m : nat) : length g = (2 * m)%nat -> (1 <= m)%nat ->
  unfold0 (fold0 (-1) g) = tab (2 * m) (fun i => if (Nat.eqb i 0 || Nat.eqb i m)%bool then nth i g 0 else (nth i g 0 - nth (2 * m - i) g 0) / 2) /\
  (unfold0 (fold0 (-1) g) = g <-> forall i, (1 <= i < m)%nat -> nth (2 * m - i) g 0 = - nth i g 0).
Proof.
  intros L Hm. assert (unfold0 (fold0 (-1) g) = tab (2 * m) (fun i => if (Nat.eqb i 0 || Nat.eqb i m)%bool then nth i g 0 else (nth i g 0 - nth (2 * m - i) g 0) / 2)) as E.
  { pose proof (C86_fold0 (-1) g m L Hm) as F. assert (length (fold0 (-1) g) = (m + 1)%nat) as Lf by (rewrite F; apply length_tab).
    rewrite C86_unfold0 by (rewrite Lf; lia). rewrite Lf. replace (2 * (m + 1) - 2)%nat with (2 * m)%nat by lia. replace (m + 1 - 1)%nat with m by lia. rewrite F.
    apply tab_ext. intros i Hi. destruct (Nat.eqb_spec i 0) as [->|]; [rewrite nth_tab by lia; reflexivity|]. destruct (Nat.eqb_spec i m) as [->|]; cbn [orb].
    - rewrite nth_tab by lia. destruct (Nat.eqb_spec m 0); [lia|]. rewrite Nat.eqb_refl. ring.
    - destruct (Nat.ltb_spec i m).
      + rewrite nth_tab by lia. destruct (Nat.eqb_spec i 0); [lia|]. destruct (Nat.eqb_spec i m); [lia|]. field.
      + rewrite nth_tab by lia. destruct (Nat.eqb_spec (2 * m - i) 0); [lia|]. destruct (Nat.eqb_spec (2 * m - i) m); [lia|]. replace (2 * m - (2 * m - i))%nat with i by lia. field. }
  split; [exact E|]. rewrite E. split.
  - intros G i Hi. apply (f_equal (fun l => nth i l 0)) in G. rewrite nth_tab in G by lia. destruct (Nat.eqb_spec i 0); [lia|]. destruct (Nat.eqb_spec i m); [lia|]. cbn [orb] in G. lra.
  - intro A. transitivity (tab (2 * m) (fun i => nth i g 0)); [|rewrite <- L; symmetry; apply list_tab]. apply tab_ext. intros i Hi.
    destruct (Nat.eqb_spec i 0); [reflexivity|]. destruct (Nat.eqb_spec i m); [reflexivity|]. cbn [orb].
    destruct (Nat.ltb_spec i m); [rewrite A by lia; field|]. pose proof (A (2 * m - i)%nat ltac:(lia)) as Q. replace (2 * m - (2 * m - i))%nat with i in Q by lia. rewrite Q. field.
Qed.
Lemma lsum_cons (x : R) l : lsum (x :: l) = x + lsum l.
Proof. unfold lsum. cbn [fold_left]. rewrite lsum_acc. cbn [nadd nzero NumR]. unfold lsum. cbn [nadd nzero NumR]. ring. Qed.
Lemma sum_pairs (l : list R) : Nat.even (length l) = true -> lsum (vadd (evens l) (odds l)) = lsum l.
Proof.
  induction l as [|a|a b l IH] using list_ind2; intro E; [reflexivity|discriminate|].
  change (evens (a :: b :: l)) with (a :: evens l). assert (odds (a :: b :: l) = b :: odds l) as -> by (destruct l; reflexivity).
  unfold vadd in *. cbn [zipw]. rewrite !lsum_cons, IH by exact E. cbn [nadd NumR]. ring.
Qed.
(** matA merges the two halves of each inner dual edge: n = 2 m entries become m + 1, entry i > 0 being the sum of the
    entries 2 i - 1 and 2 i, the two ends being kept; the total is kept *)
Theorem C86_matA (a : list R) (m : nat) : length a = (2 * m)%nat -> (1 <= m)%nat ->
  exists y, matA a = Ok y /\
    y = tab (m + 1) (fun i => if Nat.eqb i 0 then nth 0 a 0 else if Nat.eqb i m then nth (2 * m - 1) a 0 else nth (2 * i - 1) a 0 + nth (2 * i) a 0) /\
    lsum y = lsum a.
Proof.
  intros L Hm. destruct a as [|a0 a']; [cbn in L; lia|]. set (a := a0 :: a') in *. unfold matA. unfold a at 1.
  assert (length (inner a) = (2 * (m - 1))%nat) as Li by (rewrite length_inner; lia).
  assert (length (evens (inner a)) = (m - 1)%nat) as Le by (rewrite length_evens; lia). assert (length (odds (inner a)) = (m - 1)%nat) as Lo by (rewrite length_odds; lia).
  unfold badd. rewrite Le, Lo, Nat.eqb_refl. cbn [bind]. eexists. split; [reflexivity|].
  assert (length (vadd (evens (inner a)) (odds (inner a))) = (m - 1)%nat) as Lv by (unfold vadd; rewrite length_zipw; lia).
  split.
  - apply list_eq_nth with (d := 0); [rewrite !app_length, Lv, length_tab; cbn; lia|]. rewrite !app_length, Lv. cbn [length]. intros i Hi. rewrite nth_tab by lia.
    destruct i as [|i]; [reflexivity|]. rewrite nth_cons_S. change (Nat.eqb (S i) 0) with false. cbv iota. destruct (Nat.eqb_spec (S i) m).
    + rewrite app_nth2 by lia. rewrite Lv. replace (i - (m - 1))%nat with 0%nat by lia. cbn [nth nzero NumR]. rewrite nth_last, L. reflexivity.
    + rewrite app_nth1 by lia. unfold vadd. rewrite nth_zipw with (dx := 0) (dy := 0) by lia. rewrite nth_evens, nth_odds, !nth_inner by lia. cbn [nadd NumR]. f_equal; f_equal; lia.
  - assert (forall u v : list R, lsum (u ++ v) = lsum u + lsum v) as A by (intros u v; induction u as [|x u IH]; cbn [app]; [change (lsum (@nil R)) with 0; ring|rewrite !lsum_cons, IH; ring]).
    rewrite !A, sum_pairs by (rewrite Li; apply Nat.even_spec; now exists (m - 1)%nat).
    assert (a = [a0] ++ inner a ++ [last a 0]) as Ea.
    { apply list_eq_nth with (d := 0); [rewrite !app_length, Li; cbn [length]; lia|]. intros i Hi. destruct i as [|i]; [reflexivity|]. cbn [app nth]. destruct (Nat.ltb_spec i (2 * (m - 1))).
      - rewrite app_nth1 by lia. rewrite nth_inner by lia. unfold a. replace (i + 1)%nat with (S i) by lia. reflexivity.
      - rewrite app_nth2 by lia. rewrite Li. replace (i - 2 * (m - 1))%nat with 0%nat by lia. cbn [nth]. rewrite nth_last, L. unfold a. f_equal. lia. }
    transitivity (lsum ([a0] ++ inner a ++ [last a 0])); [now rewrite !A|now rewrite <- Ea].
Qed.
(** with an odd number of entries it raises, except for 1, 3 and 5 entries, where numpy's broadcasting silently gives
    [a0, a0], drops the middle entry, and adds the third entry twice *)
Theorem C86_matA_odd_refuted (a : list R) (m : nat) : length a = (2 * m + 1)%nat ->
  ((3 <= m)%nat -> matA a = Err ValueError) /\
  (forall u v w x y : R, matA [u] = Ok [u; u] /\ matA [u; v; w] = Ok [u; w] /\ matA [u; v; w; x; y] = Ok [u; v + w; x + w; y]).
Proof.
  intro L. split; [|intros; repeat split; reflexivity]. intro Hm. destruct a as [|a0 a']; [cbn in L; lia|]. set (a := a0 :: a') in *. unfold matA. unfold a at 1.
  assert (length (inner a) = (2 * m - 1)%nat) as Li by (rewrite length_inner; lia).
  assert (length (evens (inner a)) = m) as Le by (rewrite length_evens; lia). assert (length (odds (inner a)) = (m - 1)%nat) as Lo by (rewrite length_odds; lia).
  unfold badd. rewrite Le, Lo. destruct (Nat.eqb_spec m (m - 1)); [lia|].
  destruct (evens (inner a)) as [|e1 [|e2 e]]; cbn [length] in Le; try lia. destruct (odds (inner a)) as [|o1 [|o2 o]]; cbn [length] in Lo; try lia. reflexivity.
Qed.
(** matC zeroes the first and last entry (two or more entries) *)
Theorem C86_matC (f : list R) : (2 <= length f)%nat ->
  matC f = tab (length f) (fun i => if (Nat.eqb i 0 || Nat.eqb i (length f - 1))%bool then 0 else nth i f 0).
Proof.
  intro L. unfold matC. assert (length (inner f) = (length f - 2)%nat) as Li by apply length_inner. apply list_eq_nth with (d := 0); [rewrite !app_length, Li, length_tab; cbn; lia|].
  rewrite !app_length, Li. cbn [length]. intros i Hi. rewrite nth_tab by lia. destruct i as [|i]; [reflexivity|]. rewrite nth_cons_S. change (Nat.eqb (S i) 0) with false. cbn [orb]. destruct (Nat.eqb_spec (S i) (length f - 1)).
  - rewrite app_nth2 by lia. rewrite Li. replace (i - (length f - 2))%nat with 0%nat by lia. reflexivity.
  - rewrite app_nth1 by lia. rewrite nth_inner by lia. f_equal. lia.
Qed.
(** pick(f, n) fills the array with the entry n, counted from the end when n < 0, and raises outside -N .. N-1;
    reverse is an involution that turns entry i into entry N-1-i *)
Theorem C86_pick (f : list R) (n : nat) : let N := length f in
  ((n < N)%nat -> pick f (Z.of_nat n) = Ok (repeat (nth n f 0) N)) /\
  ((1 <= n <= N)%nat -> pick f (- Z.of_nat n) = Ok (repeat (nth (N - n) f 0) N)) /\
  ((N <= n)%nat -> pick f (Z.of_nat n) = Err IndexError) /\ ((N < n)%nat -> pick f (- Z.of_nat n) = Err IndexError).
Proof.
  intro N. assert (forall c, map (Rmult c) (repeat 1 N) = repeat c N) as M by (intro c; induction N as [|k IH]; [reflexivity|]; cbn [repeat map]; rewrite IH; f_equal; ring).
  unfold pick. fold N. split; [|split; [|split]]; intro H.
  - destruct (Z.leb_spec (- Z.of_nat N) (Z.of_nat n)); [|lia]. destruct (Z.ltb_spec (Z.of_nat n) (Z.of_nat N)); [|lia]. cbn [andb]. destruct (Z.ltb_spec (Z.of_nat n) 0); [lia|]. rewrite M, Nat2Z.id. reflexivity.
  - destruct (Z.leb_spec (- Z.of_nat N) (- Z.of_nat n)); [|lia]. destruct (Z.ltb_spec (- Z.of_nat n) (Z.of_nat N)); [|lia]. cbn [andb]. destruct (Z.ltb_spec (- Z.of_nat n) 0); [|lia]. rewrite M. repeat f_equal. lia.
  - destruct (Z.ltb_spec (Z.of_nat n) (Z.of_nat N)); [lia|]. now rewrite Bool.andb_false_r.
  - destruct (Z.leb_spec (- Z.of_nat N) (- Z.of_nat n)); [lia|]. reflexivity.
Qed.
Theorem C86_reverse (f : list R) : reverse (reverse f) = f /\ length (reverse f) = length f /\
  forall i, (i < length f)%nat -> nth i (reverse f) 0 = nth (length f - 1 - i) f 0.
Proof.
  unfold reverse. split; [apply rev_involutive|]. split; [apply rev_length|]. intros i Hi. rewrite rev_nth by auto. f_equal. lia.
Qed.
Example C86_instance : (-1) * (-1) = 1 /\ (2 <= length [1; 1; 1])%nat /\ length [0; 1; 2; 3] = (2 * 2)%nat /\
  unfold0 [1; 1; 1] = [1; / 2 * 1; - (1); - / 2 * 1] /\ (forall i, (1 <= i < 2)%nat -> nth (2 * 2 - i) [5; 1; 7; -1] 0 = - nth i [5; 1; 7; -1] 0).
Proof.
  split; [ring|]. split; [cbn; lia|]. split; [reflexivity|]. split; [reflexivity|]. intros i Hi. assert (i = 1%nat) as -> by lia. cbn. ring.
Qed.
