(** C41: flattening of two-dimensional arrays. *)
From Coq Require Import ZArith List Lia Arith Bool.
From Coq Require Import ZifyNat ZifyBool.
From Verif Require Import Model.Sym.
From Verif Require Import Model.Num Model.Np Model.Grids1 Model.Common Model.Grid2 Proofs.ListLemmas Proofs.Arr2.
Import ListNotations.
Local Open Scope nat_scope.
Ltac Zify.zify_post_hook ::= Z.div_mod_to_equations.

Lemma app_split {A} (a b c d : list A) : length a = length c -> a ++ b = c ++ d -> a = c /\ b = d.
Proof. revert c. induction a as [|x a IH]; intros [|y c] L E; try discriminate; auto. cbn in *. injection E as -> E. destruct (IH c) as [-> ->]; auto. Qed.
(** number of entries of a shape *)
Definition total (l : list (nat * nat)) : nat := list_sum (map (fun s => fst s * snd s) l).
Definition entries (s : shp) : nat := match s with SInt r c => r * c | STup l => total l end.
Definition proper_shape (s : shp) : Prop := match s with SInt _ _ => True | STup l => l <> [] end.
Definition proper_block {A} (X : blk A) : Prop :=
  match X with BArr a => wf2 a | BTup l => l <> [] /\ Forall wf2 l | BInt => False end.

Lemma split_reshape {A} (x y : list A) l : l <> [] -> length y = total l ->
  exists t, mapM (fun p => reshape1 (fst p) (snd p)) (combine (np_split (x ++ y) (length x) (removelast (cumul_from (length x) l))) l) = Ok t /\
   concat (map dat t) = y /\ map shape_of t = l /\ Forall wf2 t.
Proof.
  revert x y. induction l as [|[r c] l IH]; intros x y Hl L; [easy|]. cbn [cumul_from]. destruct l as [|[r' c'] l].
  - cbn [removelast np_split combine mapM cumul_from]. unfold reshape1. cbn [fst snd]. rewrite skipn_app, skipn_all, Nat.sub_diag. cbn [skipn app].
    unfold total in L. cbn in L. replace (length y) with (r * c) by lia. rewrite Nat.eqb_refl. cbn [bind]. eexists. split; [reflexivity|]. cbn. rewrite app_nil_r. repeat split; auto. constructor; auto. unfold wf2. cbn. lia.
  - set (m := r * c). set (y0 := firstn m y). set (y1 := skipn m y).
    assert (total ((r, c) :: (r', c') :: l) = m + total ((r', c') :: l)) as T by reflexivity. rewrite T in L.
    assert (length y0 = m) as L0 by (unfold y0; rewrite firstn_length; lia). assert (length y1 = total ((r', c') :: l)) as L1 by (unfold y1; rewrite skipn_length; lia).
    assert (y = y0 ++ y1) as E by (unfold y0, y1; now rewrite firstn_skipn).
    destruct (IH (x ++ y0) y1 ltac:(discriminate) L1) as (t & Et & Ec & Es & Ew). rewrite app_length, L0 in Et.
    change (removelast (length x + m :: cumul_from (length x + m) ((r', c') :: l))) with (length x + m :: removelast (cumul_from (length x + m) ((r', c') :: l))).
    cbn [np_split combine mapM fst snd]. unfold reshape1 at 1. cbn [fst snd].
    assert (skipn (length x) (firstn (length x + m) (x ++ y)) = y0) as ->.
    { rewrite firstn_app_2. rewrite skipn_app, skipn_all, Nat.sub_diag. reflexivity. }
    rewrite L0. change (r * c) with m. rewrite Nat.eqb_refl. cbn [bind]. rewrite E. rewrite app_assoc, Et. cbn [bind]. eexists. split; [reflexivity|]. cbn [map concat dat]. split; [now rewrite Ec|]. split; [now rewrite Es|]. constructor; auto.
Qed.
Theorem C41_reshape_unshape {A} (x : list A) s : proper_shape s -> length x = entries s ->
  exists X, reshape x s = Ok X /\ proper_block X /\ unshape X = Ok (x, s).
Proof.
  intros Hs L. destruct s as [r c|l]; cbn [reshape entries] in *.
  - unfold reshape1. cbn [fst snd]. rewrite L, Nat.eqb_refl. cbn [bind]. eexists. split; [reflexivity|]. split; [exact L|reflexivity].
  - destruct (split_reshape [] x l Hs L) as (t & Et & Ec & Esh & Ew). destruct l as [|s l]; [easy|]. cbn [app length] in Et. unfold cumul_index. rewrite Et. cbn [bind]. exists (BTup t). split; [reflexivity|].
    destruct t as [|a t]; [discriminate|]. split; [split; [discriminate|auto]|]. cbn [unshape]. now rewrite Ec, Esh.
Qed.
Lemma total_shape {A} (l : list (arr A)) : Forall wf2 l -> length (concat (map dat l)) = total (map shape_of l).
Proof. induction 1 as [|a l Ha _ IH]; [reflexivity|]. cbn [map concat]. rewrite app_length, IH, Ha. reflexivity. Qed.
Lemma blocks_unique {A} (t u : list (arr A)) : Forall wf2 t -> Forall wf2 u -> map shape_of t = map shape_of u -> concat (map dat t) = concat (map dat u) -> t = u.
Proof.
  intro Ht. revert u. induction Ht as [|a t Ha Ht IH]; intros u Hu Es Ed; destruct u as [|b u]; try discriminate; auto. inversion Hu as [|? ? Hb Hu']; subst.
  cbn in Es, Ed. injection Es as E1 E2 E3. assert (dat a = dat b /\ concat (map dat t) = concat (map dat u)) as [Da Dt].
  { apply (f_equal (firstn (length (dat a)))) in Ed as F1. assert (length (dat a) = length (dat b)) as LL by (rewrite Ha, Hb; congruence).
    rewrite firstn_app, firstn_all, Nat.sub_diag, LL, firstn_app, firstn_all, Nat.sub_diag in F1. cbn in F1. rewrite !app_nil_r in F1. split; auto. rewrite F1 in Ed. now apply app_inv_head in Ed. }
  f_equal; [destruct a, b; cbn in *; congruence|auto].
Qed.
Theorem C41_unshape_reshape {A} (X : blk A) : proper_block X -> exists x s, unshape X = Ok (x, s) /\ proper_shape s /\ length x = entries s /\ reshape x s = Ok X.
Proof.
  intro HX. destruct X as [a|l|]; [| |easy]; cbn [proper_block] in HX.
  - exists (dat a), (SInt (nr a) (nc a)). cbn [unshape entries reshape]. unfold reshape1. cbn [fst snd]. rewrite HX, Nat.eqb_refl. cbn [bind]. repeat split. now destruct a.
  - destruct HX as [Hl Hw]. exists (concat (map dat l)), (STup (map shape_of l)). destruct l as [|a l]; [easy|]. cbn [unshape]. split; [reflexivity|]. split; [discriminate|]. split; [now apply total_shape|].
    destruct (C41_reshape_unshape (concat (map dat (a :: l))) (STup (map shape_of (a :: l)))) as (X & EX & PX & UX); [discriminate|now apply total_shape|].
    rewrite EX. destruct X as [b|t|]; [discriminate| |easy]. destruct t as [|b t]; [discriminate|]. cbn [unshape] in UX. injection UX as E1 E2. f_equal. f_equal. destruct PX as [_ PX].
    apply blocks_unique; auto. cbn [map]. f_equal; auto. unfold shape_of. congruence.
Qed.
(** a flat array of another size is rejected *)
Lemma split_mismatch {A} (x : list A) start l t : l <> [] -> start <= length x ->
  mapM (fun p => reshape1 (fst p) (snd p)) (combine (np_split x start (removelast (cumul_from start l))) l) = Ok t -> length x = start + total l.
Proof.
  revert start t. induction l as [|[r c] l IH]; intros start t Hl Hst E; [easy|]. destruct l as [|[r' c'] l].
  - cbn [cumul_from removelast np_split combine mapM] in E. unfold reshape1 in E. cbn [fst snd] in E. rewrite skipn_length in E. destruct (Nat.eqb_spec (length x - start) (r * c)); [|discriminate]. unfold total. cbn. lia.
  - cbn [cumul_from] in E. set (m := start + r * c) in *. change (removelast (m :: m + r' * c' :: cumul_from (m + r' * c') l)) with (m :: removelast (cumul_from m ((r', c') :: l))) in E.
    cbn [np_split combine mapM fst snd] in E. unfold reshape1 at 1 in E. cbn [fst snd] in E. rewrite skipn_length, firstn_length in E.
    destruct (Nat.eqb_spec (min m (length x) - start) (r * c)); [|discriminate]. cbn [bind] in E.
    destruct (mapM _ _) as [u|] eqn:Eu in E; [|discriminate]. destruct (Nat.le_gt_cases m (length x)) as [Hm|Hm].
    + apply IH in Eu; [|discriminate|auto]. rewrite Eu. unfold total. cbn. lia.
    + (* then r*c entries are missing: start = m *) exfalso. lia.
Qed.
Theorem C41_wrong_size_raises {A} (x : list A) s : length x <> entries s -> exists e, reshape x s = Err e.
Proof.
  intro L. destruct s as [r c|l]; cbn [reshape entries] in *.
  - unfold reshape1. cbn [fst snd]. destruct (Nat.eqb_spec (length x) (r * c)); [easy|]. now exists ValueError.
  - destruct l as [|s l]; [now exists IndexError|]. destruct (mapM _ _) as [t|e] eqn:E; [|now exists e]. exfalso. apply L. unfold cumul_index in E. apply split_mismatch in E; [exact E|discriminate|lia].
Qed.

(** entry i of arange2(shape) is at the position unravel_idx returns, and nowhere else *)
Definition holds (A : list (arr Z)) (k r c : nat) (i : Z) : Prop :=
  exists a, nth_error A k = Some a /\ r < nr a /\ c < nc a /\ at2 a r c = i.
Lemma unravel_range i l k a : (i < Z.of_nat a \/ Z.of_nat (a + total l) <= i)%Z -> unravel_from i k a l = Err ValueError.
Proof.
  revert k a. induction l as [|[r c] l IH]; intros k a Hi; [reflexivity|]. cbn [unravel_from].
  assert (total ((r, c) :: l) = r * c + total l) as T by reflexivity. rewrite T in Hi.
  destruct ((Z.of_nat a <=? i) && (i <? Z.of_nat (a + r * c)))%Z%bool eqn:B; [lia|]. apply IH. lia.
Qed.
Lemma unravel_in i l k a : (Z.of_nat a <= i < Z.of_nat (a + total l))%Z -> exists k' r c s, unravel_from i k a l = Ok (k + k', (r, c)) /\ nth_error l k' = Some s /\ r < fst s /\ c < snd s /\
  i = Z.of_nat (a + total (firstn k' l) + r * snd s + c).
Proof.
  revert k a. induction l as [|[r c] l IH]; intros k a Hi; [unfold total in Hi; cbn in Hi; lia|]. cbn [unravel_from].
  assert (total ((r, c) :: l) = r * c + total l) as T by reflexivity. rewrite T in Hi.
  destruct ((Z.of_nat a <=? i) && (i <? Z.of_nat (a + r * c)))%Z%bool eqn:B.
  - unfold unravel_index. cbn [fst snd]. assert (((0 <=? i - Z.of_nat a) && (i - Z.of_nat a <? Z.of_nat (r * c)))%Z%bool = true) as -> by lia. cbn [bind].
    set (m := Z.to_nat (i - Z.of_nat a)). assert (m < r * c) as Hm by lia. destruct (idx_div _ _ _ Hm). exists 0, (m / c), (m mod c), (r, c). split; [now rewrite Nat.add_0_r|]. split; [reflexivity|]. cbn [fst snd]. split; auto. split; auto.
    cbn [firstn]. change (total []) with 0. assert (m / c * c + m mod c = m) by (apply idx_eq; lia). lia.
  - destruct (IH (S k) (a + r * c)) as (k' & r' & c' & s & E & En & Hr & Hc & Ei); [lia|]. exists (S k'), r', c', s. split; [rewrite E; do 2 f_equal; lia|]. split; [exact En|]. split; auto. split; auto.
    rewrite Ei. cbn [firstn]. change (total ((r, c) :: firstn k' l)) with (r * c + total (firstn k' l)). lia.
Qed.
Lemma block_entry (t : list (arr Z)) k a r c b n : Forall wf2 t -> concat (map dat t) = map Z.of_nat (seq b n) -> nth_error t k = Some a -> r < nr a -> c < nc a ->
  at2 a r c = Z.of_nat (b + total (firstn k (map shape_of t)) + r * nc a + c).
Proof.
  intro Ht. revert k b n. induction Ht as [|x t Hx Ht IH]; intros k b n E En Hr Hc; [destruct k; discriminate|]. cbn [map concat] in E.
  assert (dat x = map Z.of_nat (seq b (nr x * nc x)) /\ concat (map dat t) = map Z.of_nat (seq (b + nr x * nc x) (n - nr x * nc x))) as [E1 E2].
  { assert (nr x * nc x <= n) as Hn. { apply (f_equal (@length Z)) in E. rewrite app_length, map_length, seq_length, Hx in E. lia. }
    replace n with (nr x * nc x + (n - nr x * nc x)) in E by lia. rewrite seq_app, map_app in E.
    assert (length (dat x) = length (map Z.of_nat (seq b (nr x * nc x)))) as LL by (rewrite map_length, seq_length; exact Hx).
    now apply app_split. }
  destruct k as [|k].
  - cbn in En. injection En as ->. cbn [firstn]. change (total []) with 0. unfold at2. rewrite E1. pose proof (idx_lt _ _ _ _ Hr Hc).
    rewrite (nth_indep _ _ (Z.of_nat 0)) by (rewrite map_length, seq_length; lia). rewrite map_nth, seq_nth by lia. lia.
  - cbn [nth_error] in En. rewrite (IH k _ _ E2 En Hr Hc). cbn [map firstn]. change (total (shape_of x :: firstn k (map shape_of t))) with (nr x * nc x + total (firstn k (map shape_of t))). lia.
Qed.
Lemma last_cumul l b d : l <> [] -> last (cumul_from b l) d = b + total l.
Proof.
  revert b. induction l as [|[r c] l IH]; intros b Hl; [easy|]. change (total ((r, c) :: l)) with (r * c + total l). destruct l as [|[r' c'] l]; [unfold total; cbn; lia|].
  specialize (IH (b + r * c) ltac:(discriminate)). cbn [cumul_from] in *. cbn [last] in *. lia.
Qed.
Theorem C41_unravel_idx l i : l <> [] -> exists A, arange2 (STup l) = Ok (BTup A) /\ map shape_of A = l /\
  ((0 <= i < Z.of_nat (total l))%Z -> exists k r c, unravel_idx i l = Ok (k, (r, c)) /\ holds A k r c i /\ (forall k' r' c', holds A k' r' c' i -> (k', r', c') = (k, r, c))) /\
  (~ (0 <= i < Z.of_nat (total l))%Z -> unravel_idx i l = Err ValueError).
Proof.
  intro Hl. destruct (C41_reshape_unshape (map Z.of_nat (seq 0 (total l))) (STup l) Hl) as (X & EX & PX & UX); [cbn; now rewrite map_length, seq_length|].
  destruct X as [|A|]; [discriminate| |easy]. destruct PX as [_ Hw]. destruct A as [|a0 A0]; [discriminate|]. remember (a0 :: A0) as A eqn:EA.
  assert (concat (map dat A) = map Z.of_nat (seq 0 (total l)) /\ map shape_of A = l) as [Ed Es] by (rewrite EA in *; cbn [unshape] in UX; injection UX; auto).
  exists A. split; [|split; [exact Es|split]].
  - unfold arange2, cumul_index. rewrite (last_cumul l 0 0 Hl). cbn [Nat.add]. destruct l; [easy|]. exact EX.
  - intro Hi. destruct (unravel_in i l 0 0) as (k & r & c & s & E & En & Hr & Hc & Ei); [lia|]. cbn [Nat.add] in E, Ei. exists k, r, c. split; [exact E|].
    assert (forall k' r' c', holds A k' r' c' i -> exists s', nth_error l k' = Some s' /\ r' < fst s' /\ c' < snd s' /\ i = Z.of_nat (total (firstn k' l) + r' * snd s' + c')) as Hh.
    { intros k' r' c' (a & Ea & Hr' & Hc' & Ev). rewrite (block_entry A k' a r' c' 0 (total l) Hw Ed Ea Hr' Hc') in Ev. exists (shape_of a). rewrite <- Es. split; [now apply map_nth_error|]. cbn [fst snd shape_of]. split; auto. }
    split.
    + rewrite <- Es in En. rewrite nth_error_map in En. destruct (nth_error A k) as [a|] eqn:Ea; [|discriminate]. injection En as <-. cbn [fst snd shape_of] in *. exists a. split; auto. split; auto. split; auto.
      rewrite (block_entry A k a r c 0 (total l) Hw Ed Ea Hr Hc). rewrite Es. cbn [Nat.add]. now rewrite Ei.
    + intros k' r' c' Hk'. destruct (Hh _ _ _ Hk') as (s' & En' & Hr' & Hc' & Ei').
      assert (forall u v su sv ru cu rv cv, u < v -> nth_error l u = Some su -> nth_error l v = Some sv -> ru < fst su -> cu < snd su -> total (firstn u l) + ru * snd su + cu <> total (firstn v l) + rv * snd sv + cv) as Lt.
      { intros u v su sv ru cu rv cv Huv Eu _ Hru Hcu X. assert (total (firstn u l) + fst su * snd su <= total (firstn v l)) as M; [|pose proof (idx_lt _ _ _ _ Hru Hcu); lia].
        clear -Huv Eu. revert v l Huv Eu. induction u as [|u IH]; intros [|v] l Huv Eu; try lia; destruct l as [|x l]; try discriminate; cbn in Eu.
        - injection Eu as ->. cbn [firstn]. change (total (su :: firstn v l)) with (fst su * snd su + total (firstn v l)). change (total []) with 0. lia.
        - cbn [firstn]. change (total (x :: firstn u l)) with (fst x * snd x + total (firstn u l)). change (total (x :: firstn v l)) with (fst x * snd x + total (firstn v l)). specialize (IH v l ltac:(lia) Eu). lia. }
      destruct (Nat.lt_trichotomy k k') as [H|[<-|H]].
      * exfalso. apply (Lt k k' s s' r c r' c'); auto. lia.
      * rewrite En in En'. injection En' as <-. assert (r * snd s + c = r' * snd s + c') as Q by lia.
        assert (r = r') as <- by (rewrite <- (div_add (snd s) r c), <- (div_add (snd s) r' c') by auto; now rewrite Q). repeat f_equal. lia.
      * exfalso. apply (Lt k' k s' s r' c' r c); auto. lia.
  - intro Hi. apply unravel_range. lia.
Qed.
Theorem C41_arange2_single r c : exists a, arange2 (SInt r c) = Ok (BArr a) /\ nr a = r /\ nc a = c /\
  (forall i j, i < r -> j < c -> at2 a i j = Z.of_nat (i * c + j) /\ unravel_index (Z.of_nat (i * c + j)) (r, c) = Ok (i, j)).
Proof.
  unfold arange2. cbn [cumul_index cumul_from last Nat.add reshape]. unfold reshape1. cbn [fst snd]. rewrite map_length, seq_length, Nat.eqb_refl. cbn [bind]. eexists. split; [reflexivity|]. cbn [nr nc]. do 2 (split; auto). intros i j Hi Hj. pose proof (idx_lt _ _ _ _ Hi Hj).
  split.
  - unfold at2. cbn [dat nc]. rewrite (nth_indep _ _ (Z.of_nat 0)) by (rewrite map_length, seq_length; lia). now rewrite map_nth, seq_nth by lia.
  - unfold unravel_index. cbn [fst snd]. assert (((0 <=? Z.of_nat (i * c + j)) && (Z.of_nat (i * c + j) <? Z.of_nat (r * c)))%Z%bool = true) as -> by lia. rewrite Nat2Z.id. now rewrite div_add, mod_add by auto.
Qed.
Example C41_instance : proper_shape (STup [(11, 12); (13, 14)]) /\ exists k i j, unravel_idx 200 [(11, 12); (13, 14)] = Ok (k, (i, j)).
Proof. split; [discriminate|]. exists 1, 4, 12. reflexivity. Qed.
