(** C64-C66: the data store and the memoization cache. *)
From Coq Require Import ZArith Reals List String Arith Lia Lra Bool.
From Verif Require Import Model.Num Model.Data Spec.Json Proofs.DataP.
Import ListNotations.
Local Open Scope list_scope.

Lemma path_eqb_spec p q : reflect (p = q) (path_eqb p q).
Proof. unfold path_eqb. destruct (list_eq_dec string_dec p q); constructor; auto. Qed.
Lemma path_eqb_refl p : path_eqb p p = true. Proof. destruct (path_eqb_spec p p); congruence. Qed.
Lemma find_remove_same p s : find p (remove p s) = None.
Proof. induction s as [|[q n] s IH]; [reflexivity|]. simpl. destruct (path_eqb_spec p q); simpl; [exact IH|]. destruct (path_eqb_spec p q); congruence. Qed.
Lemma find_remove_other p q s : q <> p -> find q (remove p s) = find q s.
Proof.
  intro H. induction s as [|[r n] s IH]; [reflexivity|]. simpl. destruct (path_eqb_spec p r); simpl.
  - subst. destruct (path_eqb_spec q r); [congruence|]. exact IH.
  - destruct (path_eqb_spec q r); [reflexivity|]. exact IH.
Qed.
Lemma find_put_same p n s : find p (put p n s) = Some n.
Proof. simpl. now rewrite path_eqb_refl. Qed.
Lemma find_put_other p q n s : q <> p -> find q (put p n s) = find q s.
Proof. intro H. simpl. destruct (path_eqb_spec q p); [congruence|]. now apply find_remove_other. Qed.

(** sorting *)
Lemma leb_refl s : String.leb s s = true. Proof. destruct (String.leb_total s s); auto. Qed.
Lemma assoc_insert {A} k (p : string * A) l : assoc k (insert p l) = if String.eqb k (fst p) then Some (snd p) else assoc k l.
Proof.
  destruct p as [kp a]. induction l as [|[kq b] l IH]; [reflexivity|]. cbn [insert fst snd] in *. destruct (String.leb kp kq) eqn:E; [reflexivity|].
  cbn [assoc]. destruct (String.eqb_spec k kq).
  - subst. destruct (String.eqb_spec kq kp); [|reflexivity]. subst. rewrite leb_refl in E. discriminate.
  - exact IH.
Qed.
Lemma assoc_ksort {A} k (l : list (string * A)) : assoc k (ksort l) = assoc k l.
Proof. induction l as [|[kp a] l IH]; [reflexivity|]. simpl ksort. rewrite assoc_insert, IH. reflexivity. Qed.
Lemma assoc_map {A B} (f : A -> B) k l : assoc k (map (fun p => (fst p, f (snd p))) l) = option_map f (assoc k l).
Proof. induction l as [|[kp a] l IH]; [reflexivity|]. simpl. destruct (String.eqb k kp); auto. Qed.
Lemma assoc_In {A} k (a : A) l : assoc k l = Some a -> In (k, a) l.
Proof. induction l as [|[kp b] l IH]; [discriminate|]. simpl. destruct (String.eqb_spec k kp); [intro E; injection E as <-; subst; auto|auto]. Qed.

Lemma represents_prep v : serialisable v = true -> represents (img (prep v)) v.
Proof.
  induction v using pyval_ind'; cbn [prep img serialisable]; intro Hs; try discriminate; try constructor.
  - rewrite map_map. rewrite forallb_forall in Hs. rewrite Forall_forall in H. clear - H Hs. induction l as [|a l IH]; [constructor|]. constructor; [apply H; simpl; auto; apply Hs; simpl; auto|]. apply IH; intros; [apply H|apply Hs]; simpl; auto.
  - rewrite map_map. rewrite forallb_forall in Hs. rewrite Forall_forall in H. clear - H Hs. induction l as [|a l IH]; [constructor|]. constructor; [apply H; simpl; auto; apply Hs; simpl; auto|]. apply IH; intros; [apply H|apply Hs]; simpl; auto.
  - intro k. rewrite (assoc_map img), assoc_ksort, (assoc_map prep). destruct (assoc k l) as [v|] eqn:E; cbn; constructor.
    apply assoc_In in E. rewrite Forall_forall in H. rewrite forallb_forall in Hs. apply (H _ E), (Hs _ E).
Qed.
Lemma seqo_snd a b : snd (seqo a b) = andb (snd a) (snd b).
Proof. unfold seqo. destruct a as [x []]; reflexivity. Qed.
Lemma items_snd em l : snd (emit_items em l) = forallb (fun v => snd (em v)) l.
Proof. induction l as [|v [|w l] IH]; [reflexivity|simpl; now rewrite Bool.andb_true_r|]. cbn [emit_items]. rewrite !seqo_snd, Bool.andb_true_l. cbn [forallb]. f_equal. exact IH. Qed.
Lemma pairs_snd l : snd (emit_pairs emit l) = forallb (fun p => snd (emit (snd p))) l.
Proof.
  induction l as [|[k v] [|w l] IH]; [reflexivity|cbn [emit_pairs]; rewrite !seqo_snd; simpl; now rewrite Bool.andb_true_r|].
  cbn [emit_pairs]. rewrite !seqo_snd. cbn [snd emit1 andb]. cbn [forallb]. f_equal. exact IH.
Qed.
Lemma forallb_insert {A} (f : string * A -> bool) p l : forallb f (insert p l) = andb (f p) (forallb f l).
Proof. induction l as [|q l IH]; [reflexivity|]. cbn [insert]. destruct (String.leb _ _); [reflexivity|]. cbn [forallb]. rewrite IH. destruct (f p), (f q); reflexivity. Qed.
Lemma forallb_ksort {A} (f : string * A -> bool) l : forallb f (ksort l) = forallb f l.
Proof. induction l as [|p l IH]; [reflexivity|]. simpl ksort. rewrite forallb_insert, IH. reflexivity. Qed.
Lemma forallb_map_ext {A B} (f : B -> bool) (g : A -> B) (h : A -> bool) l : Forall (fun a => f (g a) = h a) l -> forallb f (map g l) = forallb h l.
Proof. induction 1; [reflexivity|]. simpl. congruence. Qed.
Lemma emit_serialisable v : snd (emit (prep v)) = serialisable v.
Proof.
  induction v using pyval_ind'; cbn [prep emit serialisable]; try reflexivity.
  - rewrite !seqo_snd, items_snd. cbn [snd emit1 andb]. rewrite Bool.andb_true_r. now apply forallb_map_ext.
  - rewrite !seqo_snd, items_snd. cbn [snd emit1 andb]. rewrite Bool.andb_true_r. now apply forallb_map_ext.
  - rewrite !seqo_snd, items_snd. cbn [snd emit1 andb]. rewrite Bool.andb_true_r. induction l; [reflexivity|]. exact IHl.
  - rewrite !seqo_snd, pairs_snd, forallb_ksort. cbn [snd emit1 andb]. rewrite Bool.andb_true_r. now apply forallb_map_ext.
Qed.
Lemma load_dump v : serialisable v = true -> exists j, load (fst (dump v)) = Ok j /\ represents j v.
Proof. intro Hs. exists (img (prep v)). split; [apply load_emit; now rewrite emit_serialisable|now apply represents_prep]. Qed.

(** ** The store *)
Definition proper_prefix (q p : path) : Prop := exists a r, p = q ++ a :: r.
Lemma makedirs_find todo : forall pre s s' r, makedirs pre todo s = (s', r) ->
  forall q, ~ (exists t u, todo = t ++ u /\ t <> [] /\ q = pre ++ t) -> find q s' = find q s.
Proof.
  induction todo as [|c todo IH]; intros pre s s' r E q Hq; cbn [makedirs] in E; [congruence|].
  assert (q <> pre ++ [c]) as Hc by (intros ->; apply Hq; exists [c], todo; repeat split; discriminate).
  assert (~ (exists t u, todo = t ++ u /\ t <> [] /\ q = (pre ++ [c]) ++ t)) as Hq'.
  { intros (t & u & -> & Ht & ->). apply Hq. exists (c :: t), u. rewrite <- app_assoc. repeat split; discriminate. }
  destruct (find (pre ++ [c]) s) as [[ts|]|].
  - congruence.
  - now apply (IH _ _ _ _ E).
  - rewrite (IH _ _ _ _ E q Hq'). now apply find_put_other.
Qed.
Lemma makedirs_dir todo : forall pre s s', makedirs pre todo s = (s', Ok tt) -> todo <> [] -> find (pre ++ todo) s' = Some Dir.
Proof.
  induction todo as [|c todo IH]; intros pre s s' E Hn; [congruence|]. cbn [makedirs] in E.
  destruct todo as [|d todo].
  - destruct (find (pre ++ [c]) s) as [[ts|]|] eqn:F; cbn [makedirs] in E; [congruence| |]; injection E as <-; [exact F|apply find_put_same].
  - replace (pre ++ c :: d :: todo) with ((pre ++ [c]) ++ d :: todo) by now rewrite <- app_assoc.
    destruct (find (pre ++ [c]) s) as [[ts|]|]; [congruence| |]; now apply (IH _ _ _ E).
Qed.
Lemma makedirs_keeps todo : forall pre s s' r, makedirs pre todo s = (s', r) -> forall q n, find q s = Some n -> find q s' = Some n.
Proof.
  induction todo as [|c todo IH]; intros pre s s' r E q n Hq; cbn [makedirs] in E; [congruence|].
  destruct (find (pre ++ [c]) s) as [[ts|]|] eqn:F; [congruence|now apply (IH _ _ _ _ E)|].
  apply (IH _ _ _ _ E). rewrite find_put_other; [exact Hq|]. intros ->. congruence.
Qed.
(** what a store does to the file system *)
Lemma setitem_effect name v s s' r : setitem name v s = (s', r) ->
  (forall q, q <> name -> ~ proper_prefix q name -> find q s' = find q s) /\
  (forall q n, q <> name -> find q s = Some n -> find q s' = Some n) /\
  (r = Ok tt /\ snd (dump v) = true /\ find name s' = Some (File (fst (dump v))) \/
   r = Err TypeError /\ snd (dump v) = false /\ find name s' = Some (File (fst (dump v))) \/
   r = Err OSError /\ find name s' = find name s).
Proof.
  destruct name as [|c0 name0] eqn:En; [intro E; simpl in E; injection E as <- <-; repeat split; auto|]. rewrite <- En.
  intro E. assert (dirname name <> name) as Hdn.
  { intro Ed. apply (f_equal (@List.length string)) in Ed. unfold dirname in Ed. rewrite En in Ed. rewrite (app_removelast_last EmptyString (l := c0 :: name0)) in Ed at 2 by discriminate.
    rewrite app_length in Ed. simpl List.length in Ed at 3. lia. }
  assert (forall q, proper_prefix q name \/ ~ (exists t u, dirname name = t ++ u /\ t <> [] /\ q = [] ++ t)) as Hpp.
  { intro q. destruct (list_eq_dec string_dec (firstn (List.length q) name) q) as [Eq|Nq].
    - destruct (le_lt_dec (List.length name) (List.length q)) as [L|L].
      + right. intros (t & u & Ed & Ht & ->). apply (f_equal (@List.length string)) in Ed. unfold dirname in Ed. rewrite app_length in Ed.
        assert (List.length (removelast name) < List.length name)%nat; [|simpl in L; lia]. rewrite En. rewrite (app_removelast_last EmptyString (l := c0 :: name0)) at 2 by discriminate. rewrite app_length. simpl List.length at 3. lia.
      + left. destruct (skipn (List.length q) name) as [|a t] eqn:Es.
        * apply (f_equal (@List.length string)) in Es. rewrite skipn_length in Es. simpl in Es. lia.
        * exists a, t. rewrite <- Es. rewrite <- Eq at 1. symmetry. apply firstn_skipn.
    - right. intros (t & u & Ed & Ht & ->). apply Nq. simpl. unfold dirname in Ed. rewrite (app_removelast_last EmptyString (l := name)) by (rewrite En; discriminate). rewrite Ed.
      rewrite <- app_assoc. rewrite firstn_app, firstn_all, Nat.sub_diag. simpl. apply app_nil_r. }
  unfold setitem in E. rewrite En in E. rewrite <- En in E.
  set (s1 := if exists_ (dirname name) s then (s, Ok tt) else makedirs [] (dirname name) s) in E.
  assert (forall q, q <> name -> ~ proper_prefix q name -> find q (fst s1) = find q s) as K1.
  { intros q Hq Hp. unfold s1. destruct (exists_ _ _); [reflexivity|]. destruct (makedirs [] (dirname name) s) as [sa ra] eqn:Em. cbn [fst].
    apply (makedirs_find _ _ _ _ _ Em). destruct (Hpp q); [contradiction|assumption]. }
  assert (forall q n, find q s = Some n -> find q (fst s1) = Some n) as K2.
  { intros q n Hq. unfold s1. destruct (exists_ _ _); [exact Hq|]. destruct (makedirs [] (dirname name) s) as [sa ra] eqn:Em. cbn [fst]. now apply (makedirs_keeps _ _ _ _ _ Em). }
  assert (find name (fst s1) = find name s) as K3.
  { unfold s1. destruct (exists_ _ _); [reflexivity|]. destruct (makedirs [] (dirname name) s) as [sa ra] eqn:Em. cbn [fst].
    apply (makedirs_find _ _ _ _ _ Em). destruct (Hpp name) as [(a & t & Hn)|]; [|assumption]. exfalso. apply (f_equal (@List.length string)) in Hn. rewrite app_length in Hn. simpl in Hn. lia. }
  assert (forall e, snd s1 = Err e -> e = OSError) as K4.
  { unfold s1. destruct (exists_ _ _); [discriminate|]. clear. generalize (@nil string). revert s. induction (dirname name) as [|c t IH]; intros s p e; cbn [makedirs]; [discriminate|].
    destruct (find _ _) as [[|]|]; [cbn; congruence|apply IH|apply IH]. }
  destruct s1 as [s1 r1]. cbn [fst snd] in *. destruct r1 as [u|e].
  2:{ injection E as <- <-. repeat split; auto. right. right. split; [f_equal; now apply K4|exact K3]. }
  destruct (isdir (dirname name) s1).
  2:{ injection E as <- <-. repeat split; auto. }
  assert ((s', r) = (let '(ts, ok) := dump v in (put name (File ts) s1, if ok : bool then Ok tt else Err TypeError)) \/ (s', r) = (s1, Err OSError)) as [E'|E'].
  { destruct (find name s1) as [[|]|]; auto. }
  - destruct (dump v) as [ts ok]. injection E' as -> ->. repeat split.
    + intros q Hq Hp. rewrite find_put_other by auto. auto.
    + intros q n Hq Hf. rewrite find_put_other by auto. auto.
    + cbn [fst snd]. destruct ok; [left|right; left]; repeat split; apply find_put_same.
  - injection E' as -> ->. repeat split; auto.
Qed.
Lemma getitem_file name ts s : name <> [] -> find name s = Some (File ts) -> getitem name s = load ts.
Proof. intros Hn E. unfold getitem. destruct name; [congruence|]. now rewrite E. Qed.
Lemma getitem_find name s s' : find name s' = find name s -> getitem name s' = getitem name s.
Proof. intro E. unfold getitem. destruct name; [reflexivity|]. now rewrite E. Qed.

(** ** C66 *)
(** after a successful store the name holds the JSON image of the value; a failed store (a value json
    cannot encode) destroys what was there: reading it raises ValueError *)
Theorem C66_get_after_set name v s s' r : name <> [] -> setitem name v s = (s', r) ->
  match r with
  | Ok _ => serialisable v = true /\ exists j, getitem name s' = Ok j /\ represents j v
  | Err TypeError => serialisable v = false /\ getitem name s' = Err ValueError
  | Err e => e = OSError /\ getitem name s' = getitem name s
  end.
Proof.
  intros Hn E. destruct (setitem_effect _ _ _ _ _ E) as (_ & _ & [(-> & Hd & Hf)|[(-> & Hd & Hf)|(-> & Hf)]]); try (unfold dump in Hd; rewrite emit_serialisable in Hd).
  - split; [exact Hd|]. destruct (load_dump v Hd) as (j & Ej & Hj). exists j. split; [|exact Hj]. now rewrite (getitem_file _ _ _ Hn Hf).
  - split; [exact Hd|]. rewrite (getitem_file _ _ _ Hn Hf). apply failed_not_loadable. now rewrite emit_serialisable.
  - split; [reflexivity|]. now apply getitem_find.
Qed.
(** a store does not affect other names: everything that existed is unchanged, and the only names that
    can appear are directories above the stored one *)
Theorem C66_set_other_names name v s s' r q : setitem name v s = (s', r) -> q <> name ->
  ((exists n, find q s = Some n) -> getitem q s' = getitem q s) /\
  (~ proper_prefix q name -> find q s' = find q s /\ getitem q s' = getitem q s).
Proof.
  intros E Hq. destruct (setitem_effect _ _ _ _ _ E) as (H1 & H2 & _). split.
  - intros (n & Hn). apply getitem_find. rewrite Hn. now apply H2.
  - intro Hp. split; [now apply H1|]. now apply getitem_find, H1.
Qed.
(** del removes exactly that name *)
Theorem C66_delete name s s' r : delitem name s = (s', r) ->
  match r with
  | Ok _ => getitem name s' = Err FileNotFoundError /\ forall q, q <> name -> getitem q s' = getitem q s
  | Err _ => s' = s
  end.
Proof.
  unfold delitem. destruct name as [|c name]; [intro E; injection E as <- <-; reflexivity|].
  assert (forall s', s' = remove (c :: name) s -> getitem (c :: name) s' = Err FileNotFoundError /\ forall q, q <> c :: name -> getitem q s' = getitem q s) as K.
  { intros ? ->. split; [unfold getitem; now rewrite find_remove_same|]. intros q Hq. apply getitem_find. now apply find_remove_other. }
  destruct (find _ s) as [[ts|]|].
  - intro E. injection E as <- <-. now apply K.
  - destruct (has_children _ _); intro E; injection E as <- <-; [reflexivity|now apply K].
  - intro E. injection E as <- <-. reflexivity.
Qed.
(** deletion of a name: refused exactly when the name does not exist, or is a directory that still has an entry in it *)
Theorem C66_delete_outcome name s : name <> [] ->
  match find name s with
  | None => delitem name s = (s, Err FileNotFoundError)
  | Some (File _) => snd (delitem name s) = Ok tt
  | Some Dir => ((exists c n, find (name ++ [c]) s = Some n) -> delitem name s = (s, Err OSError)) /\
                ((forall c, find (name ++ [c]) s = None) -> snd (delitem name s) = Ok tt)
  end.
Proof.
  intro Hn. unfold delitem. destruct name as [|c0 name0] eqn:En; [congruence|]. rewrite <- En in *. destruct (find name s) as [[ts|]|] eqn:F; [reflexivity| |reflexivity].
  assert (has_children name s = true <-> exists c n, find (name ++ [c]) s = Some n) as K.
  { unfold has_children. rewrite existsb_exists. split.
    - intros ((q & n) & Hi & Hb). cbn [fst] in Hb. apply andb_prop in Hb as (Hb & Hc). apply andb_prop in Hb as (Ha & Hb).
      assert (q <> []) as Hq by (intros ->; now rewrite path_eqb_refl in Hc). destruct (path_eqb_spec (dirname q) name) as [Ed|]; [|discriminate]. 
      assert (q = name ++ [last q ""%string]) as Eq by (rewrite <- Ed; unfold dirname; now apply app_removelast_last). exists (last q ""%string). rewrite <- Eq. clear - Hi.
      induction s as [|[r m] s IH]; [destruct Hi|]. cbn [find]. destruct (path_eqb_spec q r) as [_|Nr]; [eauto|]. destruct Hi as [Hi|Hi]; [injection Hi as -> ->; now contradiction Nr|auto].
    - intros (c & n & Hf). exists (name ++ [c], n). split.
      + clear - Hf. induction s as [|[r m] s IH]; [discriminate|]. cbn [find] in Hf. destruct (path_eqb_spec (name ++ [c]) r) as [<-|]; [left; injection Hf as ->; reflexivity|right; auto].
      + cbn [fst]. unfold dirname. rewrite removelast_last, path_eqb_refl. destruct (path_eqb_spec (name ++ [c]) name) as [E|_]; [apply (f_equal (@List.length string)) in E; rewrite app_length in E; cbn in E; lia|].
        destruct (path_eqb_spec (name ++ [c]) []) as [E|_]; [now apply app_eq_nil in E as (_ & E)|reflexivity]. }
  split; intro H.
  - now rewrite (Logic.proj2 K H).
  - destruct (has_children name s); [|reflexivity]. destruct (Logic.proj1 K eq_refl) as (c & n & Hf). rewrite H in Hf. discriminate.
Qed.
(** the store is a tree: whatever the sequence of stores and deletions, successful or not, whatever exists lies in existing directories *)
Definition tree (s : fs) : Prop := find [] s = None /\ forall p c n, find (p ++ [c]) s = Some n -> p = [] \/ find p s = Some Dir.
Inductive pop := PSet (p : path) (v : pyval) | PDel (p : path).
Definition run_pop (s : fs) (o : pop) : fs := match o with PSet p v => fst (setitem p v s) | PDel p => fst (delitem p s) end.
Lemma app_one_neq (p : path) c : p ++ [c] <> p.
Proof. intro E. apply (f_equal (@List.length string)) in E. rewrite app_length in E. cbn in E. lia. Qed.
Lemma tree_put p c nd s : tree s -> p = [] \/ find p s = Some Dir -> (find (p ++ [c]) s <> Some Dir \/ nd = Dir) -> tree (put (p ++ [c]) nd s).
Proof.
  intros (Hr & Ht) Hp Hd. split; [rewrite find_put_other; [exact Hr|now destruct p]|]. intros q d n. destruct (list_eq_dec string_dec (q ++ [d]) (p ++ [c])) as [E|N].
  - apply app_inj_tail in E as (-> & ->). intros _. destruct Hp as [Hp|Hp]; [auto|right]. rewrite find_put_other; [exact Hp|]. intro E. exact (app_one_neq p c (eq_sym E)).
  - rewrite find_put_other by exact N. intro F. destruct (Ht _ _ _ F) as [->|Fq]; [auto|right]. destruct (list_eq_dec string_dec q (p ++ [c])) as [->|M].
    + rewrite find_put_same. destruct Hd as [Hd|Hd]; [contradiction|congruence].
    + now rewrite find_put_other.
Qed.
Lemma tree_makedirs todo : forall pre s, tree s -> pre = [] \/ find pre s = Some Dir -> tree (fst (makedirs pre todo s)).
Proof.
  induction todo as [|c todo IH]; intros pre s Ht Hp; cbn [makedirs]; [exact Ht|]. destruct (find (pre ++ [c]) s) as [[ts|]|] eqn:F; [exact Ht|apply IH; auto|].
  apply IH; [|right; apply find_put_same]. apply tree_put; auto.
Qed.
Lemma isdir_spec p s : isdir p s = true -> p = [] \/ find p s = Some Dir.
Proof. unfold isdir. destruct p; [auto|]. destruct (find _ s) as [[|]|]; try discriminate. auto. Qed.
Lemma tree_step s o : tree s -> tree (run_pop s o).
Proof.
  intro Ht. destruct o as [p v|p]; cbn [run_pop].
  - unfold setitem. destruct p as [|c0 p0] eqn:En; [exact Ht|]. rewrite <- En. assert (p = dirname p ++ [last p ""%string]) as Ep by (apply app_removelast_last; rewrite En; discriminate).
    assert (tree (fst (if exists_ (dirname p) s then (s, Ok tt) else makedirs [] (dirname p) s))) as T1 by (destruct (exists_ _ _); [exact Ht|apply tree_makedirs; auto]).
    destruct (if exists_ (dirname p) s then (s, Ok tt) else makedirs [] (dirname p) s) as [s1 r1]. cbn [fst] in T1. destruct r1 as [u|e]; [|exact T1].
    destruct (isdir (dirname p) s1) eqn:Ed; [|exact T1]. apply isdir_spec in Ed.
    assert (find p s1 <> Some Dir -> tree (fst (let '(ts, ok) := dump v in (put p (File ts) s1, if ok : bool then Ok tt else Err TypeError)))) as K.
    { intro Hf. destruct (dump v) as [ts ok]. cbn [fst]. rewrite Ep. apply tree_put; [exact T1|exact Ed|left; now rewrite <- Ep]. }
    destruct (find p s1) as [[ts|]|]; [apply K; discriminate|exact T1|apply K; discriminate].
  - destruct (list_eq_dec string_dec p []) as [->|Hn]; [exact Ht|]. pose proof (C66_delete_outcome p s Hn) as O. 
    assert (snd (delitem p s) = Ok tt -> fst (delitem p s) = remove p s) as R.
    { unfold delitem. destruct p; [congruence|]. destruct (find _ s) as [[|]|]; [reflexivity| |discriminate]. destruct (has_children _ _); [discriminate|reflexivity]. }
    assert ((forall c n, find (p ++ [c]) s <> Some n) -> tree (remove p s)) as K.
    { intros Hc. split; [rewrite find_remove_other by congruence; apply Ht|]. intros q d n F. assert (q ++ [d] <> p) as N by (intro E; rewrite E, find_remove_same in F; discriminate). rewrite find_remove_other in F by exact N.
      destruct (Logic.proj2 Ht _ _ _ F) as [->|Fq]; [auto|right]. rewrite find_remove_other; [exact Fq|]. intros ->. exact (Hc d n F). }
    destruct (find p s) as [[ts|]|] eqn:F.
    + rewrite R by exact O. apply K. intros c n Hf. destruct (Logic.proj2 Ht _ _ _ Hf) as [E|E]; congruence.
    + destruct O as (O1 & O2). destruct (has_children p s) eqn:Hh.
      * unfold delitem. destruct p; [exact Ht|]. now rewrite F, Hh.
      * assert (forall c, find (p ++ [c]) s = None) as Hc.
        { intro c. destruct (find (p ++ [c]) s) as [n|] eqn:Fc; [|reflexivity]. assert (delitem p s = (s, Err OSError)) as E by (apply O1; eauto). unfold delitem in E. destruct p; [congruence|]. rewrite F, Hh in E. discriminate. }
        rewrite R by auto. apply K. intros c n. rewrite Hc. discriminate.
    + rewrite O. exact Ht.
Qed.
Theorem C66_tree (ops : list pop) : tree (fold_left run_pop ops []).
Proof.
  assert (forall s, tree s -> tree (fold_left run_pop ops s)) as K by (induction ops as [|o ops IH]; intros s Hs; [exact Hs|apply IH, tree_step, Hs]). apply K. split; [reflexivity|]. intros p c n F. discriminate.
Qed.
(** hence a store succeeds (with a serialisable value) exactly when the name is not a directory and no file is in the way *)
Theorem C66_set_outcome name v s : name <> [] -> tree s ->
  (snd (setitem name v s) = Err OSError <-> find name s = Some Dir \/ exists q ts, proper_prefix q name /\ find q s = Some (File ts)).
Proof.
  intros Hn (Hr & Ht).
  assert (forall r q c, q <> [] -> find (q ++ c :: r) s <> None -> find q s = Some Dir) as Up.
  { induction r as [|d r IH] using rev_ind; intros q c Hq Hf.
    - destruct (find (q ++ [c]) s) as [n|] eqn:F; [|congruence]. destruct (Ht _ _ _ F); congruence.
    - destruct (find (q ++ c :: r ++ [d]) s) as [n|] eqn:F; [|congruence]. change (q ++ c :: r ++ [d]) with (q ++ (c :: r) ++ [d]) in F. rewrite app_assoc in F. destruct (Ht _ _ _ F) as [E|E]; [now apply app_eq_nil in E as (_ & E)|]. apply (IH q c); congruence. }
  assert (forall todo pre s, (snd (makedirs pre todo s) = Err OSError <-> exists t u ts, todo = t ++ u /\ t <> [] /\ find (pre ++ t) s = Some (File ts)) /\ (snd (makedirs pre todo s) = Ok tt \/ snd (makedirs pre todo s) = Err OSError)) as Mk.
  { induction todo as [|c todo IH]; intros pre s0; cbn [makedirs].
    - split; [|auto]. split; [discriminate|]. intros (t & u & ts & E & Hnt & _). symmetry in E. apply app_eq_nil in E as (-> & _). congruence.
    - assert (forall s1, (forall t, t <> [] -> find ((pre ++ [c]) ++ t) s1 = find ((pre ++ [c]) ++ t) s0) -> (forall ts, find (pre ++ [c]) s0 <> Some (File ts)) ->
        ((exists t u ts, todo = t ++ u /\ t <> [] /\ find ((pre ++ [c]) ++ t) s1 = Some (File ts)) <-> (exists t u ts, c :: todo = t ++ u /\ t <> [] /\ find (pre ++ t) s0 = Some (File ts)))) as K.
      { intros s1 Hs Hc. split.
        - intros (t & u & ts & -> & Hnt & F). exists (c :: t), u, ts. split; [reflexivity|]. split; [discriminate|]. rewrite Hs in F by auto. now rewrite <- app_assoc in F.
        - intros (t & u & ts & E & Hnt & F). destruct t as [|c' t]; [congruence|]. injection E as <- ->. destruct t as [|d t]; [now apply Hc in F|]. exists (d :: t), u, ts. split; [reflexivity|]. split; [discriminate|]. rewrite Hs by discriminate. now rewrite <- app_assoc. }
      destruct (find (pre ++ [c]) s0) as [[ts|]|] eqn:F.
      + split; [|auto]. split; [|reflexivity]. intros _. exists [c], todo, ts. split; [reflexivity|]. split; [discriminate|exact F].
      + destruct (IH (pre ++ [c]) s0) as (I1 & I2). split; [|exact I2]. rewrite I1. apply K; [reflexivity|congruence].
      + destruct (IH (pre ++ [c]) (put (pre ++ [c]) Dir s0)) as (I1 & I2). split; [|exact I2]. rewrite I1. apply K; [|congruence]. intros t Hnt. apply find_put_other. intro E. rewrite <- app_nil_r in E. apply app_inv_head in E. contradiction. }
  assert (name = dirname name ++ [last name ""%string]) as Ep by now apply app_removelast_last.
  assert ((exists q ts, proper_prefix q name /\ find q s = Some (File ts)) <-> exists t u ts, dirname name = t ++ u /\ t <> [] /\ find ([] ++ t) s = Some (File ts)) as Pf.
  { split.
    - intros (q & ts & (a & r & E) & F). destruct q as [|c q]; [congruence|]. exists (c :: q), (removelast (a :: r)), ts. split; [|split; [discriminate|exact F]]. unfold dirname. rewrite E. now rewrite removelast_app by discriminate.
    - intros (t & u & ts & E & Hnt & F). exists t, ts. split; [|exact F]. destruct u as [|a u]; [exists (last name ""%string), []|exists a, (u ++ [last name ""%string])]; rewrite Ep at 1; rewrite E; [now rewrite app_nil_r|now rewrite <- app_assoc]. }
  rewrite Pf. clear Pf.
  assert (forall s1, snd (let '(ts, ok) := dump v in (put name (File ts) s1, if ok : bool then Ok tt else Err TypeError)) <> Err OSError) as Hd by (intro; destruct (dump v) as [ts []]; discriminate).
  unfold setitem. destruct name as [|c0 name0] eqn:En; [congruence|]. rewrite <- En in *. clear En c0 name0.
  unfold exists_. destruct (dirname name) as [|d0 dn0] eqn:Edn.
  - cbn [isdir]. split.
    + destruct (find name s) as [[ts|]|]; [intro E; now apply Hd in E|auto|intro E; now apply Hd in E].
    + intros [F|(t & u & ts & E & Hnt & _)]; [now rewrite F|]. symmetry in E. apply app_eq_nil in E as (-> & _). congruence.
  - rewrite <- Edn in *. assert (dirname name <> []) as Hdn by (rewrite Edn; discriminate). clear Edn d0 dn0.
    assert (forall n, find name s = Some n -> find (dirname name) s = Some Dir) as Par by (intros n F; rewrite Ep in F; destruct (Ht _ _ _ F); [contradiction|assumption]).
    destruct (find (dirname name) s) as [[ts|]|] eqn:Fd.
    + assert (isdir (dirname name) s = false) as -> by (unfold isdir; destruct (dirname name); [congruence|now rewrite Fd]). split; [|reflexivity]. intros _. right. exists (dirname name), [], ts. split; [now rewrite app_nil_r|]. split; [exact Hdn|exact Fd].
    + assert (isdir (dirname name) s = true) as -> by (unfold isdir; destruct (dirname name); [congruence|now rewrite Fd]). split.
      * destruct (find name s) as [[ts|]|]; [intro E; now apply Hd in E|auto|intro E; now apply Hd in E].
      * intros [F|(t & u & ts & E & Hnt & F)]; [now rewrite F|]. exfalso. cbn [app] in F. destruct u as [|a u]; [rewrite app_nil_r in E; congruence|]. rewrite (Up u t a) in F; congruence.
    + destruct (Mk (dirname name) [] s) as (M1 & M2). rewrite <- M1. clear M1. destruct (makedirs [] (dirname name) s) as [s1 r1] eqn:Em. cbn [snd] in *. destruct M2 as [-> | ->].
      * pose proof (makedirs_dir _ _ _ _ Em Hdn) as D. cbn [app] in D. assert (isdir (dirname name) s1 = true) as -> by (unfold isdir; destruct (dirname name); [congruence|now rewrite D]).
        assert (find name s = None) as Fn by (destruct (find name s) as [n|] eqn:F; [specialize (Par _ eq_refl); discriminate|reflexivity]).
        assert (find name s1 = None) as ->.
        { rewrite <- Fn. apply (makedirs_find _ _ _ _ _ Em). intros (t & u & E & _ & Eq). cbn [app] in Eq. apply (f_equal (@List.length string)) in E. rewrite <- Eq, app_length in E. rewrite Ep in E at 2. rewrite app_length in E. cbn in E. lia. }
        split; [intro E; now apply Hd in E|]. intros [F|F]; [congruence|discriminate].
      * cbn [snd]. split; auto.
Qed.
(** For every sequence of stores and deletions on plain names, starting from an empty store, the store
    is the abstract map. *)
Definition run_op (s : fs) (o : op) : fs :=
  match o with Set_ n v => fst (setitem [n] v s) | Del n => fst (delitem [n] s) end.
Theorem C66_sequence_refines_map (ops : list op) (n : string) :
  let s := fold_left run_op ops [] in
  match fold_left abs_step ops (fun _ => Absent) n with
  | Absent => getitem [n] s = Err FileNotFoundError
  | Holds v => exists j, getitem [n] s = Ok j /\ represents j v
  | Destroyed => getitem [n] s = Err ValueError
  end.
Proof.
  cbv zeta.
  set (Rel := fun (s : fs) (m : string -> slot) => forall n, find [n] s <> Some Dir /\ match m n with
    | Absent => find [n] s = None
    | Holds v => exists ts j, find [n] s = Some (File ts) /\ load ts = Ok j /\ represents j v
    | Destroyed => exists ts, find [n] s = Some (File ts) /\ load ts = Err ValueError end).
  assert (forall s m, Rel s m -> Rel (fold_left run_op ops s) (fold_left abs_step ops m)) as K.
  { induction ops as [|o ops IH]; intros s m HR; [exact HR|]. cbn [fold_left]. apply IH. intro k. destruct o as [nm v|nm]; cbn [run_op abs_step].
    - assert (setitem [nm] v s = (put [nm] (File (fst (dump v))) s, if snd (dump v) then Ok tt else Err TypeError)) as E.
      { unfold setitem. cbn [dirname removelast exists_ isdir]. destruct (HR nm) as [Hd _]. destruct (dump v). destruct (find [nm] s) as [[|]|]; try reflexivity. congruence. }
      rewrite E. cbn [fst]. destruct (String.eqb_spec k nm).
      + subst. rewrite find_put_same. split; [discriminate|]. destruct (serialisable v) eqn:Hs.
        * destruct (load_dump v Hs) as (j & Ej & Hj). now exists (fst (dump v)), j.
        * eexists. split; [reflexivity|]. apply failed_not_loadable. now rewrite emit_serialisable.
      + rewrite !find_put_other by congruence. apply HR.
    - destruct (String.eqb_spec k nm).
      + subst. destruct (HR nm) as [Hd _]. unfold delitem. destruct (find [nm] s) as [[|]|] eqn:F; [|congruence|]; cbn [fst]; [rewrite find_remove_same|rewrite F]; split; congruence.
      + assert (find [k] (fst (delitem [nm] s)) = find [k] s) as ->; [|apply HR].
        unfold delitem. destruct (find [nm] s) as [[|]|]; [|destruct (has_children _ _)|]; cbn [fst]; try reflexivity; apply find_remove_other; congruence. }
  assert (Rel [] (fun _ => Absent)) as H0 by (intro k; split; [discriminate|reflexivity]).
  specialize (K _ _ H0 n). destruct K as [_ K]. unfold getitem.
  destruct (fold_left abs_step ops (fun _ => Absent) n).
  - now rewrite K.
  - destruct K as (ts & j & -> & E & Hj). eauto.
  - destruct K as (ts & -> & E). exact E.
Qed.
Example C66_instance : exists s', setitem ["test"; "a.json"]%string (VDict [("b"%string, VTuple [VNum 1; VStr "x"]); ("a"%string, VArray [2%R])]) [] = (s', Ok tt) /\
  getitem ["test"; "a.json"]%string s' = Ok (JDict [("a"%string, JList [JNum 2]); ("b"%string, JList [JNum 1; JStr "x"])]) /\
  fst (setitem ["n"]%string (VList [VNum 1; VObj]) (fst (setitem ["n"]%string VNone []))) = [(["n"]%string, File [TLb; TNum 1; TComma])].
Proof. eexists. repeat split. Qed.

(** ** C64, C65: histories of a process using a memoized function.
    [Call e]: a call; [Exit]: the process ends normally (commit runs) and a new one imports the module;
    [Crash]: the process dies before commit and a new one starts; [CrashWriting k cut]: it dies while
    commit writes, after k tokens (and possibly part of the next one). *)
Section History.
Context {X : Type}.
Variables (process : X -> res X) (fin : X -> string) (fout : string -> res X) (name : path).
Inductive event := Call (e : X) | Exit | Crash | CrashWriting (k : nat) (cut : list token).
Definition state := (fs * res mem)%type.
(** state after the event, and the calls it answered: argument, result, was the function really run *)
Definition step (st : state) (ev : event) : state * list (X * res X * bool) :=
  let '(s, r) := st in
  match ev with
  | Call e => match r with
      | Ok m => let '(m', a) := memo_call process fin fout m e in
                ((s, Ok m'), [(e, a, match jlookup (fin e) (dct m) with None => true | Some _ => false end)])
      | Err x => (st, [(e, Err x, false)])
      end
  | Exit => let s' := match r with Ok m => memo_commit name m s | Err _ => s end in ((s', memo_start name s'), [])
  | Crash => ((s, memo_start name s), [])
  | CrashWriting k cut =>
      let s' := match r with
                | Ok m => if changed m then put name (File (firstn k (cache_text m) ++ cut)) s else s
                | Err _ => s end in
      ((s', memo_start name s'), [])
  end.
Fixpoint run (st : state) (evs : list event) : state * list (X * res X * bool) :=
  match evs with
  | [] => (st, [])
  | ev :: evs' => let '(st1, o1) := step st ev in let '(st2, o2) := run st1 evs' in (st2, o1 ++ o2)
  end.
(** a first process on file system s *)
Definition start (s : fs) : state := (s, memo_start name s).
End History.
Arguments Call {X} e. Arguments Exit {X}. Arguments Crash {X}. Arguments CrashWriting {X} k cut.

Lemma jlookup_assoc k d : jlookup k d = assoc k d.
Proof. induction d as [|[k' j] d IH]; [reflexivity|]. simpl. now rewrite IH. Qed.
Lemma ser_to_py j : serialisable (to_py j) = true.
Proof.
  induction j using json_ind'; cbn; auto; apply forallb_forall; intros v Hv; apply in_map_iff in Hv as (w & <- & Hw); rewrite Forall_forall in H; apply (H _ Hw).
Qed.
(** JSON read back from the file commit wrote *)
Definition norm (j : json) : json := img (prep (to_py j)).
Lemma load_commit d : exists d', load (fst (dump (to_py (JDict d)))) = Ok (JDict d') /\ forall k, assoc k d' = option_map norm (assoc k d).
Proof.
  eexists. split.
  - unfold dump. rewrite load_emit by (rewrite emit_serialisable; apply ser_to_py). cbn [to_py prep img]. reflexivity.
  - intro k. rewrite (assoc_map img), assoc_ksort, (assoc_map prep), (assoc_map to_py). now destruct (assoc k d).
Qed.
Section Memo.
Context {X : Type}.
Variables (process : X -> res X) (fin : X -> string) (fout : string -> res X) (name : path).
(** a cache dictionary whose entries are right: strings which [fout] turns into the result of every
    expression with that key *)
Definition right_cache (d : list (string * json)) : Prop := forall e j, assoc (fin e) d = Some j ->
  exists t r, j = JStr t /\ fout t = Ok r /\ process e = Ok r.
(** the cache file is absent, or holds a right dictionary *)
Definition right_file (s : fs) : Prop := getitem name s = Err FileNotFoundError \/ exists d, getitem name s = Ok (JDict d) /\ right_cache d.
Definition no_torn_write (evs : list (@event X)) : Prop := Forall (fun ev => match ev with CrashWriting _ _ => False | _ => True end) evs.

Lemma commit_effect s m : name <> [] -> 
  (find name (memo_commit name m s) = find name s) \/
  (exists d', getitem name (memo_commit name m s) = Ok (JDict d') /\ forall k, assoc k d' = option_map norm (assoc k (dct m))).
Proof.
  intro Hn. unfold memo_commit. destruct (changed m); [|now left].
  destruct (setitem name (to_py (JDict (dct m))) s) as [s' r] eqn:E. cbn [fst].
  destruct (setitem_effect _ _ _ _ _ E) as (_ & _ & [(-> & Hd & Hf)|[(-> & Hd & Hf)|(-> & Hf)]]).
  - right. destruct (load_commit (dct m)) as (d' & El & Hl). exists d'. split; [|exact Hl]. now rewrite (getitem_file _ _ _ Hn Hf).
  - unfold dump in Hd. rewrite emit_serialisable, ser_to_py in Hd. discriminate.
  - now left.
Qed.
Lemma start_right s : right_file s -> exists m, memo_start name s = Ok m /\ right_cache (dct m).
Proof.
  intros [E|(d & E & Hd)]; unfold memo_start; rewrite E.
  - eexists. split; [reflexivity|]. intros e j Hj. discriminate.
  - eexists. split; [reflexivity|]. exact Hd.
Qed.
(** C64: every call returns (or raises) what the undecorated function does *)
Theorem C64_memoize_transparent s evs st outs : name <> [] ->
  (forall e r, process e = Ok r -> fout (fin r) = Ok r) ->
  (forall e e', fin e = fin e' -> process e = process e') ->
  right_file s -> no_torn_write evs -> run process fin fout name (start name s) evs = (st, outs) ->
  Forall (fun o => snd (fst o) = process (fst (fst o))) outs /\ right_file (fst st).
Proof.
  intros Hn H1 H2 Hf Hno. unfold start. destruct (start_right s Hf) as (m & Em & Hm). rewrite Em.
  clear Em. revert s m st outs Hf Hm. induction evs as [|ev evs IH]; intros s m st outs Hf Hm E.
  - cbn in E. injection E as <- <-. split; [constructor|exact Hf].
  - inversion Hno as [|? ? He Hno']; subst. specialize (IH Hno'). cbn [run] in E. destruct ev as [e| | |k cut]; [| | |contradiction].
    + cbn [step] in E. destruct (memo_call process fin fout m e) as [m' a] eqn:Ec.
      destruct (run process fin fout name (s, Ok m') evs) as [st2 o2] eqn:Er. injection E as <- <-.
      unfold memo_call in Ec. rewrite jlookup_assoc in Ec. destruct (assoc (fin e) (dct m)) as [j|] eqn:Ea.
      * destruct (Hm _ _ Ea) as (t & r & -> & Ht & Hp). injection Ec as <- <-. destruct (IH _ _ _ _ Hf Hm Er) as [IHo IHf]. split; [|exact IHf].
        constructor; [|exact IHo]. cbn. congruence.
      * destruct (process e) as [r|x] eqn:Ep.
        -- injection Ec as <- <-. assert (right_cache (dct (MkMem ((fin e, JStr (fin r)) :: dct m) true (fin e :: computed m)))) as Hm'.
           { intros e' j. cbn [dct assoc]. destruct (String.eqb_spec (fin e') (fin e)) as [Ee|].
             - intro Ej. injection Ej as <-. exists (fin r), r. repeat split; [eapply H1; eauto|]. now rewrite (H2 _ _ Ee).
             - apply Hm. }
           destruct (IH s _ _ _ Hf Hm' Er) as [IHo IHf]. split; [|exact IHf]. constructor; [|exact IHo]. cbn. now rewrite Ep.
        -- injection Ec as <- <-. destruct (IH _ _ _ _ Hf Hm Er) as [IHo IHf]. split; [|exact IHf]. constructor; [|exact IHo]. cbn. now rewrite Ep.
    + cbn [step] in E. assert (right_file (memo_commit name m s)) as Hf'.
      { destruct (commit_effect s m Hn) as [Ef|(d' & Ed & Hd)]; [destruct Hf as [Hf|(d & Hf & Hd)]; [left|right; exists d]; rewrite (getitem_find _ _ _ Ef); auto|].
        right. exists d'. split; [exact Ed|]. intros e j Hj. rewrite Hd in Hj. destruct (assoc (fin e) (dct m)) as [j'|] eqn:Ea; [|discriminate]. cbn in Hj. injection Hj as <-.
        destruct (Hm _ _ Ea) as (t & r & -> & Ht & Hp). exists t, r. repeat split; auto. }
      destruct (start_right _ Hf') as (m' & Em' & Hm'). rewrite Em' in E.
      destruct (run process fin fout name (memo_commit name m s, Ok m') evs) as [st2 o2] eqn:Er. injection E as <- <-. exact (IH _ _ _ _ Hf' Hm' Er).
    + cbn [step] in E. destruct (start_right _ Hf) as (m' & Em' & Hm'). rewrite Em' in E.
      destruct (run process fin fout name (s, Ok m') evs) as [st2 o2] eqn:Er. injection E as <- <-. exact (IH _ _ _ _ Hf Hm' Er).
Qed.
(** exceptions are not cached *)
Theorem C64_exceptions_not_cached m e x : process e = Err x -> assoc (fin e) (dct m) = None ->
  memo_call process fin fout m e = (m, Err x).
Proof. intros Hp Ha. unfold memo_call. now rewrite jlookup_assoc, Ha, Hp. Qed.
(** the cache can be written: its directory exists and it is not itself a directory *)
Definition storable (s : fs) : Prop := name <> [] /\ isdir (dirname name) s = true /\ find name s <> Some Dir.
Definition clean (evs : list (@event X)) : Prop := Forall (fun ev => match ev with Call _ | Exit => True | _ => False end) evs.
(** keys really computed with a result, in order *)
Definition computed_keys (outs : list (X * res X * bool)) : list string :=
  flat_map (fun o => match o with (e, Ok _, true) => [fin e] | _ => [] end) outs.
Lemma dirname_neq (p : path) : p <> [] -> dirname p <> p.
Proof.
  intros Hp E. apply (f_equal (@List.length string)) in E. unfold dirname in E. rewrite (app_removelast_last EmptyString Hp) in E at 2.
  rewrite app_length in E. simpl List.length in E. lia.
Qed.
Lemma storable_put s ts : storable s -> storable (put name (File ts) s).
Proof.
  intros (Hn & Hd & Hf). repeat split; auto.
  - unfold isdir in *. destruct (dirname name) as [|c d] eqn:Ed; [reflexivity|]. rewrite find_put_other; [exact Hd|]. rewrite <- Ed. now apply dirname_neq.
  - rewrite find_put_same. discriminate.
Qed.
Lemma commit_storable s m : storable s -> changed m = true -> memo_commit name m s = put name (File (cache_text m)) s.
Proof.
  intros (Hn & Hd & Hf) Hc. unfold memo_commit, cache_text. rewrite Hc. unfold setitem. destruct name as [|c p] eqn:En; [congruence|]. rewrite <- En in *.
  assert (exists_ (dirname name) s = true) as ->.
  { unfold exists_. unfold isdir in Hd. destruct (dirname name); [reflexivity|]. now destruct (find _ s). }
  rewrite Hd. destruct (dump (to_py (JDict (dct m)))). destruct (find name s) as [[|]|]; try reflexivity. congruence.
Qed.
(** what is committed is what the next process reads: every entry, also those that are not strings (from a file written by
    something else), up to the order inside dictionaries, and nothing else *)
Lemma norm_same j : same_json (norm j) j.
Proof.
  unfold norm. induction j using json_ind'; cbn [to_py prep img]; try constructor.
  - rewrite !map_map. rewrite Forall_forall in H. clear - H. induction l as [|a l IH]; [constructor|]. constructor; [apply H; simpl; auto|]. apply IH. intros x Hx. apply H. simpl. auto.
  - intro k. rewrite (assoc_map img), assoc_ksort, (assoc_map prep), (assoc_map to_py). destruct (assoc k l) as [v|] eqn:E; cbn; constructor. apply assoc_In in E. rewrite Forall_forall in H. exact (H _ E).
Qed.
Theorem C64_commit_read_back s m : storable s -> changed m = true ->
  exists m', memo_start name (memo_commit name m s) = Ok m' /\ changed m' = false /\ forall k, opt_rel same_json (assoc k (dct m')) (assoc k (dct m)).
Proof.
  intros Hs Hc. rewrite commit_storable by auto. destruct (load_commit (dct m)) as (d' & El & Hl). unfold memo_start.
  rewrite (getitem_file name (cache_text m)); [|apply Hs|apply find_put_same]. unfold cache_text. rewrite El. eexists. split; [reflexivity|]. split; [reflexivity|].
  intro k. cbn [dct]. rewrite Hl. destruct (assoc k (dct m)) as [j|]; cbn [option_map]; constructor. apply norm_same.
Qed.
Theorem C64_computed_at_most_once s evs st outs : storable s -> right_file s -> clean evs ->
  run process fin fout name (start name s) evs = (st, outs) -> NoDup (computed_keys outs).
Proof.
  intros Hs Hf Hc E. assert (name <> []) as Hn by apply Hs.
  set (Inv := fun (s : fs) (m : mem) => storable s /\ (changed m = false -> getitem name s = Ok (JDict (dct m)))).
  assert (forall evs s m st outs, clean evs -> Inv s m -> run process fin fout name (s, Ok m) evs = (st, outs) ->
    NoDup (computed_keys outs) /\ forall k, In k (computed_keys outs) -> assoc k (dct m) = None) as K.
  2:{ unfold start in E. destruct (start_right s Hf) as (m & Em & _). rewrite Em in E. apply (K evs s m st outs Hc); [|exact E]. split; [exact Hs|].
      unfold memo_start in Em. destruct Hf as [Hf|(d & Hf & _)]; rewrite Hf in Em; injection Em as <-; cbn; [discriminate|auto]. }
  clear. induction evs as [|ev evs IH]; intros s m st outs Hc HI E.
  - cbn in E. injection E as <- <-. split; [constructor|]. intros k [].
  - inversion Hc as [|? ? He Hc']; subst. cbn [run] in E. destruct ev as [e| | |]; try contradiction.
    + cbn [step] in E. destruct (memo_call process fin fout m e) as [m' a] eqn:Ec.
      destruct (run process fin fout name (s, Ok m') evs) as [st2 o2] eqn:Er. injection E as <- <-. rewrite jlookup_assoc.
      unfold memo_call in Ec. rewrite jlookup_assoc in Ec. cbn [computed_keys flat_map app]. fold (computed_keys o2).
      destruct (assoc (fin e) (dct m)) as [j|] eqn:Ea.
      * assert (m' = m) as -> by (destruct j; congruence). destruct (IH _ _ _ _ Hc' HI Er). now destruct a.
      * destruct (process e) as [r|x]; injection Ec as <- <-; [|now apply (IH _ _ _ _ Hc' HI Er)].
        assert (Inv s (MkMem ((fin e, JStr (fin r)) :: dct m) true (fin e :: computed m))) as HI' by (split; [apply HI|discriminate]).
        destruct (IH s _ _ _ Hc' HI' Er) as [N D]. cbn [dct] in D.
        cbn [app]. split.
        -- constructor; [|exact N]. intro Hin. specialize (D _ Hin). cbn [assoc] in D. now rewrite String.eqb_refl in D.
        -- intros k [<-|Hk]; [exact Ea|]. specialize (D _ Hk). cbn [assoc] in D. destruct (String.eqb k (fin e)); [discriminate|exact D].
    + cbn [step] in E. destruct HI as [Hs HI].
      assert (exists d', getitem name (memo_commit name m s) = Ok (JDict d') /\ (forall k, assoc k d' = None -> assoc k (dct m) = None) /\ storable (memo_commit name m s)) as (d' & Ed & Hd & Hs').
      { destruct (changed m) eqn:Hch.
        - rewrite commit_storable by auto. destruct (load_commit (dct m)) as (d' & El & Hl). exists d'. split; [|split].
          + rewrite (getitem_file name (cache_text m)); [exact El|apply Hs|apply find_put_same].
          + intros k Hk. rewrite Hl in Hk. now destruct (assoc k (dct m)).
          + now apply storable_put.
        - exists (dct m). unfold memo_commit. rewrite Hch. repeat split; auto; apply Hs. }
      unfold memo_start in E. rewrite Ed in E. destruct (run process fin fout name (memo_commit name m s, _) evs) as [st2 o2] eqn:Er. injection E as <- <-.
      assert (Inv (memo_commit name m s) (MkMem d' false [])) as HI' by (split; [exact Hs'|intros _; exact Ed]).
      destruct (IH _ _ _ _ Hc' HI' Er) as [N D]. split; [exact N|]. intros k Hk. apply Hd, D, Hk.
Qed.

(** ** C65 *)
(** a crash before exit leaves the file alone: only entries added since the last commit are lost *)
Theorem C65_crash_before_exit s m : fst (fst (step process fin fout name (s, Ok m) Crash)) = s.
Proof. reflexivity. Qed.
(** a crash while the cache is being written (some, but not all of the text is in the file) makes every
    later import fail: ValueError, for ever, whatever the following processes do *)
Theorem C65_torn_write_breaks_every_import s m k cut evs st outs : name <> [] -> changed m = true ->
  (k < List.length (cache_text m))%nat -> (cut = [] \/ exists t, cut = [t] /\ dt t = 0%Z /\ (0 < k)%nat) ->
  run process fin fout name (s, Ok m) (CrashWriting k cut :: evs) = (st, outs) ->
  snd st = Err ValueError /\ Forall (fun o => snd (fst o) = Err ValueError) outs.
Proof.
  intros Hn Hc Hk Hcut E. cbn [run step] in E. rewrite Hc in E.
  assert (memo_start name (put name (File (firstn k (cache_text m) ++ cut)) s) = Err ValueError) as Hb.
  { unfold memo_start. rewrite (getitem_file name (firstn k (cache_text m) ++ cut)); [|exact Hn|apply find_put_same].
    assert (exists l, cache_text m = fst (emit (VDict l))) as (l & Hl) by (eexists; reflexivity).
    rewrite (dict_prefix_not_loadable l _ (skipn k (cache_text m)) cut); [reflexivity|rewrite firstn_skipn; now symmetry| |].
    - intro Es. apply (f_equal (@List.length token)) in Es. rewrite skipn_length in Es. cbn [List.length] in Es. lia.
    - destruct Hcut as [->|(t & -> & Ht & Hk0)]; [now left|right]. exists t. repeat split; auto. intro Ef. apply (f_equal (@List.length token)) in Ef. rewrite firstn_length in Ef. cbn [List.length] in Ef. lia. }
  rewrite Hb in E. set (s1 := put name _ s) in *. clearbody s1. destruct (run process fin fout name (s1, Err ValueError) evs) as [st2 o2] eqn:Er. injection E as <- <-. cbn [app].
  clear -Er Hb. revert st2 o2 Er. induction evs as [|ev evs IH]; intros st2 o2 Er; cbn [run] in Er; [injection Er as <- <-; split; [reflexivity|constructor]|].
  destruct ev; cbn [step] in Er; rewrite ?Hb in Er; destruct (run process fin fout name (s1, Err ValueError) evs) as [st3 o3] eqn:Er'; injection Er as <- <-;
   destruct (IH _ _ eq_refl) as [I1 I2]; split; auto.
Qed.
(** hence the cache is not robust: there is a crash point after which the library cannot be imported *)
Theorem C65_robustness_refuted : name <> [] -> forall s e r, process e = Ok r -> getitem name s = Err FileNotFoundError ->
  exists k, exists st outs, run process fin fout name (start name s) [Call e; CrashWriting k []] = (st, outs) /\ snd st = Err ValueError.
Proof.
  intros Hn s e r Hp Hg. exists 0%nat.
  destruct (run process fin fout name (start name s) [Call e; CrashWriting 0 []]) as [st outs] eqn:E. exists st, outs. split; [reflexivity|].
  unfold start, memo_start in E. rewrite Hg in E. cbn [run step] in E. unfold memo_call in E. cbn [jlookup dct] in E. rewrite Hp in E.
  cbn [step changed firstn app] in E. injection E as <- _. cbn [snd]. unfold memo_start.
  now rewrite (getitem_file name []); [|exact Hn|apply find_put_same].
Qed.
End Memo.
Example C64_instance : let fin := fun b : bool => (if b then "t" else "f")%string in
  let fout := fun t => Ok (String.eqb t "t") in let p := fun b => Ok (negb b) in let nm := ["c.json"%string] in
  (forall e r, p e = Ok r -> fout (fin r) = Ok r) /\ (forall e e', fin e = fin e' -> p e = p e') /\
  right_file p fin fout nm [] /\ storable nm [] /\
  snd (run p fin fout nm (start nm []) [Call true; Call true; Exit; Call true; Crash; Call false]) =
    [((true, Ok false), true); ((true, Ok false), false); ((true, Ok false), false); ((false, Ok true), true)].
Proof.
  cbv zeta. repeat split; try discriminate.
  - intros [] r E; inversion E; reflexivity.
  - intros [] [] E; try reflexivity; discriminate.
  - left. reflexivity.
Qed.
(** a torn write of a real cache: the process computes one entry, dies after three of the five tokens; the next two imports fail *)
Example C65_instance : let fin := fun b : bool => (if b then "t" else "f")%string in
  let fout := fun t => Ok (String.eqb t "t") in let p := fun b => Ok (negb b) in let nm := ["c.json"%string] in
  exists m, fst (run p fin fout nm (start nm []) [Call true]) = ([], Ok m) /\ changed m = true /\ List.length (cache_text m) = 5%nat /\
  snd (run p fin fout nm (start nm []) [Call true; CrashWriting 3 []; Call true; Crash; Call false]) =
    [((true, Ok false), true); ((true, Err ValueError), false); ((false, Err ValueError), false)].
Proof. cbv zeta. eexists. repeat split. Qed.
