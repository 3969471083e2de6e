(** C95: dictionaries with attribute access, named tuples, dispatch tables, and the remaining array helpers. *)
From Coq Require Import ZArith Reals List Lia Lra Arith Bool String Ascii.
From Verif Require Import Model.Num Model.Np Model.Common Model.Records Proofs.ListLemmas.
Import ListNotations.
Local Open Scope string_scope.
Local Open Scope list_scope.

(** ** dictionaries *)
Section D.
Context {K V : Type} (eqb : K -> K -> bool). Hypothesis eqb_spec : forall a b, reflect (a = b) (eqb a b).
Lemma dget_dset (d : dict K V) k v k' : dget eqb (dset eqb d k v) k' = if eqb k' k then Ok v else dget eqb d k'.
Proof.
  induction d as [|[x w] d IH]; cbn; [reflexivity|]. destruct (eqb_spec k x) as [->|N]; cbn.
  - destruct (eqb_spec k' x); auto.
  - destruct (eqb_spec k' x) as [->|N']; [|exact IH]. destruct (eqb_spec x k); [congruence|reflexivity].
Qed.
(** the value stored last under k *)
Lemma dget_stores (l : list (K * V)) d k : dget eqb (fold_left (fun b p => dset eqb b (fst p) (snd p)) l d) k =
  match find (fun p => eqb k (fst p)) (rev l) with Some p => Ok (snd p) | None => dget eqb d k end.
Proof.
  induction l as [|p l IH] using rev_ind; [reflexivity|]. rewrite fold_left_app, rev_unit. cbn. rewrite dget_dset. now destruct (eqb k (fst p)).
Qed.
Lemma find_last (pre post : list (K * V)) k v : ~ In k (map fst post) -> find (fun p => eqb k (fst p)) (rev (pre ++ (k, v) :: post)) = Some (k, v).
Proof.
  intro H. rewrite rev_app_distr. cbn. rewrite <- app_assoc. assert (forall l, ~ In k (map fst l) -> find (fun p => eqb k (fst p)) (l ++ (k, v) :: rev pre) = Some (k, v)) as A.
  { induction l as [|[x w] l IH]; cbn; intro N; [destruct (eqb_spec k k); congruence|]. destruct (eqb_spec k x) as [->|]; [tauto|]. apply IH. tauto. }
  apply A. rewrite map_rev. intro X. apply H. now apply in_rev.
Qed.
Lemma find_none (l : list (K * V)) k : ~ In k (map fst l) -> find (fun p => eqb k (fst p)) l = None.
Proof. induction l as [|[x w] l IH]; cbn; intro N; [reflexivity|]. destruct (eqb_spec k x) as [->|]; [tauto|]. apply IH. tauto. Qed.
End D.
Lemma mem_In s l : mem s l = true <-> In s l.
Proof. unfold mem. rewrite existsb_exists. split; [intros (x & H & E); apply String.eqb_eq in E; now subst|intro H; exists s; split; auto; apply String.eqb_refl]. Qed.
Lemma mem_notin s l : mem s l = false <-> ~ In s l.
Proof. rewrite <- mem_In. destruct (mem s l); split; intuition congruence. Qed.

(** ** bunch *)
(** b.k reads the item stored last under k, unless k is an attribute of dict; a missing name is a KeyError *)
Theorem C95_bunch {V} (kw : list (string * V)) (b : dict string V) k v k' :
  bunch_getattr (bunch_setattr b k v) k' = (if mem k' class_attrs then Ok (ClassAttr k') else if String.eqb k' k then Ok (Item v) else bunch_getattr b k') /\
  (NoDup (map fst kw) -> In (k, v) kw -> ~ In k class_attrs -> bunch_getattr (bunch_of kw) k = Ok (Item v)) /\
  (~ In k (map fst kw) -> ~ In k class_attrs -> bunch_getattr (bunch_of kw) k = Err KeyError) /\
  (In k class_attrs -> bunch_getattr (bunch_of kw) k = Ok (ClassAttr k)).
Proof.
  split; [|split; [|split]].
  - unfold bunch_getattr, bunch_setattr. destruct (mem k' class_attrs); [reflexivity|]. rewrite (dget_dset _ String.eqb_spec). now destruct (String.eqb k' k).
  - intros ND HI NA. unfold bunch_getattr, bunch_of. rewrite (Logic.proj2 (mem_notin _ _) NA). apply in_split in HI as (pre & post & ->). rewrite dget_stores by exact String.eqb_spec.
    rewrite (find_last _ String.eqb_spec); [reflexivity|]. rewrite map_app in ND. apply NoDup_remove_2 in ND. intro X. apply ND. cbn. apply in_or_app. now right.
  - intros NI NA. unfold bunch_getattr, bunch_of. rewrite (Logic.proj2 (mem_notin _ _) NA). rewrite dget_stores by exact String.eqb_spec. rewrite (find_none _ String.eqb_spec); [reflexivity|]. rewrite map_rev. intro X. apply NI. now apply in_rev.
  - intro HA. unfold bunch_getattr. now rewrite (Logic.proj2 (mem_In _ _) HA).
Qed.
(** the names the library stores in bunches are not attributes of dict *)
Theorem C95_bunch_names k : In k ["P"; "Pn"; "B"; "D"; "H"; "W"; "C"; "BC"; "T"; "U"] -> ~ In k class_attrs.
Proof. intros H X. apply mem_In in X. cbn in H. repeat (destruct H as [<-|H]; [discriminate|]). contradiction. Qed.

(** ** named tuples *)
Lemma distinct_NoDup l : distinct l = true <-> NoDup l.
Proof.
  induction l as [|s l IH]; cbn; [split; auto; constructor|]. rewrite andb_true_iff, negb_true_iff, mem_notin, IH. split; [intros []; now constructor|intro H; now inversion H].
Qed.
Definition field_ok (s : string) : Prop := valid_name s = true /\ underscored s = false.
Lemma namedtuple_ok n s l : namedtuple n s = Ok l <-> l = words (commas_to_spaces s) /\ valid_name n = true /\ Forall field_ok l /\ NoDup l.
Proof.
  unfold namedtuple. set (names := words (commas_to_spaces s)). cbn [forallb]. destruct (_ && _ && _)%bool eqn:E.
  - apply andb_true_iff in E as [E E3]. apply andb_true_iff in E as [E1 E2]. apply andb_true_iff in E1 as [E0 E1]. rewrite forallb_forall in E1, E2. apply distinct_NoDup in E3.
    split; [|intros [-> _]; reflexivity]. intros [= <-]. split; [reflexivity|]. split; [exact E0|]. split; [|exact E3]. apply Forall_forall. intros x Hx. split; [now apply E1|]. apply E2 in Hx. now apply negb_true_iff in Hx.
  - split; [discriminate|]. intros (-> & H0 & H1 & H2). exfalso. rewrite Forall_forall in H1. apply distinct_NoDup in H2. fold names in H1, H2. rewrite H0, H2 in E. cbn in E. rewrite andb_true_r in E.
    apply andb_false_iff in E as [E|E]; apply not_true_iff_false in E; apply E; apply forallb_forall; intros x Hx; [now apply H1|]. apply negb_true_iff. now apply H1.
Qed.
(** *** splitting strings *)
Lemma split_not_nil c s : split_on c s <> []. Proof. destruct s as [|a s]; cbn; [discriminate|]. destruct (Ascii.eqb a c); [discriminate|]. now destruct (split_on c s). Qed.
Lemma concat_split s : String.concat "," (split_on "," s) = s.
Proof.
  induction s as [|a s IH]; [reflexivity|]. cbn [split_on]. destruct (Ascii.eqb_spec a ","%char) as [->|N].
  - destruct (split_on "," s) as [|w ws] eqn:E; [now apply split_not_nil in E|]. change (String.concat "," (EmptyString :: w :: ws)) with (String "," (String.concat "," (w :: ws))). now rewrite IH.
  - destruct (split_on "," s) as [|w ws] eqn:E; [now apply split_not_nil in E|]. destruct ws as [|w' ws]; cbn [String.concat append] in *; now rewrite IH.
Qed.
Definition plain (s : string) : Prop := all_chars (fun c => negb (is_space c) && negb (Ascii.eqb c ","%char))%bool s = true.
Lemma ident_char a : (letter a || digit a)%bool = true -> (negb (is_space a) && negb (Ascii.eqb a ","%char))%bool = true.
Proof. destruct a as [[] [] [] [] [] [] [] []]; cbn; (reflexivity || discriminate). Qed.
Lemma valid_plain s : valid_name s = true -> plain s /\ s <> EmptyString.
Proof.
  unfold valid_name. intro H. apply andb_true_iff in H as [H _]. destruct s as [|a s]; [discriminate|]. split; [|discriminate]. unfold plain. cbn [identifier all_chars] in *. apply andb_true_iff in H as [H1 H2].
  apply andb_true_iff. split; [apply ident_char; now rewrite H1|]. clear H1 a. induction s as [|a s IH]; [reflexivity|]. cbn [all_chars] in *. apply andb_true_iff in H2 as [H2 H3]. apply andb_true_iff. split; [now apply ident_char|now apply IH].
Qed.
(** the valid names, spelled out: a letter or underscore followed by letters, digits and underscores, and not a keyword of Python *)
Definition in_chars (cs : string) (a : ascii) : Prop := In a (list_ascii_of_string cs).
Definition alphabet : string := "ABCDEFGHIJKLMNOPQRSTUVWXYZabcdefghijklmnopqrstuvwxyz_".
Definition python_keywords : list string := ["False"; "await"; "else"; "import"; "pass"; "None"; "break"; "except"; "in"; "raise"; "True"; "class"; "finally"; "is"; "return"; "and"; "continue"; "for"; "lambda"; "try";
  "as"; "def"; "from"; "nonlocal"; "while"; "assert"; "del"; "global"; "not"; "with"; "async"; "elif"; "if"; "or"; "yield"].
Theorem C95_valid_names s : valid_name s = true <->
  (exists a t, s = String a t /\ in_chars alphabet a /\ Forall (fun c => in_chars (alphabet ++ "0123456789") c) (list_ascii_of_string t)) /\ ~ In s python_keywords.
Proof.
  assert (forall cs a, in_chars cs a <-> existsb (Ascii.eqb a) (list_ascii_of_string cs) = true) as Ex.
  { intros cs a. unfold in_chars. rewrite existsb_exists. split; [intro H; exists a; split; [exact H|apply Ascii.eqb_refl]|]. intros (b & Hb & E). apply Ascii.eqb_eq in E. now subst. }
  assert (forall a, letter a = true <-> in_chars alphabet a) as L by (intro a; rewrite Ex; destruct a as [[] [] [] [] [] [] [] []]; vm_compute; split; (reflexivity || discriminate)).
  assert (forall a, (letter a || digit a)%bool = true <-> in_chars (alphabet ++ "0123456789") a) as LD by (intro a; rewrite Ex; destruct a as [[] [] [] [] [] [] [] []]; vm_compute; split; (reflexivity || discriminate)).
  assert (forall t, all_chars (fun c => letter c || digit c)%bool t = true <-> Forall (fun c => in_chars (alphabet ++ "0123456789") c) (list_ascii_of_string t)) as A.
  { induction t as [|a t IH]; cbn [all_chars list_ascii_of_string]; [split; [constructor|reflexivity]|]. rewrite andb_true_iff, IH, LD. split; [intros []; now constructor|intro H; inversion H; auto]. }
  unfold valid_name. rewrite andb_true_iff, negb_true_iff, <- not_true_iff_false, mem_In.
  assert (In s keywords <-> In s python_keywords) as K by (unfold keywords, python_keywords; cbn [In]; tauto). rewrite K.
  assert (identifier s = true <-> exists a t, s = String a t /\ in_chars alphabet a /\ Forall (fun c => in_chars (alphabet ++ "0123456789") c) (list_ascii_of_string t)) as I; [|now rewrite I].
  destruct s as [|a t]; cbn [identifier]; [split; [discriminate|intros (a & t & E & _); discriminate]|]. rewrite andb_true_iff, L, A. split; [intros []; exists a, t; auto|intros (b & u & E & H1 & H2); injection E as -> ->; auto].
Qed.
Lemma app_assoc_s a b c : ((a ++ b) ++ c)%string = (a ++ b ++ c)%string. Proof. induction a as [|x a IH]; cbn; [reflexivity|]. now rewrite IH. Qed.
Lemma app_nil_s a : (a ++ "")%string = a. Proof. induction a as [|x a IH]; cbn; [reflexivity|]. now rewrite IH. Qed.
(** the words of a string with commas for spaces are those of its pieces *)
Fixpoint drop_empty (l : list string) : list string := match l with [] => [] | EmptyString :: l' => drop_empty l' | s :: l' => s :: drop_empty l' end.
Lemma words_pieces_from s : forall acc, words_from acc (commas_to_spaces s) = match split_on "," s with [] => words_from acc "" | p :: ps => words_from acc p ++ flat_map words ps end.
Proof.
  induction s as [|a s IH]; intro acc; [cbn; now rewrite app_nil_r|]. cbn [commas_to_spaces split_on]. destruct (Ascii.eqb_spec a ","%char) as [->|N].
  - cbn [words_from]. change (is_space " ") with true. cbn iota. pose proof (IH EmptyString) as E. destruct (split_on "," s) as [|p ps] eqn:Ep; [now apply split_not_nil in Ep|].
    cbn [flat_map]. unfold words at 1. rewrite <- E. destruct acc; reflexivity.
  - destruct (split_on "," s) as [|p ps] eqn:Ep; [now apply split_not_nil in Ep|]. cbn [words_from]. destruct (is_space a).
    + destruct acc as [|x acc]; [now rewrite (IH EmptyString)|]. cbn [app]. f_equal. now rewrite (IH EmptyString).
    + apply IH.
Qed.
Lemma words_pieces s : words (commas_to_spaces s) = flat_map words (split_on "," s).
Proof. unfold words at 1. rewrite words_pieces_from. destruct (split_on "," s) eqn:E; [now apply split_not_nil in E|]. reflexivity. Qed.
Lemma words_plain s : plain s -> forall acc, words_from acc s = match (acc ++ s)%string with EmptyString => [] | w => [w] end.
Proof.
  unfold plain. induction s as [|a s IH]; intros H acc; [cbn; rewrite app_nil_s; now destruct acc|]. cbn [all_chars] in H. apply andb_true_iff in H as [H1 H2]. apply andb_true_iff in H1 as [H1 _]. apply negb_true_iff in H1.
  cbn [words_from]. rewrite H1, IH by auto. now rewrite app_assoc_s.
Qed.
Lemma words_valid s : valid_name s = true -> words s = [s].
Proof. intro H. apply valid_plain in H as [P N]. unfold words. rewrite (words_plain s P). cbn. now destruct s. Qed.
Lemma split_plain s : plain s -> split_on "," s = [s].
Proof. unfold plain. induction s as [|a s IH]; intro H; [reflexivity|]. cbn [all_chars split_on] in *. apply andb_true_iff in H as [H1 H2]. apply andb_true_iff in H1 as [_ H1]. apply negb_true_iff in H1. now rewrite H1, IH. Qed.
Lemma split_app_comma p s : plain p -> split_on "," (p ++ String "," s) = p :: split_on "," s.
Proof. unfold plain. induction p as [|a p IH]; intro H; [reflexivity|]. cbn [all_chars append split_on] in *. apply andb_true_iff in H as [H1 H2]. apply andb_true_iff in H1 as [_ H1]. apply negb_true_iff in H1. now rewrite H1, IH. Qed.
Lemma split_concat l : l <> [] -> Forall plain l -> split_on "," (String.concat "," l) = l.
Proof.
  intros N F. induction F as [|p l P F IH]; [congruence|]. destruct l as [|q l]; [cbn; now apply split_plain|]. cbn [String.concat append] in *. rewrite split_app_comma by auto. f_equal. now apply IH.
Qed.
(** *** the dictionary comprehension *)
Section NT.
Context {V : Type} (d : dict string V).
Notation step := (fun r x => bind r (fun kw => bind (dget String.eqb d x) (fun v => Ok (dset String.eqb kw x v)))).
Lemma compr_ok l : forall kw0, (forall x, In x l -> exists v, dget String.eqb d x = Ok v) -> exists kw, fold_left step l (Ok kw0) = Ok kw /\
  (forall x v, In x l -> dget String.eqb d x = Ok v -> dget String.eqb kw x = Ok v) /\ (forall x, ~ In x l -> dget String.eqb kw x = dget String.eqb kw0 x) /\ (forall x, In x (map fst kw) <-> In x l \/ In x (map fst kw0)).
Proof.
  assert (forall (kw : dict string V) k v x, In x (map fst (dset String.eqb kw k v)) <-> x = k \/ In x (map fst kw)) as KS.
  { intros kw k v x. induction kw as [|[y w] kw IH]; cbn; [intuition auto|]. destruct (String.eqb_spec k y) as [->|]; cbn; [intuition auto|]. rewrite IH. intuition auto. }
  induction l as [|x l IH]; intros kw0 H; cbn [fold_left].
  - exists kw0. split; [reflexivity|]. split; [intros ? ? []|]. split; [reflexivity|]. cbn. tauto.
  - destruct (H x (or_introl eq_refl)) as (v & Ev). cbn [bind]. rewrite Ev. cbn [bind]. destruct (IH (dset String.eqb kw0 x v)) as (kw & E & A & B & C); [intros; apply H; now right|]. exists kw. split; [exact E|]. split; [|split].
    + intros y u [<-|Hy] Eu; [|auto]. rewrite Ev in Eu. injection Eu as <-. destruct (in_dec string_dec x l) as [I|I]; [now apply A|]. rewrite B by auto. rewrite (dget_dset _ String.eqb_spec), String.eqb_refl. reflexivity.
    + intros y Hy. cbn in Hy. rewrite B by tauto. rewrite (dget_dset _ String.eqb_spec). destruct (String.eqb_spec y x); [subst; tauto|reflexivity].
    + intro y. rewrite C, KS. cbn. intuition auto.
Qed.
Lemma dget_key (e : dict string V) x : (forall v, dget String.eqb e x <> Ok v) -> dget String.eqb e x = Err KeyError.
Proof. induction e as [|[y w] e IH]; cbn; [reflexivity|]. destruct (String.eqb x y); [intro H; now destruct (H w)|exact IH]. Qed.
Lemma dget_some (e : dict string V) x : In x (map fst e) -> exists v, dget String.eqb e x = Ok v.
Proof. induction e as [|[y w] e IH]; cbn; [tauto|]. intros [->|H]; [rewrite String.eqb_refl; eauto|]. destruct (String.eqb x y); eauto. Qed.
Lemma compr_bad l x : forall r, In x l -> dget String.eqb d x = Err KeyError -> (forall e, r = Err e -> e = KeyError) -> fold_left step l r = Err KeyError.
Proof.
  assert (forall l, fold_left step l (Err KeyError) = Err KeyError) as Z by (induction l0; auto).
  assert (forall y, exists r', dget String.eqb d y = r' /\ forall e, r' = Err e -> e = KeyError) as DE.
  { intro y. eexists. split; [reflexivity|]. intros e. clear Z. induction d as [|[z w] d' IH]; cbn; [congruence|]. destruct (String.eqb y z); [discriminate|exact IH]. }
  induction l as [|y l IH]; intros r HI HE Hr; [contradiction|]. cbn [fold_left]. destruct r as [kw|e]; [|rewrite (Hr e eq_refl); apply Z]. cbn [bind]. destruct HI as [->|HI]; [rewrite HE; apply Z|].
  apply IH; auto. destruct (DE y) as (r' & -> & Hr'). destruct r'; cbn; [discriminate|]. intros e' [= <-]. now apply Hr'.
Qed.
Lemma call_ok names (kw : dict string V) r : NoDup names -> (tuple_call names kw = Ok r <-> (forall x, In x (map fst kw) -> In x names) /\ map fst r = names /\ Forall (fun p => dget String.eqb kw (fst p) = Ok (snd p)) r).
Proof.
  intros _. unfold tuple_call. destruct (forallb _ kw) eqn:E.
  - rewrite forallb_forall in E. assert (forall x, In x (map fst kw) -> In x names) as Hk by (intros x Hx; apply in_map_iff in Hx as (p & <- & Hp); apply mem_In; now apply E).
    clear E. assert (forall l r, fold_right (fun n r => match dget String.eqb kw n with Ok v => bind r (fun l => Ok ((n, v) :: l)) | Err _ => Err TypeError end) (Ok []) l = Ok r <-> map fst r = l /\ Forall (fun p => dget String.eqb kw (fst p) = Ok (snd p)) r) as A.
    { clear. induction l as [|n l IH]; intro r; cbn; [split; [intros [= <-]; auto|intros [H _]; destruct r; [reflexivity|discriminate]]|]. split.
      - intro H. destruct (dget String.eqb kw n) as [v|] eqn:Ev; [|discriminate]. destruct (fold_right _ _ l) as [l'|] eqn:El; [|discriminate]. cbn in H. injection H as <-. destruct (Logic.proj1 (IH l') eq_refl) as [H1 H2]. cbn. split; [congruence|]. constructor; auto.
      - intros [H1 H2]. destruct r as [|[x v] r]; [discriminate|]. cbn in H1. injection H1 as -> H1. inversion H2 as [|? ? Hv Hr]. cbn in Hv. subst. rewrite Hv. now rewrite (Logic.proj2 (IH r) (conj eq_refl Hr)). }
    rewrite A. tauto.
  - split; [discriminate|]. intros [H _]. exfalso. apply not_true_iff_false in E. apply E. apply forallb_forall. intros p Hp. apply mem_In. apply H. now apply in_map.
Qed.
(** nametuple succeeds exactly when fields is a list of distinct valid names separated by single commas (no blanks), all of them keys of the dictionary, and returns their values in this order *)
Theorem C95_nametuple name fields r : nametuple name fields d = Ok r <->
  valid_name name = true /\ r <> [] /\ fields = String.concat "," (map fst r) /\ Forall field_ok (map fst r) /\ NoDup (map fst r) /\ Forall (fun p => dget String.eqb d (fst p) = Ok (snd p)) r.
Proof.
  unfold nametuple. split.
  - intro H. destruct (fold_left _ _ _) as [kw|] eqn:Ek; [|discriminate]. cbn [bind] in H. destruct (namedtuple name fields) as [names|] eqn:En; [|discriminate]. cbn [bind] in H.
    assert (forall x, In x (split_on "," fields) -> exists v, dget String.eqb d x = Ok v) as Hd.
    { intros x Hx. destruct (dget String.eqb d x) as [v|e] eqn:Ex; [eauto|]. rewrite (compr_bad _ x (Ok []) Hx) in Ek; [discriminate| |discriminate]. apply dget_key. intros v. congruence. }
    destruct (compr_ok (split_on "," fields) [] Hd) as (kw' & Ek' & A & _ & C). pose proof (eq_trans (eq_sym Ek) Ek') as Ekk; injection Ekk as <-.
    apply namedtuple_ok in En as (-> & Hn & F & ND). rewrite call_ok in H by exact ND. destruct H as (H1 & H2 & H3).
    assert (forall x, In x (split_on "," fields) -> valid_name x = true) as Hv. { intros x Hx. rewrite Forall_forall in F. apply F, H1, C. now left. }
    assert (words (commas_to_spaces fields) = split_on "," fields) as Ew.
    { rewrite words_pieces. clear -Hv. induction (split_on "," fields) as [|p l IH]; [reflexivity|]. cbn. rewrite words_valid by (apply Hv; now left). cbn. f_equal. apply IH. intros; apply Hv; now right. }
    rewrite Ew in *. split; [exact Hn|]. split; [intros ->; cbn in H2; now apply (split_not_nil "," fields)|]. rewrite H2. split; [symmetry; apply concat_split|]. split; [exact F|]. split; [exact ND|].
    rewrite Forall_forall in *. intros p Hp. assert (In (fst p) (split_on "," fields)) as HI by (rewrite <- H2; now apply in_map). destruct (Hd _ HI) as (v & Ev). specialize (H3 p Hp). rewrite (A _ v HI Ev) in H3. congruence.
  - intros (Hn & Hr & -> & F & ND & FV). set (fs := map fst r) in *. assert (fs <> []) as Nf by (unfold fs; destruct r; [congruence|discriminate]).
    assert (Forall plain fs) as FP by (eapply Forall_impl; [|exact F]; intros x [Hx _]; now apply valid_plain). rewrite (split_concat fs Nf FP).
    destruct (compr_ok fs []) as (kw & Ek & A & _ & C). { intros x Hx. apply in_map_iff in Hx as (p & <- & Hp). rewrite Forall_forall in FV. eexists. now apply FV. }
    match goal with |- bind ?X _ = _ => replace X with (Ok kw) by (symmetry; exact Ek) end. cbn [bind]. assert (namedtuple name (String.concat "," fs) = Ok fs) as ->.
    { apply namedtuple_ok. split; [|auto]. rewrite words_pieces, (split_concat fs Nf FP). clear -F. induction F as [|p l [P _] F IH]; [reflexivity|]. cbn. rewrite words_valid by auto. cbn. now f_equal. }
    cbn [bind]. apply call_ok; [exact ND|]. split; [intros x Hx; apply C in Hx as [Hx|[]]; exact Hx|]. split; [reflexivity|]. rewrite Forall_forall in *. intros p Hp. apply A; [unfold fs; now apply in_map|now apply FV].
Qed.
(** a key that is missing is a KeyError, whatever else is wrong *)
Theorem C95_nametuple_missing name fields x : In x (split_on "," fields) -> ~ In x (map fst d) -> nametuple name fields d = Err KeyError.
Proof.
  intros HI Nx. unfold nametuple. rewrite (compr_bad _ x (Ok []) HI); [reflexivity| |discriminate]. apply dget_key. intros v E. apply Nx. clear -E. induction d as [|[y w] d' IH]; [discriminate|]. cbn in *. destruct (String.eqb_spec x y); auto.
Qed.
(** make_namedtuple and NamedTuple read the fields in order; other entries are ignored, a missing one is a KeyError resp. None *)
Theorem C95_make_namedtuple fields : (forall r, make_namedtuple fields d = Ok r <-> map fst r = fields /\ Forall (fun p => dget String.eqb d (fst p) = Ok (snd p)) r) /\
  ((exists f, In f fields /\ ~ In f (map fst d)) <-> make_namedtuple fields d = Err KeyError) /\
  map fst (this_tuple fields d) = fields /\ (forall f v, In (f, Some v) (this_tuple fields d) <-> In f fields /\ dget String.eqb d f = Ok v) /\ (forall f, In (f, None) (this_tuple fields d) <-> In f fields /\ ~ In f (map fst d)).
Proof.
  assert (forall x, ~ In x (map fst d) <-> dget String.eqb d x = Err KeyError) as KE.
  { intro x. split; [intro N; apply dget_key; intros v E; apply N; clear -E; induction d as [|[y w] d' IH]; [discriminate|]; cbn in *; destruct (String.eqb_spec x y); auto|]. intros E X. apply dget_some in X as (v & Ev). congruence. }
  split; [|split; [|split; [|split]]].
  - induction fields as [|f fs IH]; intro r; cbn; [split; [intros [= <-]; auto|intros [H _]; destruct r; [reflexivity|discriminate]]|]. split.
    + intro H. destruct (dget String.eqb d f) as [v|] eqn:Ev; [|discriminate]. cbn in H. destruct (make_namedtuple fs d) as [l|] eqn:El; [|discriminate]. cbn in H. injection H as <-. destruct (Logic.proj1 (IH l) eq_refl) as [H1 H2]. cbn. split; [congruence|]. constructor; auto.
    + intros [H1 H2]. destruct r as [|[x v] r]; [discriminate|]. cbn in H1. injection H1 as -> H1. inversion H2 as [|? ? Hv Hr]. cbn in Hv. subst. rewrite Hv. cbn. now rewrite (Logic.proj2 (IH r) (conj eq_refl Hr)).
  - induction fields as [|f fs IH]; cbn; [split; [intros (f & [] & _)|discriminate]|]. destruct (dget String.eqb d f) as [v|e] eqn:Ev; cbn.
    + transitivity (make_namedtuple fs d = Err KeyError); [rewrite <- IH|destruct (make_namedtuple fs d); cbn; [split; discriminate|reflexivity]]. split; intros (g & Hg & Ng); exists g; [|tauto]. destruct Hg as [<-|Hg]; [|tauto]. apply KE in Ng. congruence.
    + assert (e = KeyError) as ->. { rewrite dget_key in Ev by congruence. congruence. } split; [reflexivity|]. intros _. exists f. split; [now left|]. now apply KE.
  - unfold this_tuple. rewrite map_map. cbn. apply map_id.
  - intros f v. unfold this_tuple. rewrite in_map_iff. split.
    + intros (g & E & Hg). injection E as <- E. split; [exact Hg|]. destruct (dget String.eqb d g); congruence.
    + intros [Hf E]. exists f. now rewrite E.
  - intro f. unfold this_tuple. rewrite in_map_iff. rewrite KE. split.
    + intros (g & E & Hg). injection E as <- E. split; [exact Hg|]. apply dget_key. intros v Ev. now rewrite Ev in E.
    + intros [Hf E]. exists f. now rewrite E.
Qed.
End NT.
(** set_attributes and set_dictionary store every field and nothing else; make_namedtuple reads the tuple back *)
Theorem C95_set_fields {V} (obj : dict string V) nt : NoDup (map fst nt) ->
  (forall f v, In (f, v) nt -> dget String.eqb (set_fields obj nt) f = Ok v) /\ (forall f, ~ In f (map fst nt) -> dget String.eqb (set_fields obj nt) f = dget String.eqb obj f) /\ make_namedtuple (map fst nt) (set_fields obj nt) = Ok nt.
Proof.
  intro ND. assert (forall f v, In (f, v) nt -> dget String.eqb (set_fields obj nt) f = Ok v) as A.
  { intros f v HI. unfold set_fields. rewrite dget_stores by exact String.eqb_spec. apply in_split in HI as (pre & post & ->). rewrite (find_last _ String.eqb_spec); [reflexivity|]. rewrite map_app in ND. apply NoDup_remove_2 in ND. intro X. apply ND. cbn. apply in_or_app. now right. }
  split; [exact A|]. split.
  - intros f Hf. unfold set_fields. rewrite dget_stores by exact String.eqb_spec. rewrite (find_none _ String.eqb_spec); [reflexivity|]. rewrite map_rev. intro X. apply Hf. now apply in_rev.
  - apply (C95_make_namedtuple (set_fields obj nt) (map fst nt)). split; [reflexivity|]. apply Forall_forall. intros [f v] Hp. now apply A.
Qed.

(** ** multiple dispatch *)
Lemma keyz_spec a b : reflect (a = b) (keyz_eqb a b).
Proof. revert b. induction a as [|x a IH]; intros [|y b]; cbn; try (constructor; congruence). destruct (Z.eqb_spec x y); cbn; [|constructor; congruence]. destruct (IH b); constructor; congruence. Qed.
(** register(f, *key)(fn) for every pair of regs, in order *)
Definition register_all {X} (regs : list (list Z * (list X -> res X))) : multi X := fold_left (fun m p => register m (fst p) (snd p)) regs multi_new.
Lemma register_table {X} (regs : list (list Z * (list X -> res X))) d : d <> [] -> dget keyz_eqb (m_table (register_all regs)) d = match find (fun p => keyz_eqb d (fst p)) (rev regs) with Some p => Ok (snd p) | None => Err KeyError end.
Proof.
  intro Hd. unfold register_all. induction regs as [|[k fn] regs IH] using rev_ind; [reflexivity|]. rewrite fold_left_app, rev_unit. cbn [fold_left find fst snd]. unfold register at 1. destruct k as [|x k].
  - cbn [m_table]. destruct (keyz_spec d []); [congruence|exact IH].
  - cbn [m_table]. rewrite (dget_dset _ keyz_spec). destruct (keyz_eqb d (x :: k)); [reflexivity|exact IH].
Qed.
Lemma register_table_nil {X} (regs : list (list Z * (list X -> res X))) : dget keyz_eqb (m_table (register_all regs)) [] = Err KeyError.
Proof.
  unfold register_all. induction regs as [|[k fn] regs IH] using rev_ind; [reflexivity|]. rewrite fold_left_app. cbn [fold_left fst snd]. unfold register at 1. destruct k as [|x k]; [exact IH|]. cbn [m_table]. rewrite (dget_dset _ keyz_spec). exact IH.
Qed.
(** a call uses the function registered last under exactly the degrees of its arguments; there is no fallback: the function registered without a key is never called *)
Theorem C95_dispatch {X F} (T : Z -> X -> res F) disp (regs : list (list Z * (list X -> res X))) args :
  (forall e, disp (map fst args) = Err e -> multi_call T disp (register_all regs) args = Err e) /\
  (forall d_ pre fn post, disp (map fst args) = Ok d_ -> args <> [] -> regs = pre ++ (map fst args, fn) :: post -> ~ In (map fst args) (map fst post) ->
     multi_call T disp (register_all regs) args = bind (fn (map snd args)) (T d_)) /\
  (forall d_, disp (map fst args) = Ok d_ -> args = [] \/ ~ In (map fst args) (map fst regs) -> multi_call T disp (register_all regs) args = Err KeyError).
Proof.
  unfold multi_call. split; [intros e ->; reflexivity|]. split.
  - intros d_ pre fn post -> Ha -> Hp. cbn [bind]. rewrite register_table by (destruct args; [congruence|discriminate]). now rewrite (find_last _ keyz_spec).
  - intros d_ -> [->|H]; cbn [bind]; [cbn [map]; now rewrite register_table_nil|]. destruct (list_eq_dec Z.eq_dec (map fst args) []) as [E|E]; [rewrite E; now rewrite register_table_nil|]. rewrite register_table by exact E.
    rewrite (find_none _ keyz_spec); [reflexivity|]. rewrite map_rev. intro Y. apply H. now apply in_rev.
Qed.
(** assignfunctionto: every key holds the function assigned to it last *)
Theorem C95_assign {K V} (eqb : K -> K -> bool) (l : list (K * V)) k : (forall a b, reflect (a = b) (eqb a b)) ->
  let d := fold_left (fun d p => assign eqb d (fst p) (snd p)) l [] in
  (forall pre f post, l = pre ++ (k, f) :: post -> ~ In k (map fst post) -> dget eqb d k = Ok f) /\ (~ In k (map fst l) -> dget eqb d k = Err KeyError).
Proof.
  intros H d. unfold d, assign. split.
  - intros pre f post -> Hp. rewrite (dget_stores _ H), (find_last _ H) by auto. reflexivity.
  - intro Hk. rewrite (dget_stores _ H), (find_none _ H); [reflexivity|]. rewrite map_rev. intro Y. apply Hk. now apply in_rev.
Qed.
Example C95_instance : nametuple "Point" "x,y" [("x", 1); ("y", 2); ("z", 3)]%nat = Ok [("x", 1); ("y", 2)]%nat /\ (forall r, nametuple "Point" "x, y" [("x", 1); ("y", 2)]%nat <> Ok r) /\
  make_namedtuple ["x"; "y"] [("x", 1); ("y", 2); ("z", 3)]%nat = Ok [("x", 1); ("y", 2)]%nat /\ bunch_getattr (bunch_of [("D", 1); ("items", 2)]%nat) "D" = Ok (Item 1%nat) /\
  bunch_getattr (bunch_of [("D", 1); ("items", 2)]%nat) "items" = Ok (ClassAttr "items") /\ bunch_getattr (bunch_of [("D", 1)]%nat) "E" = Err KeyError /\
  (let wedge := register_all [([0; 0]%Z, fun c => Ok (1%nat :: List.concat c)); ([], fun c => Ok [9%nat]); ([0; 0]%Z, fun c => Ok (2%nat :: List.concat c))] in
   let T (d : Z) (c : list nat) := Ok (d, c) in let sum l := Ok (fold_left Z.add l 0%Z) in
   multi_call T sum wedge [(0%Z, [5%nat]); (0%Z, [7%nat])] = Ok (0%Z, [2; 5; 7]%nat) /\ multi_call T sum wedge [(0%Z, [5%nat]); (1%Z, [7%nat])] = Err KeyError).
Proof. split; [reflexivity|]. split; [intro r; vm_compute; discriminate|]. repeat (split; [reflexivity|]). split; vm_compute; reflexivity. Qed.

(** C87: [differentiation_toeplitz] raises a TypeError whatever the size ([raise NotImplemented] raises a
    constant that is not an exception), so it never returns a matrix *)
Theorem C87_differentiation_toeplitz_raises n : ~ (exists m, differentiation_toeplitz n = Ok m) /\ differentiation_toeplitz n = Err TypeError.
Proof. split; [|reflexivity]. intros (m & E). discriminate E. Qed.
