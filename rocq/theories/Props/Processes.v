(** C98: several processes sharing one memoization cache file: the transition system of Model/Processes.v. *)
From Coq Require Import ZArith Reals List String Arith Lia Bool.
From Verif Require Import Model.Num Model.Data Model.Processes Spec.Json Proofs.DataP Props.Data.
Import ListNotations.
Local Open Scope list_scope.

Section Processes.
Context {X : Type}.
Variables (process : X -> res X) (fin : X -> string) (fout : string -> res X) (name : path).
Local Notation pstep := (Model.Processes.pstep process fin fout name).
Local Notation prun := (Model.Processes.prun process fin fout name).
Local Notation content := (Model.Processes.content name).
Local Notation write_chunk := (Model.Processes.write_chunk name).

Definition nobody : nat -> pstate := fun _ => Idle.
Definition writing (ps : nat -> pstate) (i : nat) : Prop := match ps i with Writing _ _ => True | _ => False end.
(** no process opens the file for writing while another one has it open for writing *)
Fixpoint one_writer (w : world) (evs : list pevent) : Prop :=
  match evs with
  | [] => True
  | ev :: evs' => (forall i, ev = Open i -> forall j, ~ writing (snd w) j) /\ one_writer (fst (pstep w ev)) evs'
  end.
(** no process dies, or starts, while some process has the file open for writing *)
Fixpoint undisturbed (w : world) (evs : list pevent) : Prop :=
  match evs with
  | [] => True
  | ev :: evs' => (forall i, ev = Kill i -> ~ writing (snd w) i) /\ (forall i, ev = Start i -> forall j, ~ writing (snd w) j) /\ undisturbed (fst (pstep w ev)) evs'
  end.

(** ** a commit that nobody disturbs is the commit of the sequential model *)
Lemma upd_same ps i p : upd ps i p i = p. Proof. unfold upd. now rewrite Nat.eqb_refl. Qed.
Lemma upd_other ps i p j : j <> i -> upd ps i p j = ps j. Proof. intro H. unfold upd. destruct (Nat.eqb_spec j i); congruence. Qed.
Lemma write_at_end chunk old : write_at (List.length old) chunk old = old ++ chunk.
Proof. unfold write_at. rewrite Nat.sub_diag. cbn [repeat]. rewrite app_nil_r, firstn_all. rewrite skipn_all2 by lia. now rewrite app_nil_r. Qed.
Lemma firstn_more {A} pos k (t : list A) : firstn pos t ++ firstn k (skipn pos t) = firstn (pos + k) t.
Proof. revert t. induction pos as [|p IH]; intros [|a t]; cbn; auto; [now destruct k|]. now rewrite IH. Qed.
Lemma write_prefix m pos k s : (pos <= List.length (cache_text m))%nat -> content s = firstn pos (cache_text m) ->
  let pos' := (pos + List.length (firstn k (skipn pos (cache_text m))))%nat in
  (pos' <= List.length (cache_text m))%nat /\ write_chunk m pos k s = put name (File (firstn pos' (cache_text m))) s.
Proof.
  intros Hp Hc. cbv zeta. split; [rewrite firstn_length, skipn_length; lia|]. unfold write_chunk. do 2 f_equal. rewrite Hc.
  assert (List.length (firstn pos (cache_text m)) = pos) as L by (rewrite firstn_length; lia). rewrite <- L at 1. rewrite write_at_end. rewrite firstn_more.
  rewrite firstn_length, skipn_length. destruct (le_lt_dec k (List.length (cache_text m) - pos)) as [Hk|Hk].
  - now rewrite Nat.min_l.
  - rewrite Nat.min_r by lia. rewrite !firstn_all2 by lia. reflexivity.
Qed.
Lemma put_put p a b s : put p a (put p b s) = put p a s.
Proof.
  unfold put. f_equal. cbn [remove filter fst]. rewrite path_eqb_refl. cbn [negb]. unfold remove. 
  induction s as [|e s IH]; [reflexivity|]. cbn [filter]. destruct (negb (path_eqb p (fst e))) eqn:E; cbn [filter]; rewrite ?E; now rewrite IH.
Qed.
Lemma content_put ts s : content (put name (File ts) s) = ts.
Proof. unfold content. now rewrite find_put_same. Qed.

Theorem C98_undisturbed_commit s ps i m : storable name s -> ps i = Running m ->
  fst (fst (prun (s, ps) [Open i; Close i])) = memo_commit name m s.
Proof.
  intros Hs Hi. cbn [prun pstep]. rewrite Hi. destruct (changed m) eqn:Hc.
  - cbn [pstep]. rewrite upd_same. cbn [fst]. rewrite commit_storable by auto. unfold write_chunk. rewrite content_put, put_put. do 2 f_equal.
    cbn [skipn]. rewrite firstn_all. unfold write_at. cbn [firstn app]. rewrite skipn_nil. apply app_nil_r.
  - cbn [pstep]. rewrite upd_same. cbn [fst]. unfold memo_commit. now rewrite Hc.
Qed.

(** ** safety *)
(** the cache file cannot be read as JSON *)
Definition unreadable (s : fs) : Prop := getitem name s = Err ValueError.
Definition file_ok (s : fs) (ps : nat -> pstate) : Prop :=
  (exists i m pos, ps i = Writing m pos /\ (pos <= List.length (cache_text m))%nat /\ find name s = Some (File (firstn pos (cache_text m))) /\ forall j, j <> i -> ~ writing ps j) \/
  ((forall j, ~ writing ps j) /\ (right_file process fin fout name s \/ unreadable s)).
Definition mem_right (ps : nat -> pstate) : Prop := forall i m, (ps i = Running m \/ exists pos, ps i = Writing m pos) -> right_cache process fin fout (dct m).
Definition pinv (w : world) : Prop := storable name (fst w) /\ mem_right (snd w) /\ file_ok (fst w) (snd w).

Lemma text_right m : right_cache process fin fout (dct m) -> exists d, load (cache_text m) = Ok (JDict d) /\ right_cache process fin fout d.
Proof.
  intro Hm. destruct (load_commit (dct m)) as (d & El & Hl). exists d. split; [exact El|]. intros e j Hj. rewrite Hl in Hj. destruct (assoc (fin e) (dct m)) as [j'|] eqn:Ea; [|discriminate]. cbn in Hj. injection Hj as <-.
  destruct (Hm _ _ Ea) as (t & r & -> & Ht & Hp). exists t, r. repeat split; auto.
Qed.
Lemma prefix_unreadable m pos : (pos < List.length (cache_text m))%nat -> load (firstn pos (cache_text m)) = Err ValueError.
Proof.
  intro Hk. assert (exists l, cache_text m = fst (emit (VDict l))) as (l & Hl) by (eexists; reflexivity).
  rewrite <- (app_nil_r (firstn pos _)). apply (dict_prefix_not_loadable l _ (skipn pos (cache_text m)) []); [rewrite firstn_skipn; now symmetry| |now left].
  intro Es. apply (f_equal (@List.length token)) in Es. rewrite skipn_length in Es. cbn [List.length] in Es. lia.
Qed.
(** whatever the state, the file is right or unreadable *)
Lemma file_two w : pinv w -> right_file process fin fout name (fst w) \/ unreadable (fst w).
Proof.
  intros ((Hn & _) & Hm & [(i & m & pos & Hi & Hp & Hf & _)|(_ & H)]); [|exact H]. unfold unreadable, right_file. rewrite (getitem_file _ _ _ Hn Hf).
  destruct (le_lt_dec (List.length (cache_text m)) pos) as [L|L].
  - left. right. rewrite firstn_all2 by lia. apply text_right. apply (Hm i). right. eauto.
  - right. now apply prefix_unreadable.
Qed.
Lemma writing_upd_idle ps i j p : (match p with Writing _ _ => False | _ => True end) -> writing (upd ps i p) j -> writing ps j /\ j <> i.
Proof. intros Hp. unfold writing. destruct (Nat.eq_dec j i) as [->|N]; [rewrite upd_same; now destruct p|rewrite upd_other by auto; auto]. Qed.

Definition fine (o : answer) : Prop := match o with Answer _ e a _ => a = process e | NoImport _ x => x = ValueError end.
Hypothesis fout_fin : forall e r, process e = Ok r -> fout (fin r) = Ok r.
Hypothesis fin_inj : forall e e', fin e = fin e' -> process e = process e'.

Lemma file_ok_upd s ps i p : file_ok s ps -> (match ps i with Writing _ _ => False | _ => True end) -> (match p with Writing _ _ => False | _ => True end) -> file_ok s (upd ps i p).
Proof.
  intros [(k & m & pos & Hk & Hp & Hf & Ho)|(Ho & Hf)] Hi Hpp.
  - left. exists k, m, pos. assert (k <> i) by (intros ->; now rewrite Hk in Hi). rewrite upd_other by auto. repeat split; auto. intros j Hj W. apply writing_upd_idle in W as (W & _); [|exact Hpp]. now apply (Ho j).
  - right. split; [|exact Hf]. intros j W. apply writing_upd_idle in W as (W & _); [|exact Hpp]. now apply (Ho j).
Qed.
Lemma memo_call_right m e m' a : right_cache process fin fout (dct m) -> memo_call process fin fout m e = (m', a) -> a = process e /\ right_cache process fin fout (dct m').
Proof.
  intros Hm Ec. unfold memo_call in Ec. rewrite jlookup_assoc in Ec. destruct (assoc (fin e) (dct m)) as [j|] eqn:Ea.
  - destruct (Hm _ _ Ea) as (t & r & -> & Ht & Hp). injection Ec as <- <-. split; [congruence|exact Hm].
  - destruct (process e) as [r|x] eqn:Ep; injection Ec as <- <-; [|auto]. split; [reflexivity|]. intros e' j. cbn [dct assoc]. destruct (String.eqb_spec (fin e') (fin e)) as [Ee|].
    + intro Ej. injection Ej as <-. exists (fin r), r. repeat split; [eapply fout_fin; eauto|]. now rewrite (fin_inj _ _ Ee).
    + apply Hm.
Qed.
Lemma mem_right_upd ps i p : mem_right ps -> (forall m, (p = Running m \/ exists pos, p = Writing m pos) -> right_cache process fin fout (dct m)) -> mem_right (upd ps i p).
Proof. intros Hm Hp j m. destruct (Nat.eq_dec j i) as [->|N]; [rewrite upd_same; apply Hp|rewrite upd_other by auto; apply Hm]. Qed.
Lemma pinv_step w ev : pinv w -> (forall i, ev = Open i -> forall j, ~ writing (snd w) j) -> pinv (fst (pstep w ev)) /\ Forall fine (snd (pstep w ev)).
Proof.
  intros HI Ho. pose proof (file_two w HI) as F2. destruct w as [s ps]. cbn [fst snd] in F2, Ho. assert (HI' := HI). destruct HI as (Hs & Hm & Hf). cbn [fst snd] in Hs, Hm, Hf.
  destruct ev as [i|i e|i|i k|i|i]; cbn [pstep].
  - destruct (ps i) as [|m|m pos] eqn:Hi; [|split; [exact HI'|constructor]|split; [exact HI'|constructor]]. destruct F2 as [F2|F2].
    + destruct (start_right process fin fout name s F2) as (m & -> & Hr). cbn [fst snd]. split; [|constructor]. split; [exact Hs|]. split; cbn [fst snd].
      * apply mem_right_upd; [exact Hm|]. intros m' [E|(pos & E)]; [injection E as <-; exact Hr|discriminate].
      * apply file_ok_upd; [exact Hf|now rewrite Hi|exact I].
    + unfold memo_start. unfold unreadable in F2. rewrite F2. cbn [fst snd]. split; [exact HI'|]. constructor; [reflexivity|constructor].
  - destruct (ps i) as [|m|m pos] eqn:Hi; [split; [exact HI'|constructor]| |split; [exact HI'|constructor]]. destruct (memo_call process fin fout m e) as [m' a] eqn:Ec.
    destruct (memo_call_right _ _ _ _ (Hm i m (or_introl Hi)) Ec) as (Ha & Hm'). cbn [fst snd]. split; [|constructor; [exact Ha|constructor]]. split; [exact Hs|]. split; cbn [fst snd].
    + apply mem_right_upd; [exact Hm|]. intros m2 [E|(pos & E)]; [injection E as <-; exact Hm'|discriminate].
    + apply file_ok_upd; [exact Hf|now rewrite Hi|exact I].
  - destruct (ps i) as [|m|m pos] eqn:Hi; [split; [exact HI'|constructor]| |split; [exact HI'|constructor]]. destruct (changed m); cbn [fst snd]; (split; [|constructor]).
    + split; [now apply storable_put|]. split; cbn [fst snd].
      * apply mem_right_upd; [exact Hm|]. intros m2 [E|(pos & E)]; [discriminate|injection E as <- _; apply (Hm i); auto].
      * left. exists i, m, 0%nat. rewrite upd_same. split; [reflexivity|]. split; [lia|]. split; [apply find_put_same|]. intros j Hj W. unfold writing in W. rewrite upd_other in W by exact Hj. now apply (Ho i eq_refl j).
    + split; [exact Hs|]. split; cbn [fst snd]; [apply mem_right_upd; [exact Hm|]; intros m2 [E|(pos & E)]; discriminate|]. apply file_ok_upd; [exact Hf|now rewrite Hi|exact I].
  - destruct (ps i) as [|m|m pos] eqn:Hi; [split; [exact HI'|constructor]|split; [exact HI'|constructor]|]. cbn [fst snd]. split; [|constructor].
    destruct Hf as [(k2 & m2 & pos2 & Hk & Hp & Hf & Hoth)|(Hnw & _)]; [|exfalso; apply (Hnw i); unfold writing; now rewrite Hi].
    assert (k2 = i) as -> by (destruct (Nat.eq_dec k2 i) as [|N]; [assumption|exfalso; apply (Hoth i); [congruence|unfold writing; now rewrite Hi]]). rewrite Hi in Hk. injection Hk as <- <-.
    assert (content s = firstn pos (cache_text m)) as Hc by (unfold content; now rewrite Hf). destruct (write_prefix m pos k s Hp Hc) as (Hp' & ->).
    split; [now apply storable_put|]. split; cbn [fst snd].
    + apply mem_right_upd; [exact Hm|]. intros m2 [E|(p2 & E)]; [discriminate|injection E as <- _; apply (Hm i); eauto].
    + left. eexists i, m, _. rewrite upd_same. split; [reflexivity|]. split; [exact Hp'|]. split; [apply find_put_same|]. intros j Hj W. unfold writing in W. rewrite upd_other in W by exact Hj. now apply (Hoth j).
  - destruct (ps i) as [|m|m pos] eqn:Hi; [split; [exact HI'|constructor]|split; [exact HI'|constructor]|]. cbn [fst snd]. split; [|constructor].
    destruct Hf as [(k2 & m2 & pos2 & Hk & Hp & Hf & Hoth)|(Hnw & _)]; [|exfalso; apply (Hnw i); unfold writing; now rewrite Hi].
    assert (k2 = i) as -> by (destruct (Nat.eq_dec k2 i) as [|N]; [assumption|exfalso; apply (Hoth i); [congruence|unfold writing; now rewrite Hi]]). rewrite Hi in Hk. injection Hk as <- <-.
    assert (content s = firstn pos (cache_text m)) as Hc by (unfold content; now rewrite Hf). destruct (write_prefix m pos (List.length (cache_text m)) s Hp Hc) as (Hp' & ->).
    split; [now apply storable_put|]. split; cbn [fst snd].
    + apply mem_right_upd; [exact Hm|]. intros m2 [E|(p2 & E)]; discriminate.
    + right. split; [intros j W; apply writing_upd_idle in W as (W & N); [|exact I]; now apply (Hoth j)|]. left. right.
      rewrite (getitem_file name _ _ (Logic.proj1 Hs) (find_put_same _ _ _)). rewrite firstn_all2 by (rewrite firstn_length, skipn_length; lia). apply text_right. apply (Hm i). eauto.
  - cbn [fst snd]. split; [|constructor]. split; [exact Hs|]. split; cbn [fst snd]; [apply mem_right_upd; [exact Hm|]; intros m2 [E|(p2 & E)]; discriminate|].
    destruct Hf as [(k2 & m2 & pos2 & Hk & Hp & Hf & Hoth)|(Hnw & Hf)].
    + destruct (Nat.eq_dec k2 i) as [->|N].
      * right. split; [intros j W; apply writing_upd_idle in W as (W & Nj); [|exact I]; now apply (Hoth j)|]. exact F2.
      * left. exists k2, m2, pos2. rewrite upd_other by auto. repeat split; auto. intros j Hj W. apply writing_upd_idle in W as (W & _); [|exact I]. now apply (Hoth j).
    + right. split; [|exact Hf]. intros j W. apply writing_upd_idle in W as (W & _); [|exact I]. now apply (Hnw j).
Qed.
Lemma pinv_run evs : forall w, pinv w -> one_writer w evs -> pinv (fst (prun w evs)) /\ Forall fine (snd (prun w evs)).
Proof.
  induction evs as [|ev evs IH]; intros w HI Ho; [split; [exact HI|constructor]|]. destruct Ho as (Ho & Ho'). destruct (pinv_step w ev HI Ho) as (HI' & Hf). cbn [prun].
  destruct (pstep w ev) as [w1 o1]. cbn [fst snd] in *. destruct (IH w1 HI' Ho') as (I1 & I2). destruct (prun w1 evs) as [w2 o2]. cbn [fst snd] in *. split; [exact I1|]. apply Forall_app. auto.
Qed.
Lemma pinv_start s : storable name s -> right_file process fin fout name s -> pinv (s, nobody).
Proof.
  intros Hs Hf. split; [exact Hs|]. split; cbn [fst snd]; [intros i m [E|(pos & E)]; discriminate|]. right. split; [intros j W; exact W|]. now left.
Qed.
(** Any number of processes, any interleaving of imports, calls, chunks of writes, normal ends and deaths,
    provided no two processes have the file open for writing at the same time: every call returns (or raises)
    what the function does; an import can fail, but only with ValueError; the file never holds a wrong entry. *)
Theorem C98_never_a_wrong_answer s evs w outs : storable name s -> right_file process fin fout name s -> one_writer (s, nobody) evs ->
  prun (s, nobody) evs = (w, outs) ->
  Forall (fun o => match o with Answer _ e a _ => a = process e | NoImport _ x => x = ValueError end) outs /\
  (right_file process fin fout name (fst w) \/ getitem name (fst w) = Err ValueError).
Proof.
  intros Hs Hf Ho E. destruct (pinv_run evs _ (pinv_start s Hs Hf) Ho) as (HI & Hfi). rewrite E in HI, Hfi. cbn [fst snd] in *. split; [exact Hfi|]. exact (file_two w HI).
Qed.
(** if moreover nobody starts or dies during a write, no import fails, and between writes the file is right *)
Definition right_between (w : world) : Prop := (forall j, ~ writing (snd w) j) -> right_file process fin fout name (fst w).
Lemma between_step w ev : pinv w -> right_between w -> (forall i, ev = Open i -> forall j, ~ writing (snd w) j) ->
  (forall i, ev = Kill i -> ~ writing (snd w) i) -> (forall i, ev = Start i -> forall j, ~ writing (snd w) j) ->
  right_between (fst (pstep w ev)) /\ Forall (fun o => match o with NoImport _ _ => False | _ => True end) (snd (pstep w ev)).
Proof.
  intros HI HR Ho Hk Hst. destruct w as [s ps]. cbn [fst snd] in *. assert (HI' := HI). destruct HI as (Hs & Hm & Hf). cbn [fst snd] in Hs, Hm, Hf. unfold right_between in *. cbn [fst snd] in HR.
  assert (forall i p, ~ writing ps i -> (forall j, ~ writing (upd ps i p) j) -> right_file process fin fout name s) as K.
  { intros i p Hi H. apply HR. intros j W. destruct (Nat.eq_dec j i) as [->|N]; [contradiction|]. apply (H j). unfold writing. now rewrite upd_other. }
  destruct ev as [i|i e|i|i k|i|i]; cbn [pstep].
  - destruct (ps i) as [|m|m pos] eqn:Hi; [|split; [exact HR|constructor]|split; [exact HR|constructor]].
    destruct (start_right process fin fout name s (HR (Hst i eq_refl))) as (m & -> & Hr). cbn [fst snd]. split; [|constructor]. apply K. unfold writing. now rewrite Hi.
  - destruct (ps i) as [|m|m pos] eqn:Hi; [split; [exact HR|constructor]| |split; [exact HR|constructor]]. destruct (memo_call process fin fout m e) as [m' a]. cbn [fst snd]. split; [|constructor; [exact I|constructor]]. apply K. unfold writing. now rewrite Hi.
  - destruct (ps i) as [|m|m pos] eqn:Hi; [split; [exact HR|constructor]| |split; [exact HR|constructor]]. destruct (changed m); cbn [fst snd]; (split; [|constructor]).
    + intro H. exfalso. apply (H i). unfold writing. now rewrite upd_same.
    + apply K. unfold writing. now rewrite Hi.
  - destruct (ps i) as [|m|m pos] eqn:Hi; [split; [exact HR|constructor]|split; [exact HR|constructor]|]. cbn [fst snd]. split; [|constructor]. intro H. exfalso. apply (H i). unfold writing. now rewrite upd_same.
  - destruct (ps i) as [|m|m pos] eqn:Hi; [split; [exact HR|constructor]|split; [exact HR|constructor]|]. cbn [fst snd]. split; [|constructor]. intros _.
    destruct Hf as [(k2 & m2 & pos2 & Hk2 & Hp & Hf & Hoth)|(Hnw & _)]; [|exfalso; apply (Hnw i); unfold writing; now rewrite Hi].
    assert (k2 = i) as -> by (destruct (Nat.eq_dec k2 i) as [|N]; [assumption|exfalso; apply (Hoth i); [congruence|unfold writing; now rewrite Hi]]). rewrite Hi in Hk2. injection Hk2 as <- <-.
    assert (content s = firstn pos (cache_text m)) as Hc by (unfold content; now rewrite Hf). destruct (write_prefix m pos (List.length (cache_text m)) s Hp Hc) as (Hp' & ->). right.
    rewrite (getitem_file name _ _ (Logic.proj1 Hs) (find_put_same _ _ _)). rewrite firstn_all2 by (rewrite firstn_length, skipn_length; lia). apply text_right. apply (Hm i). eauto.
  - cbn [fst snd]. split; [|constructor]. apply K. now apply Hk.
Qed.
Theorem C98_no_failed_import s evs w outs : storable name s -> right_file process fin fout name s -> one_writer (s, nobody) evs -> undisturbed (s, nobody) evs ->
  prun (s, nobody) evs = (w, outs) ->
  Forall (fun o => match o with Answer _ e a _ => a = process e | NoImport _ _ => False end) outs /\
  ((forall j, ~ writing (snd w) j) -> right_file process fin fout name (fst w)).
Proof.
  intros Hs Hf Ho Hu E.
  assert (forall evs w, pinv w -> right_between w -> one_writer w evs -> undisturbed w evs -> right_between (fst (prun w evs)) /\ Forall (fun o => match o with NoImport _ _ => False | _ => True end) (snd (prun w evs))) as K.
  { clear E Ho Hu w outs evs. induction evs as [|ev evs IH]; intros w HI HR Ho Hu; [split; [exact HR|constructor]|]. destruct Ho as (Ho & Ho'), Hu as (Hu1 & Hu2 & Hu').
    destruct (pinv_step w ev HI Ho) as (HI' & _). destruct (between_step w ev HI HR Ho Hu1 Hu2) as (HR' & Hn). cbn [prun]. destruct (pstep w ev) as [w1 o1]. cbn [fst snd] in *.
    destruct (IH w1 HI' HR' Ho' Hu') as (I1 & I2). destruct (prun w1 evs) as [w2 o2]. cbn [fst snd] in *. split; [exact I1|]. apply Forall_app. auto. }
  destruct (K evs _ (pinv_start s Hs Hf) (fun _ => Hf) Ho Hu) as (K1 & K2). destruct (C98_never_a_wrong_answer s evs w outs Hs Hf Ho E) as (A & _). rewrite E in K1, K2. cbn [fst snd] in *. split; [|exact K1].
  rewrite Forall_forall in *. intros o Hin. specialize (A o Hin). specialize (K2 o Hin). destruct o; auto.
Qed.
End Processes.

Section More.
Context {X : Type}.
Variables (process : X -> res X) (fin : X -> string) (fout : string -> res X) (name : path).
(** An import during somebody's unfinished write fails: whatever was there before and however much of the text has
    been written, as long as it is not all of it. *)
Theorem C98_import_during_write_fails s ps i j m k : storable name s -> ps i = Running m -> changed m = true -> j <> i -> ps j = Idle ->
  (k < List.length (cache_text m))%nat ->
  exists w, prun process fin fout name (s, ps) [Open i; Write i k; Start j] = (w, [NoImport j ValueError]).
Proof.
  intros Hs Hi Hc Hj Hjd Hk. cbn [prun pstep]. rewrite Hi, Hc. cbn [pstep]. rewrite upd_same. cbn [pstep]. rewrite !upd_other by exact Hj. rewrite Hjd.
  destruct (write_prefix name m 0 k (put name (File []) s) (Nat.le_0_l _)) as (_ & E); [now rewrite content_put|]. rewrite E, put_put.
  unfold memo_start. rewrite (getitem_file name _ _ (Logic.proj1 Hs) (find_put_same _ _ _)). cbn [skipn Nat.add]. rewrite firstn_length, Nat.min_l by lia. rewrite prefix_unreadable by exact Hk.
  eexists. cbn [app]. reflexivity.
Qed.
(** The last one to end wins: after an undisturbed commit with something new, the file holds exactly the keys of that
    process's dictionary.  What other processes have stored in the meantime is gone, whatever it was. *)
Theorem C98_last_commit_wins s ps i m : storable name s -> ps i = Running m -> changed m = true ->
  exists d, getitem name (fst (fst (prun process fin fout name (s, ps) [Open i; Close i]))) = Ok (JDict d) /\
    forall k, assoc k d = None <-> assoc k (dct m) = None.
Proof.
  intros Hs Hi Hc. rewrite (C98_undisturbed_commit process fin fout name s ps i m Hs Hi). rewrite commit_storable by auto.
  destruct (load_commit (dct m)) as (d & El & Hl). exists d. split; [rewrite (getitem_file name (cache_text m)); [exact El|apply Hs|apply find_put_same]|].
  intro k. rewrite Hl. destruct (assoc k (dct m)); cbn; split; congruence.
Qed.
(** A process never drops what it has read: everything in the file at its start is in its dictionary as long as it runs,
    whatever the others do in between; so its commit keeps it. *)
Theorem C98_keeps_what_it_read s ps i d evs m w outs : ps i = Idle -> getitem name s = Ok (JDict d) ->
  prun process fin fout name (s, ps) (Start i :: evs) = (w, outs) -> Forall (fun ev => ev <> Kill i /\ ev <> Open i) evs ->
  snd w i = Running m -> forall k j, assoc k d = Some j -> assoc k (dct m) = Some j.
Proof.
  intros Hi Hg E Hev Hm k j Hk. cbn [prun pstep] in E. rewrite Hi in E. unfold memo_start in E. rewrite Hg in E.
  destruct (prun process fin fout name _ evs) as [w2 o2] eqn:Er in E. injection E as <- <-.
  assert (forall evs w, Forall (fun ev => ev <> Kill i /\ ev <> Open i) evs -> (exists m, snd w i = Running m /\ assoc k (dct m) = Some j) ->
    exists m, snd (fst (prun process fin fout name w evs)) i = Running m /\ assoc k (dct m) = Some j) as K.
  { clear. induction evs as [|ev evs IH]; intros w Hev Hw; [exact Hw|]. inversion Hev as [|? ? (He1 & He2) Hev']; subst. cbn [prun].
    assert (exists m, snd (fst (pstep process fin fout name w ev)) i = Running m /\ assoc k (dct m) = Some j) as Hw'.
    { destruct Hw as (m & Hm & Hk). destruct w as [s ps]. cbn [snd] in Hm.
      assert (forall i' p, i' <> i -> upd ps i' p i = ps i) as U by (intros; apply upd_other; auto).
      destruct ev as [i'|i' e|i'|i' n|i'|i']; cbn [pstep];
        (destruct (Nat.eq_dec i' i) as [->|N]; [try (rewrite Hm)|]).
      - cbn [fst snd]. eauto.
      - destruct (ps i'); cbn [fst snd]; eauto. destruct (memo_start name s); cbn [fst snd]; rewrite ?U by auto; eauto.
      - destruct (memo_call process fin fout m e) as [m' a] eqn:Ec. cbn [fst snd]. rewrite upd_same. eexists. split; [reflexivity|].
        unfold memo_call in Ec. rewrite jlookup_assoc in Ec. destruct (assoc (fin e) (dct m)) as [j'|] eqn:Ea.
        + destruct j'; injection Ec as <- <-; exact Hk.
        + destruct (process e); injection Ec as <- <-; [|exact Hk]. cbn [dct assoc]. destruct (String.eqb_spec k (fin e)); [congruence|exact Hk].
      - destruct (ps i'); cbn [fst snd]; eauto. destruct (memo_call process fin fout m0 e); cbn [fst snd]; rewrite ?U by auto; eauto.
      - congruence.
      - destruct (ps i'); cbn [fst snd]; eauto. destruct (changed m0); cbn [fst snd]; rewrite ?U by auto; eauto.
      - cbn [fst snd]. eauto.
      - destruct (ps i'); cbn [fst snd]; rewrite ?U by auto; eauto.
      - cbn [fst snd]. eauto.
      - destruct (ps i'); cbn [fst snd]; rewrite ?U by auto; eauto.
      - congruence.
      - cbn [fst snd]. rewrite ?U by auto; eauto. }
    destruct (pstep process fin fout name w ev) as [w1 o1]. cbn [fst] in Hw'. specialize (IH w1 Hev' Hw'). destruct (prun process fin fout name w1 evs) as [w2 o2]. exact IH. }
  specialize (K evs (s, upd ps i (Running (MkMem d false []))) Hev). cbn [snd] in K. rewrite upd_same, Er in K. destruct K as (m' & Hm' & Hk'); [eauto|]. cbn [fst] in Hm'. congruence.
Qed.
(** A torn write is repaired by any process that had already started: when it ends with something new, the file is whole again. *)
Theorem C98_running_process_repairs s ps i j m m' k : storable name s -> i <> j -> ps i = Running m -> ps j = Running m' -> changed m = true -> changed m' = true ->
  (k < List.length (cache_text m))%nat ->
  let w1 := fst (prun process fin fout name (s, ps) [Open i; Write i k; Kill i]) in
  let w2 := fst (prun process fin fout name w1 [Open j; Close j]) in
  getitem name (fst w1) = Err ValueError /\ exists d, getitem name (fst w2) = Ok (JDict d) /\ forall k, assoc k d = None <-> assoc k (dct m') = None.
Proof.
  intros Hs Hij Hi Hj Hc Hc' Hk. cbv zeta. assert (fst (prun process fin fout name (s, ps) [Open i; Write i k; Kill i]) = (put name (File (firstn k (cache_text m))) s, upd (upd (upd ps i (Writing m 0)) i (Writing m (0 + List.length (firstn k (skipn 0 (cache_text m)))))) i Idle)) as E.
  { cbn [prun pstep]. rewrite Hi, Hc. cbn [pstep]. rewrite upd_same. cbn [pstep fst]. f_equal.
    destruct (write_prefix name m 0 k (put name (File []) s) (Nat.le_0_l _)) as (_ & E); [now rewrite content_put|]. rewrite E, put_put. cbn [skipn Nat.add]. now rewrite firstn_length, Nat.min_l by lia. }
  rewrite E. split.
  - cbn [fst]. rewrite (getitem_file name _ _ (Logic.proj1 Hs) (find_put_same _ _ _)). now apply prefix_unreadable.
  - apply (C98_last_commit_wins _ _ j m'); [now apply storable_put| |exact Hc']. now rewrite !upd_other by auto.
Qed.
End More.

(** A concrete function (numerals as expressions): argument and result are the strings themselves. *)
Definition cprocess (e : string) : res string := if String.eqb e "c" then Err ValueError else Ok (String.append "v" e).
Definition cname : path := ["memoize"; "sin"]%string.
Definition cfs : fs := [(["memoize"%string], Dir)].
Local Open Scope string_scope.
(** Two processes that overlap in time: the later one to end removes what the earlier one had stored, and a third one
    computes it again, although every process ended normally and no two writes overlapped. *)
Theorem C98_lost_update_refuted : exists evs w outs,
  one_writer cprocess (fun e => e) (fun e => Ok e) cname (cfs, nobody) evs /\ undisturbed cprocess (fun e => e) (fun e => Ok e) cname (cfs, nobody) evs /\
  prun cprocess (fun e => e) (fun e => Ok e) cname (cfs, nobody) evs = (w, outs) /\
  outs = [Answer 1 "a" (Ok "va") true; Answer 2 "b" (Ok "vb") true; Answer 3 "b" (Ok "vb") false; Answer 3 "a" (Ok "va") true].
Proof.
  exists [Start 1; Start 2; PCall 1 "a"; PCall 2 "b"; Open 1; Close 1; Open 2; Close 2; Start 3; PCall 3 "b"; PCall 3 "a"].
  eexists. eexists. split; [|split; [|split; [reflexivity|reflexivity]]].
  - cbn [one_writer]. repeat (split; [intros i E; try discriminate; injection E as <-; intros [|[|[|[|j]]]]; vm_compute; tauto|]). exact I.
  - cbn [undisturbed]. repeat (split; [intros i E; try discriminate; injection E as <-; intros [|[|[|[|j]]]]; vm_compute; tauto|]). exact I.
Qed.
(** Two processes that have the file open for writing at the same time can leave a file that is well formed and wrong:
    process 1 empties it and writes its first entry's key, process 2 (which has other entries) empties it as well, writes
    everything, and then process 1 goes on at its own offset.  A later process is given a wrong answer, without any error,
    although nobody died.  So the restriction to one writer at a time in [C98_never_a_wrong_answer] cannot be dropped. *)
Theorem C98_overlapping_writes_refuted : exists evs w outs,
  prun cprocess (fun e => e) (fun e => Ok e) cname (cfs, nobody) evs = (w, outs) /\
  Forall (fun ev => match ev with Kill _ => False | _ => True end) evs /\
  In (Answer 3 "b" (Ok "va") false) outs /\ cprocess "b" = Ok "vb".
Proof.
  exists [Start 1; Start 2; PCall 1 "a"; PCall 2 "b"; Open 1; Write 1 2; Open 2; Close 2; Close 1; Start 3; PCall 3 "b"].
  eexists. eexists. split; [reflexivity|]. split; [repeat constructor|]. split; [cbn; auto 10|reflexivity].
Qed.
(** the hypotheses of the positive theorems are met: three processes, an import during a write, a death during a write *)
Example C98_instance : storable cname cfs /\ right_file cprocess (fun e => e) (fun e => Ok e) cname cfs /\
  (forall e r, cprocess e = Ok r -> (fun e => Ok e) ((fun e : string => e) r) = Ok r) /\
  let evs := [Start 1; PCall 1 "a"; PCall 1 "c"; Start 2; Open 1; Write 1 3; Start 3; PCall 2 "a"; Close 1; Start 3; PCall 3 "a"; Open 2; Write 2 1; Kill 2; Start 2; PCall 3 "b"; Open 3; Close 3; Start 2; PCall 2 "b"] in
  one_writer cprocess (fun e => e) (fun e => Ok e) cname (cfs, nobody) evs /\
  snd (prun cprocess (fun e => e) (fun e => Ok e) cname (cfs, nobody) evs) =
    [Answer 1 "a" (Ok "va") true; Answer 1 "c" (Err ValueError) true; NoImport 3 ValueError; Answer 2 "a" (Ok "va") true; Answer 3 "a" (Ok "va") false;
     NoImport 2 ValueError; Answer 3 "b" (Ok "vb") true; Answer 2 "b" (Ok "vb") false].
Proof.
  split; [repeat split; discriminate|]. split; [left; reflexivity|]. split; [reflexivity|]. cbv zeta. split; [|reflexivity].
  cbn [one_writer]. repeat (split; [intros i E; try discriminate; injection E as <-; intros [|[|[|[|j]]]]; vm_compute; tauto|]). exact I.
Qed.
