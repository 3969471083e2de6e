(** Lemmas about the JSON encoder/decoder and the file system. *)
From Coq Require Import ZArith Reals List String Arith Lia.
From Verif Require Import Model.Num Model.Data.
Import ListNotations.
Local Open Scope list_scope.

Section PyInd.
Variable P : pyval -> Prop.
Hypotheses (H1 : P VNone) (H2 : forall b, P (VBool b)) (H3 : forall r, P (VNum r)) (H4 : forall s, P (VStr s))
  (H5 : forall l, Forall P l -> P (VList l)) (H6 : forall l, Forall P l -> P (VTuple l)) (H7 : forall l, P (VArray l))
  (H8 : forall l, Forall (fun p => P (snd p)) l -> P (VDict l)) (H9 : P VObj).
Fixpoint pyval_ind' (v : pyval) : P v :=
  match v with
  | VNone => H1 | VBool b => H2 b | VNum r => H3 r | VStr s => H4 s
  | VList l => H5 l ((fix go l : Forall P l := match l with [] => Forall_nil _ | x :: l' => Forall_cons _ (pyval_ind' x) (go l') end) l)
  | VTuple l => H6 l ((fix go l : Forall P l := match l with [] => Forall_nil _ | x :: l' => Forall_cons _ (pyval_ind' x) (go l') end) l)
  | VArray l => H7 l
  | VDict l => H8 l ((fix go l : Forall (fun p => P (snd p)) l := match l with [] => Forall_nil _ | x :: l' => Forall_cons _ (pyval_ind' (snd x)) (go l') end) l)
  | VObj => H9
  end.
End PyInd.
Section JInd.
Variable P : json -> Prop.
Hypotheses (H1 : P JNull) (H2 : forall b, P (JBool b)) (H3 : forall r, P (JNum r)) (H4 : forall s, P (JStr s))
  (H5 : forall l, Forall P l -> P (JList l)) (H8 : forall l, Forall (fun p => P (snd p)) l -> P (JDict l)).
Fixpoint json_ind' (v : json) : P v :=
  match v with
  | JNull => H1 | JBool b => H2 b | JNum r => H3 r | JStr s => H4 s
  | JList l => H5 l ((fix go l : Forall P l := match l with [] => Forall_nil _ | x :: l' => Forall_cons _ (json_ind' x) (go l') end) l)
  | JDict l => H8 l ((fix go l : Forall (fun p => P (snd p)) l := match l with [] => Forall_nil _ | x :: l' => Forall_cons _ (json_ind' (snd x)) (go l') end) l)
  end.
End JInd.

(** the JSON value of an (already sorted) Python value *)
Fixpoint img (v : pyval) : json :=
  match v with
  | VNone => JNull | VBool b => JBool b | VNum r => JNum r | VStr s => JStr s
  | VList l | VTuple l => JList (map img l)
  | VArray l => JList (map JNum l)
  | VDict l => JDict (map (fun p => (fst p, img (snd p))) l)
  | VObj => JNull
  end.

Lemma seqo_ok a b : snd (seqo a b) = true -> snd a = true /\ snd b = true /\ fst (seqo a b) = fst a ++ fst b.
Proof. unfold seqo. destruct a as [x []], b as [y []]; simpl; intuition congruence. Qed.
Lemma seqo_fst a b : snd a = true -> fst (seqo a b) = fst a ++ fst b.
Proof. unfold seqo. now intros ->. Qed.

Definition starts (t : token) : Prop := t <> TRb /\ t <> TRc.
Definition arr_emit := (fun v => match v with VNum r => emit1 (TNum r) | _ => ([], false) end).

Lemma emit_start v : snd (emit v) = true -> exists t ts, fst (emit v) = t :: ts /\ starts t.
Proof.
  destruct v; simpl; intro H; try discriminate; try (do 2 eexists; split; [reflexivity|split; discriminate]);
   apply seqo_ok in H as (_ & _ & ->); do 2 eexists; split; try reflexivity; split; discriminate.
Qed.

Definition parses (em : pyval -> out) (im : pyval -> json) (v : pyval) : Prop := snd (em v) = true ->
  (exists t ts, fst (em v) = t :: ts /\ starts t) /\
  forall rest fuel, (2 * List.length (fst (em v)) + 1 <= fuel)%nat -> parse fuel (fst (em v) ++ rest) = Some (im v, rest).

Lemma parse_items_ok em im l rest : forall fuel, l <> [] -> Forall (parses em im) l -> snd (emit_items em l) = true ->
  (2 * List.length (fst (emit_items em l)) + 2 <= fuel)%nat ->
  parse_items fuel (fst (emit_items em l) ++ TRb :: rest) = Some (map im l, rest).
Proof.
  induction l as [|v l IH]; intros fuel Hl HF Hs Hf; [congruence|]. inversion HF as [|? ? Hv Hl']; subst.
  destruct l as [|w l].
  - cbn [emit_items] in *. destruct fuel as [|fuel]; [lia|]. cbn [parse_items]. destruct (Hv Hs) as [_ Hp]. rewrite Hp by lia. reflexivity.
  - change (emit_items em (v :: w :: l)) with (seqo (em v) (seqo (emit1 TComma) (emit_items em (w :: l)))) in *. remember (w :: l) as wl eqn:Ewl.
    apply seqo_ok in Hs as (Hs1 & Hs2 & E). rewrite E in *. apply seqo_ok in Hs2 as (_ & Hs3 & E'). rewrite E' in *. cbn [fst emit1] in *.
    rewrite !app_length in Hf. simpl List.length in Hf. destruct fuel as [|fuel]; [lia|]. cbn [parse_items].
    destruct (Hv Hs1) as [_ Hp]. rewrite <- app_assoc, Hp by lia. cbn [app].
    rewrite IH; [reflexivity|subst; discriminate|auto|exact Hs3|lia].
Qed.
Lemma parse_pairs_ok l rest : forall fuel, l <> [] -> Forall (fun p => parses emit img (snd p)) l -> snd (emit_pairs emit l) = true ->
  (2 * List.length (fst (emit_pairs emit l)) + 2 <= fuel)%nat ->
  parse_pairs fuel (fst (emit_pairs emit l) ++ TRc :: rest) = Some (map (fun p => (fst p, img (snd p))) l, rest).
Proof.
  induction l as [|[k v] l IH]; intros fuel Hl HF Hs Hf; [congruence|]. inversion HF as [|? ? Hv Hl']; subst. cbn [snd] in Hv.
  destruct l as [|w l].
  - cbn [emit_pairs] in *. apply seqo_ok in Hs as (_ & Hs & E). rewrite E in *. apply seqo_ok in Hs as (_ & Hs & E'). rewrite E' in *.
    cbn [fst emit1 app] in *. simpl List.length in Hf. destruct fuel as [|fuel]; [lia|]. cbn [parse_pairs]. destruct (Hv Hs) as [_ Hp]. rewrite Hp by lia. reflexivity.
  - change (emit_pairs emit ((k, v) :: w :: l)) with (seqo (emit1 (TStr k)) (seqo (emit1 TColon) (seqo (emit v) (seqo (emit1 TComma) (emit_pairs emit (w :: l)))))) in *. remember (w :: l) as wl eqn:Ewl.
    apply seqo_ok in Hs as (_ & Hs & E). rewrite E in *. apply seqo_ok in Hs as (_ & Hs & E'). rewrite E' in *.
    apply seqo_ok in Hs as (Hs1 & Hs & E''). rewrite E'' in *. apply seqo_ok in Hs as (_ & Hs3 & E3). rewrite E3 in *. cbn [fst emit1 app] in *.
    simpl List.length in Hf. rewrite !app_length in Hf. simpl List.length in Hf. destruct fuel as [|fuel]; [lia|]. cbn [parse_pairs].
    destruct (Hv Hs1) as [_ Hp]. rewrite <- app_assoc, Hp by lia. cbn [app]. rewrite IH; [reflexivity|subst; discriminate|auto|exact Hs3|lia].
Qed.
Lemma parse_list em im l : Forall (parses em im) l -> 
  let o := seqo (emit1 TLb) (seqo (emit_items em l) (emit1 TRb)) in snd o = true ->
  forall rest fuel, (2 * List.length (fst o) + 1 <= fuel)%nat -> parse fuel (fst o ++ rest) = Some (JList (map im l), rest).
Proof.
  cbv zeta. intros HF Hs rest fuel Hf. apply seqo_ok in Hs as (_ & Hs & E). rewrite E in *. apply seqo_ok in Hs as (Hs & _ & E'). rewrite E' in *.
  cbn [fst emit1 app] in *. simpl List.length in Hf. rewrite app_length in Hf. simpl in Hf. destruct fuel as [|fuel]; [lia|].
  destruct l as [|v l]; [reflexivity|].
  inversion HF as [|? ? Hv Hl]; subst.
  assert (exists t ts, fst (emit_items em (v :: l)) = t :: ts /\ starts t) as (t & ts & Et & Ht).
  { destruct l as [|w l]; [exact (proj1 (Hv Hs))|]. cbn [emit_items] in *. apply seqo_ok in Hs as (Hs1 & _ & ->).
    destruct (proj1 (Hv Hs1)) as (t & ts & -> & Ht). do 2 eexists; split; [reflexivity|exact Ht]. }
  pose proof (parse_items_ok em im (v :: l) rest fuel ltac:(discriminate) HF Hs ltac:(lia)) as Hp.
  rewrite <- app_assoc. cbn [app]. rewrite Et in Hp |- *. cbn [app] in *. cbn [parse]. destruct Ht as [N1 N2].
  destruct t; try (rewrite Hp; reflexivity). congruence.
Qed.
Lemma parse_dict l : Forall (fun p => parses emit img (snd p)) l -> 
  let o := seqo (emit1 TLc) (seqo (emit_pairs emit l) (emit1 TRc)) in snd o = true ->
  forall rest fuel, (2 * List.length (fst o) + 1 <= fuel)%nat -> parse fuel (fst o ++ rest) = Some (JDict (map (fun p => (fst p, img (snd p))) l), rest).
Proof.
  cbv zeta. intros HF Hs rest fuel Hf. apply seqo_ok in Hs as (_ & Hs & E). rewrite E in *. apply seqo_ok in Hs as (Hs & _ & E'). rewrite E' in *.
  cbn [fst emit1 app] in *. simpl List.length in Hf. rewrite app_length in Hf. simpl in Hf. destruct fuel as [|fuel]; [lia|].
  destruct l as [|[k v] l]; [reflexivity|].
  assert (exists ts, fst (emit_pairs emit ((k, v) :: l)) = TStr k :: ts) as (ts & Et).
  { destruct l as [|w l]; cbn [emit_pairs] in *; apply seqo_ok in Hs as (_ & _ & ->); eexists; reflexivity. }
  pose proof (parse_pairs_ok ((k, v) :: l) rest fuel ltac:(discriminate) HF Hs ltac:(lia)) as Hp.
  rewrite <- app_assoc. cbn [app]. rewrite Et in Hp |- *. cbn [app] in *. cbn [parse]. rewrite Hp. reflexivity.
Qed.
Lemma emit_parses v : parses emit img v.
Proof.
  induction v using pyval_ind'; intro Hs; (split; [exact (emit_start _ Hs)|]); intros rest fuel Hf; cbn [emit] in *;
   try (destruct fuel as [|fuel]; [simpl in Hf; lia|reflexivity]).
  - now apply parse_list.
  - now apply parse_list.
  - cbn [img]. change (map JNum l) with (map (fun x => img (VNum x)) l). rewrite <- (map_map VNum img l). apply (parse_list arr_emit img); [|exact Hs|exact Hf].
    apply Forall_forall. intros w Hw. apply in_map_iff in Hw as (r & <- & _). intros _. split; [do 2 eexists; split; [reflexivity|split; discriminate]|].
    intros rest' fuel' Hf'. simpl in Hf'. destruct fuel'; [lia|]. reflexivity.
  - now apply parse_dict.
  - discriminate Hs.
Qed.
Lemma load_emit v : snd (emit v) = true -> load (fst (emit v)) = Ok (img v).
Proof.
  intro Hs. unfold load. destruct (emit_parses v Hs) as [_ Hp].
  rewrite <- (app_nil_r (fst (emit v))) at 2. rewrite Hp by lia. reflexivity.
Qed.

(** ** Nesting depth *)
Definition dt (t : token) : Z := match t with TLb | TLc => 1 | TRb | TRc => -1 | _ => 0 end.
Definition depth (ts : list token) : Z := fold_right (fun t d => dt t + d)%Z 0%Z ts.
Lemma depth_app a b : depth (a ++ b) = (depth a + depth b)%Z.
Proof. induction a; simpl; [reflexivity|]. rewrite IHa. lia. Qed.

Lemma depth_cons t ts : depth (t :: ts) = (dt t + depth ts)%Z. Proof. reflexivity. Qed.
Ltac dlia := repeat (rewrite depth_app || rewrite depth_cons); change (depth []) with 0%Z in *; cbn [dt] in *; lia.

Lemma parse_depth fuel :
  (forall ts j rest, parse fuel ts = Some (j, rest) -> exists c, ts = c ++ rest /\ depth c = 0%Z) /\
  (forall ts l rest, parse_items fuel ts = Some (l, rest) -> exists c, ts = c ++ rest /\ depth c = (-1)%Z) /\
  (forall ts l rest, parse_pairs fuel ts = Some (l, rest) -> exists c, ts = c ++ rest /\ depth c = (-1)%Z).
Proof.
  induction fuel as [|fuel (IH1 & IH2 & IH3)]; [repeat split; discriminate|]. repeat split.
  - intros ts j rest. cbn [parse]. destruct ts as [|t ts]; [discriminate|].
    destruct t; try discriminate; try (intro E; injection E as <- <-; eexists [_]; split; [reflexivity|reflexivity]).
    + assert (match parse_items fuel ts with Some (l, ts0) => Some (JList l, ts0) | None => None end = Some (j, rest) -> exists c, TLb :: ts = c ++ rest /\ depth c = 0%Z) as K.
      { destruct (parse_items fuel ts) as [[l r]|] eqn:E; [|discriminate]. intro E'. injection E' as <- <-. destruct (IH2 _ _ _ E) as (c & -> & Hc).
        exists (TLb :: c). split; [reflexivity|]. dlia. }
      destruct ts as [|t ts]; [exact K|]. destruct t; try exact K.
      intro E. injection E as <- <-. exists [TLb; TRb]. split; reflexivity.
    + assert (match parse_pairs fuel ts with Some (l, ts0) => Some (JDict l, ts0) | None => None end = Some (j, rest) -> exists c, TLc :: ts = c ++ rest /\ depth c = 0%Z) as K.
      { destruct (parse_pairs fuel ts) as [[l r]|] eqn:E; [|discriminate]. intro E'. injection E' as <- <-. destruct (IH3 _ _ _ E) as (c & -> & Hc).
        exists (TLc :: c). split; [reflexivity|]. dlia. }
      destruct ts as [|t ts]; [exact K|]. destruct t; try exact K.
      intro E. injection E as <- <-. exists [TLc; TRc]. split; reflexivity.
  - intros ts l rest. cbn [parse_items]. destruct (parse fuel ts) as [[j r]|] eqn:E; [|discriminate]. destruct (IH1 _ _ _ E) as (c & -> & Hc).
    destruct r as [|t r]; [discriminate|]. destruct t; try discriminate.
    + intro E'. injection E' as <- <-. exists (c ++ [TRb]). split; [now rewrite <- app_assoc|]. dlia.
    + destruct (parse_items fuel r) as [[l' r']|] eqn:E2; [|discriminate]. intro E'. injection E' as <- <-. destruct (IH2 _ _ _ E2) as (c' & -> & Hc').
      exists (c ++ TComma :: c'). split; [now rewrite <- app_assoc|]. dlia.
  - intros ts l rest. cbn [parse_pairs]. destruct ts as [|t ts]; [discriminate|]. destruct t; try discriminate. destruct ts as [|t ts]; [discriminate|]. destruct t; try discriminate.
    destruct (parse fuel ts) as [[j r]|] eqn:E; [|discriminate]. destruct (IH1 _ _ _ E) as (c & -> & Hc).
    destruct r as [|t r]; [discriminate|]. destruct t; try discriminate.
    + intro E'. injection E' as <- <-. exists (TStr s :: TColon :: c ++ [TRc]). split; [cbn [app]; now rewrite <- app_assoc|]. cbn [app]; dlia.
    + destruct (parse_pairs fuel r) as [[l' r']|] eqn:E2; [|discriminate]. intro E'. injection E' as <- <-. destruct (IH3 _ _ _ E2) as (c' & -> & Hc').
      exists (TStr s :: TColon :: c ++ TComma :: c'). split; [cbn [app]; now rewrite <- app_assoc|]. cbn [app]; dlia.
Qed.
Lemma load_depth ts j : load ts = Ok j -> ts <> [] /\ depth ts = 0%Z.
Proof.
  unfold load. intro E. split; [intros ->; discriminate|]. destruct (parse _ ts) as [[j' rest]|] eqn:Ep; [|discriminate].
  destruct rest; [|discriminate]. destruct (proj1 (parse_depth _) _ _ _ Ep) as (c & -> & Hc). now rewrite app_nil_r.
Qed.

(** every prefix of a text has depth >= 0 *)
Definition good (o : out) : Prop := (forall p q, fst o = p ++ q -> (0 <= depth p)%Z) /\ (snd o = true -> depth (fst o) = 0%Z).
Lemma app_split {A} (x y p q : list A) : x ++ y = p ++ q -> (exists r, x = p ++ r /\ q = r ++ y) \/ (exists r, p = x ++ r /\ y = r ++ q).
Proof.
  revert p. induction x as [|a x IH]; intros p E; [right; exists p; auto|].
  destruct p as [|b p]; [left; exists (a :: x); split; [reflexivity|symmetry; exact E]|]. simpl in E. injection E as <- E.
  destruct (IH _ E) as [(r & -> & ->)|(r & -> & ->)]; [left|right]; exists r; auto.
Qed.
Lemma good_seqo a b : good a -> good b -> good (seqo a b).
Proof.
  intros [A1 A2] [B1 B2]. unfold seqo. destruct (snd a) eqn:Ea; [|split; [exact A1|intro; congruence]].
  split; cbn [fst snd].
  - intros p q E. apply app_split in E as [(r & E & ->)|(r & -> & E)]; [eapply A1; eassumption|].
    rewrite depth_app, A2 by auto. specialize (B1 _ _ E). lia.
  - intro H. rewrite depth_app, A2, B2 by auto. reflexivity.
Qed.
Lemma good_emit1 t : dt t = 0%Z -> good (emit1 t).
Proof.
  intro Ht. split; cbn.
  - intros [|a p] q E; [simpl; lia|]. simpl in E. injection E as <- E. apply eq_sym, app_eq_nil in E as [-> ->]. simpl. lia.
  - lia.
Qed.
Lemma good_nil b : good ([], b).
Proof. split; cbn; [|reflexivity]. intros p q E. symmetry in E. apply app_eq_nil in E as [-> ->]. simpl. lia. Qed.
(** a bracketed text: strict non-empty prefixes have depth >= 1, and so has a failed one *)
Definition bracketed (o : out) : Prop :=
  (forall p q, fst o = p ++ q -> p <> [] -> (q <> [] \/ snd o = false) -> (1 <= depth p)%Z).
Lemma good_bracket l r b : dt l = 1%Z -> dt r = (-1)%Z -> good b -> let o := seqo (emit1 l) (seqo b (emit1 r)) in good o /\ bracketed o.
Proof.
  intros Hl Hr [B1 B2]. cbv zeta. unfold seqo at 1 3. cbn [snd emit1 fst]. unfold seqo. destruct (snd b) eqn:Eb.
  - cbn [fst snd]. assert (forall p q, [l] ++ fst b ++ [r] = p ++ q -> p <> [] -> q <> [] -> (1 <= depth p)%Z) as K.
    { intros p q E Hp Hq. destruct p as [|a p]; [congruence|]. simpl in E. injection E as <- E. simpl. rewrite Hl.
      apply app_split in E as [(s & E & ->)|(s & -> & E)]; [specialize (B1 _ _ E); lia|].
      destruct s as [|c s]; [rewrite app_nil_r, B2 by auto; lia|]. simpl in E. injection E as <- E. symmetry in E. apply app_eq_nil in E as [-> ->]. congruence. }
    split.
    + split.
      * intros p q E. destruct p as [|a p]; [simpl; lia|]. destruct q as [|c q].
        -- rewrite app_nil_r in E. cbn [fst] in E. rewrite <- E. simpl. rewrite depth_app, B2 by auto. simpl. lia.
        -- specialize (K (a :: p) (c :: q) E ltac:(discriminate) ltac:(discriminate)). lia.
      * intros _. simpl. rewrite depth_app, B2 by auto. simpl. lia.
    + intros p q E Hp [Hq|Hq]; [now apply (K p q)|discriminate].
  - cbn [fst snd]. assert (forall p q, [l] ++ fst b = p ++ q -> p <> [] -> (1 <= depth p)%Z) as K.
    { intros p q E Hp. destruct p as [|a p]; [congruence|]. simpl in E. injection E as <- E. simpl. rewrite Hl. specialize (B1 _ _ E). lia. }
    split; [split|].
    + intros p q E. destruct p as [|a p]; [simpl; lia|]. specialize (K (a :: p) q E ltac:(discriminate)). lia.
    + rewrite Eb. discriminate.
    + intros p q E Hp _. now apply (K p q).
Qed.
Lemma good_items em l : Forall (fun v => good (em v)) l -> good (emit_items em l).
Proof.
  induction l as [|v l IH]; intro HF; [apply good_nil|]. inversion HF; subst. destruct l as [|w l]; [assumption|].
  cbn [emit_items]. apply good_seqo; [assumption|]. apply good_seqo; [now apply good_emit1|]. now apply IH.
Qed.
Lemma good_pairs l : Forall (fun p => good (emit (snd p))) l -> good (emit_pairs emit l).
Proof.
  induction l as [|[k v] l IH]; intro HF; [apply good_nil|]. inversion HF; subst. destruct l as [|w l].
  - cbn [emit_pairs]. repeat (apply good_seqo; [now apply good_emit1|]). assumption.
  - cbn [emit_pairs]. repeat (apply good_seqo; [now apply good_emit1|]). apply good_seqo; [assumption|]. apply good_seqo; [now apply good_emit1|]. now apply IH.
Qed.
Lemma emit_good v : good (emit v).
Proof.
  induction v using pyval_ind'; cbn [emit]; try (now apply good_emit1).
  - apply good_bracket; [reflexivity..|now apply good_items].
  - apply good_bracket; [reflexivity..|now apply good_items].
  - apply good_bracket; [reflexivity..|]. apply good_items. apply Forall_forall. intros w Hw. apply in_map_iff in Hw as (r & <- & _). now apply good_emit1.
  - apply good_bracket; [reflexivity..|now apply good_pairs].
  - apply good_nil.
Qed.
(** a failed encoding leaves text that does not load *)
Lemma failed_not_loadable v : snd (emit v) = false -> load (fst (emit v)) = Err ValueError.
Proof.
  intro Hs. assert (fst (emit v) = [] \/ (1 <= depth (fst (emit v)))%Z) as K.
  { destruct v; cbn [emit] in *; try discriminate Hs; [right..|left; reflexivity].
    1,2: pose proof (proj2 (good_bracket TLb TRb (emit_items emit l) eq_refl eq_refl (good_items _ _ (proj2 (Forall_forall _ _) (fun v _ => emit_good v))))) as B.
    1,2: apply (B _ [] ltac:(now rewrite app_nil_r)); [|right; exact Hs]; intro E; rewrite seqo_fst in E by reflexivity; discriminate.
    - exfalso. revert Hs. assert (forall l, snd (emit_items arr_emit (map VNum l)) = true) as K.
      { clear. induction l as [|a [|b l] IH]; try reflexivity. change (map VNum (a :: b :: l)) with (VNum a :: map VNum (b :: l)). cbn [emit_items map]. unfold seqo at 1. cbn. exact IH. }
      unfold seqo at 1. cbn. unfold seqo. fold arr_emit. rewrite K. discriminate.
    - pose proof (proj2 (good_bracket TLc TRc (emit_pairs emit l) eq_refl eq_refl (good_pairs _ (proj2 (Forall_forall _ _) (fun v _ => emit_good (snd v)))))) as B.
      apply (B _ [] ltac:(now rewrite app_nil_r)); [|right; exact Hs]; intro E; rewrite seqo_fst in E by reflexivity; discriminate. }
  destruct (load (fst (emit v))) as [j|e] eqn:E; [exfalso|].
  - destruct (load_depth _ _ E). destruct K; [congruence|lia].
  - unfold load in E. destruct (parse _ _) as [[? []]|]; congruence.
Qed.
(** a strict prefix of the text of a dictionary does not load, even with a token cut in the middle *)
Lemma dict_prefix_not_loadable l p q cut : fst (emit (VDict l)) = p ++ q -> q <> [] -> (cut = [] \/ exists t, cut = [t] /\ dt t = 0%Z /\ p <> []) ->
  load (p ++ cut) = Err ValueError.
Proof.
  intros E Hq Hc. destruct (load (p ++ cut)) as [j|e] eqn:El; [exfalso|unfold load in El; destruct (parse _ _) as [[? []]|]; congruence].
  destruct (load_depth _ _ El) as [Hn Hd]. rewrite depth_app in Hd.
  pose proof (proj2 (good_bracket TLc TRc (emit_pairs emit l) eq_refl eq_refl (good_pairs _ (proj2 (Forall_forall _ _) (fun v _ => emit_good (snd v)))))) as B.
  assert (p <> []) as Hp by (destruct Hc as [->|(t & _ & _ & ?)]; [rewrite app_nil_r in Hn|]; assumption).
  specialize (B p q E Hp (or_introl Hq)). destruct Hc as [->|(t & -> & Ht & _)]; simpl in Hd; lia.
Qed.
