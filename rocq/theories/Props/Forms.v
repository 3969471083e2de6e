(** C62: dec/forms.py lists every operator once, with the right domain and codomain. *)
From Coq Require Import ZArith List String Decimal DecimalNat DecimalString DecimalFacts Bool Lia Ascii FinFun.
From Verif Require Import Model.Num Model.Forms.
Import ListNotations.
Local Open Scope string_scope.

Lemma str_inj k l : str k = str l -> k = l.
Proof.
  intro E. unfold str in E. apply (f_equal NilEmpty.uint_of_string) in E. rewrite !NilEmpty.usu in E. injection E as E.
  rewrite <- (DecimalNat.Unsigned.of_to k), <- (DecimalNat.Unsigned.of_to l). now rewrite E.
Qed.
Fixpoint ends_d (s : string) : bool := match s with EmptyString => false | String a EmptyString => Ascii.eqb a "d" | String _ s => ends_d s end.
Lemma ends_app s : ends_d (s ++ "d") = true.
Proof. induction s as [|a s IH]; [reflexivity|]. cbn [append ends_d]. destruct (s ++ "d") eqn:E; [destruct s; discriminate|]. exact IH. Qed.
Lemma ends_str k : ends_d (str k) = false.
Proof. unfold str. generalize (Nat.to_uint k). induction u; cbn [NilEmpty.string_of_uint ends_d]; auto; destruct (NilEmpty.string_of_uint u); auto. Qed.
Lemma app_inj_r s s' t : s ++ t = s' ++ t -> s = s'.
Proof.
  revert s'. assert (forall s, String.length (s ++ t) = String.length s + String.length t)%nat as L by (induction s0; cbn; auto).
  induction s as [|a s IH]; intros [|b s'] E; auto.
  - apply (f_equal String.length) in E. rewrite !L in E. cbn in E. lia.
  - apply (f_equal String.length) in E. rewrite !L in E. cbn in E. lia.
  - cbn in E. injection E as -> E. now rewrite (IH s' E).
Qed.
Lemma app_nil_r s : s ++ "" = s. Proof. induction s; cbn; congruence. Qed.
Lemma name_inj o o' k k' t t' : name (String o "") k t = name (String o' "") k' t' -> o = o' /\ k = k' /\ t = t'.
Proof.
  unfold name. cbn [append]. intro E. injection E as -> E. split; auto. destruct t, t'.
  - rewrite !app_nil_r in E. apply str_inj in E. auto.
  - apply (f_equal ends_d) in E. rewrite ends_app, app_nil_r, ends_str in E. discriminate.
  - apply (f_equal ends_d) in E. rewrite ends_app, app_nil_r, ends_str in E. discriminate.
  - apply app_inj_r, str_inj in E. auto.
Qed.
Lemma In_forms n k t : In (k, t) (all_forms n) <-> k <= n.
Proof. unfold all_forms. rewrite in_prod_iff, in_seq. split; [lia|]. intro. split; [lia|]. destruct t; cbn; auto. Qed.
Lemma NoDup_prod {A B} (l : list A) (l' : list B) : NoDup l -> NoDup l' -> NoDup (list_prod l l').
Proof.
  intros H H'. induction H as [|a l Ha Hl IH]; [constructor|]. cbn [list_prod].
  assert (forall (x y : list (A * B)), NoDup x -> NoDup y -> (forall z, In z x -> ~ In z y) -> NoDup (x ++ y)) as App.
  { intros x y Hx Hy D. induction Hx as [|z x Hz Hx IHx]; auto. cbn. constructor.
    - rewrite in_app_iff. intros [K|K]; [auto|]. apply (D z); cbn; auto.
    - apply IHx. intros w Hw. apply D. cbn; auto. }
  apply App; auto.
  - apply Injective_map_NoDup; auto. intros x y E. congruence.
  - intros [u v] K K'. apply in_map_iff in K as (w & E & _). injection E as <- <-. apply in_prod_iff in K' as [? _]. auto.
Qed.
Lemma NoDup_forms n : NoDup (all_forms n).
Proof. apply NoDup_prod; [apply seq_NoDup|]. repeat constructor; cbn; intuition discriminate. Qed.
Lemma NoDup_map_on {A B} (f : A -> B) l : (forall x y, In x l -> In y l -> f x = f y -> x = y) -> NoDup l -> NoDup (map f l).
Proof.
  intros I H. induction H as [|a l Ha Hl IH]; [constructor|]. cbn. constructor.
  - intro K. apply in_map_iff in K as (b & E & Hb). apply I in E; cbn; auto. subst. auto.
  - apply IH. intros x y Hx Hy. apply I; cbn; auto.
Qed.

Definition op_name (o : operator) : string := fst (fst o).
(** the four lists contain the operators with the stated domains and codomains, no others, and all the names are different *)
Theorem C62_operators n :
  (forall o, In o (oP (operators n)) <-> exists k t, k <= n /\ o = (name "P" k t, None, Some (k, t))) /\
  (forall o, In o (oR (operators n)) <-> exists k t, k <= n /\ o = (name "R" k t, Some (k, t), None)) /\
  (forall o, In o (oD (operators n)) <-> exists k t, k + 1 <= n /\ o = (name "D" k t, Some (k, t), Some (k + 1, t))) /\
  (forall o, In o (oH (operators n)) <-> exists k t, k <= n /\ o = (name "H" k t, Some (k, t), Some (n - k, negb t))) /\
  NoDup (map op_name (oP (operators n) ++ oR (operators n) ++ oD (operators n) ++ oH (operators n))).
Proof.
  assert (forall o, In o (oP (operators n)) <-> exists k t, k <= n /\ o = (name "P" k t, None, Some (k, t))) as HP.
  { intro o. cbn [operators oP]. rewrite in_map_iff. split; [intros ([k t] & <- & H%In_forms); exists k, t; split; [exact H|reflexivity]|intros (k & t & H%(In_forms n k t) & ->); exists (k, t); split; [reflexivity|exact H]]. }
  assert (forall o, In o (oR (operators n)) <-> exists k t, k <= n /\ o = (name "R" k t, Some (k, t), None)) as HR.
  { intro o. cbn [operators oR]. rewrite in_map_iff. split; [intros ([k t] & <- & H%In_forms); exists k, t; split; [exact H|reflexivity]|intros (k & t & H%(In_forms n k t) & ->); exists (k, t); split; [reflexivity|exact H]]. }
  assert (forall o, In o (oD (operators n)) <-> exists k t, k + 1 <= n /\ o = (name "D" k t, Some (k, t), Some (k + 1, t))) as HD.
  { intro o. cbn [operators oD]. rewrite in_map_iff. split.
    - intros ([k t] & <- & H). apply filter_In in H as [_ H]. apply Nat.ltb_lt in H. cbn [fst snd] in *. exists k, t. split; [lia|reflexivity].
    - intros (k & t & H & ->). exists (k, t). split; [reflexivity|]. apply filter_In. split; [apply In_forms; lia|]. apply Nat.ltb_lt. cbn; lia. }
  assert (forall o, In o (oH (operators n)) <-> exists k t, k <= n /\ o = (name "H" k t, Some (k, t), Some (n - k, negb t))) as HH.
  { intro o. cbn [operators oH]. rewrite in_map_iff. split; [intros ([k t] & <- & H%In_forms); exists k, t; split; [exact H|reflexivity]|intros (k & t & H%(In_forms n k t) & ->); exists (k, t); split; [reflexivity|exact H]]. }
  repeat (split; [assumption|]).
  apply NoDup_map_on.
  - assert (forall o, In o (oP (operators n) ++ oR (operators n) ++ oD (operators n) ++ oH (operators n)) -> exists c k t, op_name o = name (String c "") k t /\
      o = if Ascii.eqb c "P" then (name "P" k t, None, Some (k, t)) else if Ascii.eqb c "R" then (name "R" k t, Some (k, t), None) else
          if Ascii.eqb c "D" then (name "D" k t, Some (k, t), Some (k + 1, t)) else (name "H" k t, Some (k, t), Some (n - k, negb t))) as K.
    { intros o Ho. rewrite !in_app_iff, HP, HR, HD, HH in Ho. destruct Ho as [(k & t & _ & ->)|[(k & t & _ & ->)|[(k & t & _ & ->)|(k & t & _ & ->)]]]; [exists "P"%char|exists "R"%char|exists "D"%char|exists "H"%char]; exists k, t; split; reflexivity. }
    intros x y Hx Hy E. destruct (K x Hx) as (c & k & t & Ex & ->), (K y Hy) as (c' & k' & t' & Ey & ->). rewrite Ex, Ey in E. apply name_inj in E as (-> & -> & ->). reflexivity.
  - assert (forall (x y : list operator), NoDup x -> NoDup y -> (forall z, In z x -> ~ In z y) -> NoDup (x ++ y)) as App.
    { intros x y Hx Hy D. induction Hx as [|z x Hz Hx IHx]; auto. cbn. constructor.
      - rewrite in_app_iff. intros [K|K]; [auto|]. apply (D z); cbn; auto.
      - apply IHx. intros w Hw. apply D. cbn; auto. }
    pose proof (NoDup_forms n) as NF.
    apply App; [apply Injective_map_NoDup; auto; intros [] [] E; congruence| |].
    apply App; [apply Injective_map_NoDup; auto; intros [] [] E; congruence| |].
    apply App; [apply Injective_map_NoDup; [intros [] [] E; congruence|now apply NoDup_filter]|apply Injective_map_NoDup; auto; intros [] [] E; congruence|].
    + intros z H1 H2. rewrite HD in H1. rewrite HH in H2. destruct H1 as (k & t & _ & ->), H2 as (k' & t' & _ & E). apply (f_equal op_name) in E. apply name_inj in E as [E _]. discriminate.
    + intros z H1 H2. rewrite in_app_iff, HD, HH in H2. rewrite HR in H1. destruct H1 as (k & t & _ & ->), H2 as [(k' & t' & _ & E)|(k' & t' & _ & E)]; discriminate.
    + intros z H1 H2. rewrite !in_app_iff, HR, HD, HH in H2. rewrite HP in H1. destruct H1 as (k & t & _ & ->), H2 as [(k' & t' & _ & E)|[(k' & t' & _ & E)|(k' & t' & _ & E)]]; discriminate.
Qed.
(** D after D and H after H compose: the codomain of each D (below the top) and of each H is the domain of the next, and H after H is the identity on the types *)
Theorem C62_composition n o f g : In o (oD (operators n) ++ oH (operators n)) -> snd (fst o) = Some f -> snd o = Some g ->
  (fst g <= n)%nat /\ (exists h, In h (oH (operators n)) /\ snd (fst h) = Some g) /\
  (In o (oH (operators n)) -> exists h, In h (oH (operators n)) /\ snd (fst h) = Some g /\ snd h = Some f) /\
  (In o (oD (operators n)) -> (fst g < n)%nat -> exists d, In d (oD (operators n)) /\ snd (fst d) = Some g /\ snd d = Some (fst f + 2, snd f)).
Proof.
  destruct (C62_operators n) as (_ & _ & HD & HH & _). intros Ho Ef Eg.
  assert (fst g <= n)%nat as L.
  { rewrite in_app_iff, HD, HH in Ho. destruct Ho as [(k & t & H & ->)|(k & t & H & ->)]; injection Eg as <-; cbn [fst]; lia. }
  split; auto. split; [|split].
  - eexists. split; [apply HH; exists (fst g), (snd g); split; [exact L|reflexivity]|]. now destruct g.
  - intro H. apply HH in H as (k & t & H & ->). injection Ef as <-. injection Eg as <-. eexists. split; [apply HH; exists (n - k), (negb t); split; [lia|reflexivity]|]. split; [reflexivity|]. cbn [snd]. rewrite negb_involutive. do 2 f_equal. lia.
  - intros H Hg. apply HD in H as (k & t & H & ->). injection Ef as <-. injection Eg as <-. cbn [fst snd] in *. eexists. split; [apply HD; exists (k + 1), t; split; [lia|reflexivity]|]. split; [reflexivity|]. cbn [snd]. do 2 f_equal. lia.
Qed.
(** operators_by_degree lists exactly the signatures that operators_lambda computes, each once *)
Theorem C62_by_degree n : let b := operators_by_degree n in
  (forall k m, In (k, m) (bD b) <-> k < n /\ Z.of_nat m = lam_D (Z.of_nat k)) /\
  (forall k m, In (k, m) (bH b) <-> k <= n /\ Z.of_nat m = lam_H (Z.of_nat n) (Z.of_nat k)) /\
  (forall k l m, In ((k, l), m) (bW b) <-> k <= l /\ m <= n /\ Z.of_nat m = lam_W (Z.of_nat k) (Z.of_nat l)) /\
  (forall k l m, In ((k, l), m) (bC b) <-> l <= n /\ lam_C (Z.of_nat k) (Z.of_nat l) = Ok (Z.of_nat m)) /\
  NoDup (bD b) /\ NoDup (bH b) /\ NoDup (bW b) /\ NoDup (bC b).
Proof.
  cbn [operators_by_degree bD bH bW bC]. unfold lam_D, lam_H, lam_W, lam_C. split; [|split; [|split; [|split; [|split; [|split; [|split]]]]]].
  - intros k m. rewrite in_map_iff. split.
    + intros (x & E & K). injection E as <- <-. apply in_seq in K. lia.
    + intros [H1 H2]. exists k. split; [f_equal; lia|apply in_seq; lia].
  - intros k m. rewrite in_map_iff. split.
    + intros (x & E & K). injection E as <- <-. apply in_seq in K. lia.
    + intros [H1 H2]. exists k. split; [f_equal; lia|apply in_seq; lia].
  - intros k l m. rewrite in_map_iff. split.
    + intros (x & E & K). injection E as -> <-. apply filter_In in K as [_ K]. cbn [fst snd] in *. apply andb_true_iff in K. rewrite !Nat.leb_le in K. lia.
    + intros (H1 & H2 & H3). exists (k, l). split; [cbn; f_equal; lia|]. apply filter_In. split; [apply in_prod_iff; rewrite !in_seq; lia|]. cbn [fst snd]. rewrite andb_true_iff, !Nat.leb_le. lia.
  - intros k l m. rewrite in_map_iff. split.
    + intros (x & E & K). injection E as <- <- <-. apply in_seq in K. split; [lia|]. cbn [Z.eqb Z.of_nat Pos.of_succ_nat Pos.eqb]. f_equal. lia.
    + intros (H1 & H2). destruct (Z.eqb_spec (Z.of_nat k) 1) as [E|]; [|discriminate]. injection H2 as H2. exists l. split; [|apply in_seq; lia]. f_equal; [f_equal|]; lia.
  - apply Injective_map_NoDup; [|apply seq_NoDup]. intros x y E. congruence.
  - apply Injective_map_NoDup; [|apply seq_NoDup]. intros x y E. congruence.
  - apply Injective_map_NoDup; [|apply NoDup_filter, NoDup_prod; apply seq_NoDup]. intros x y E. congruence.
  - apply Injective_map_NoDup; [|apply seq_NoDup]. intros x y E. congruence.
Qed.
(** the types agree: the degrees in operators(n) are those of operators_by_degree *)
Theorem C62_agree n nm k t l s :
  (In (nm, Some (k, t), Some (l, s)) (oD (operators n)) <-> nm = name "D" k t /\ s = t /\ In (k, l) (bD (operators_by_degree n))) /\
  (In (nm, Some (k, t), Some (l, s)) (oH (operators n)) <-> nm = name "H" k t /\ s = negb t /\ In (k, l) (bH (operators_by_degree n))).
Proof.
  destruct (C62_operators n) as (_ & _ & HD & HH & _). destruct (C62_by_degree n) as (BD & BH & _). rewrite HD, HH, BD, BH. unfold lam_D, lam_H. split; split.
  - intros (k' & t' & H & E). injection E as -> -> -> -> ->. repeat split; lia.
  - intros (-> & -> & H1 & H2). exists k, t. split; [lia|]. do 3 f_equal. lia.
  - intros (k' & t' & H & E). injection E as -> -> -> -> ->. repeat split; lia.
  - intros (-> & -> & H1 & H2). exists k, t. split; [lia|]. do 3 f_equal. lia.
Qed.
Example C62_instance : In ("H1d", Some (1, false), Some (0, true)) (oH (operators 1)) /\ In ((1, 2), 3) (bW (operators_by_degree 3)) /\ List.length (oD (operators 2)) = 4.
Proof. repeat split; cbn; tauto. Qed.
