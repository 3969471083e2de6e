(** C78: arithmetic of symbolic forms. *)
From Coq Require Import ZArith Reals List Lia Lra Arith String.
From Coquelicot Require Import Coquelicot.
From Verif Require Import Model.Num Model.Sym Spec.Ext Props.Symbolic.
Import ListNotations.
Local Open Scope R_scope.

(** what each operator does to the values of two components; o -rsub- means o - self, and so on *)
Inductive arith : Set := Aadd | Aradd | Asub | Arsub | Adiv.
Definition run_arith (o : arith) : sform -> operand -> res sform :=
  match o with Aadd => s_add | Aradd => s_radd | Asub => s_sub | Arsub => s_rsub | Adiv => s_truediv end.
Definition value (o : arith) (s t : R) : R :=
  match o with Aadd => s + t | Aradd => t + s | Asub => s - t | Arsub => t - s | Adiv => s / t end.

Lemma init_comps d g l l' : List.length l = List.length l' -> sform_init (Z.of_nat d) g l = Ok (MkSform d g l) -> sform_init (Z.of_nat d) g l' = Ok (MkSform d g l').
Proof.
  unfold sform_init. intro L. destruct (_ <=? _)%Z; [|discriminate]. destruct (nCr _ _); [|discriminate]. cbn [bind]. rewrite <- L. destruct (Z.eqb _ _); [|discriminate]. intros _. now rewrite Nat2Z.id.
Qed.
(** form op form, of the same degree on the same chart, is the form whose components are combined one by one *)
Theorem C78_form_form o a b : valid a -> valid b -> sdeg a = sdeg b -> sgrid a = sgrid b ->
  exists c, run_arith o a (OForm b) = Ok c /\ valid c /\ sdeg c = sdeg a /\ sgrid c = sgrid a /\ List.length (scomps c) = List.length (scomps a) /\
    forall r i, (i < List.length (scomps c))%nat -> val r c i = value o (val r a i) (val r b i).
Proof.
  intros Ha Hb Ed Eg. destruct o; cases Ha; cases Hb; cbn [sdeg sgrid] in *; try discriminate; injection Eg; intros; subst;
    (eexists; split; [run|]); (split; [split; [cbn; auto|reflexivity]|]); (split; [reflexivity|]); (split; [reflexivity|]); (split; [reflexivity|]);
    intros r i Hi; cbn in Hi; destruct i as [|[|i]]; try lia; unfold val; cbn [scomps nth eval value]; unfold Rdiv; ring.
Qed.
(** form op number (or expression): every component is combined with it *)
Theorem C78_form_scalar o a k : valid a ->
  exists c, run_arith o a (OScal k) = Ok c /\ valid c /\ sdeg c = sdeg a /\ sgrid c = sgrid a /\ List.length (scomps c) = List.length (scomps a) /\
    forall r i, (i < List.length (scomps c))%nat -> val r c i = value o (val r a i) (eval r k).
Proof.
  intros Ha. destruct o; cases Ha; (eexists; split; [run|]); (split; [split; [cbn; auto|reflexivity]|]); (split; [reflexivity|]); (split; [reflexivity|]); (split; [reflexivity|]);
    intros r i Hi; cbn in Hi; destruct i as [|[|i]]; try lia; unfold val; cbn [scomps nth eval value]; unfold Rdiv; ring.
Qed.
Theorem C78_negation a : valid a ->
  exists c, s_neg a = Ok c /\ valid c /\ sdeg c = sdeg a /\ sgrid c = sgrid a /\ List.length (scomps c) = List.length (scomps a) /\
    forall r i, (i < List.length (scomps c))%nat -> val r c i = - val r a i.
Proof.
  intros Ha. cases Ha; (eexists; split; [run|]); (split; [split; [cbn; auto|reflexivity]|]); (split; [reflexivity|]); (split; [reflexivity|]); (split; [reflexivity|]);
    intros r i Hi; cbn in Hi; destruct i as [|[|i]]; try lia; reflexivity.
Qed.
(** forms of different degrees, or on different charts, cannot be combined *)
Theorem C78_mismatch o a b : sdeg a <> sdeg b \/ cid (sgrid a) <> cid (sgrid b) -> run_arith o a (OForm b) = Err AssertionError.
Proof.
  intro H. assert (forall op, sbinary op a (OForm b) = Err AssertionError) as A.
  { intro op. unfold sbinary, chart_eqb. destruct (Nat.eqb_spec (sdeg a) (sdeg b)), (Nat.eqb_spec (cid (sgrid a)) (cid (sgrid b))); auto; tauto. }
  destruct o; apply A.
Qed.
Theorem C78_wedge_mismatch a b : cid (sgrid a) <> cid (sgrid b) -> W (SForm a) (SForm b) = Err AssertionError.
Proof. intro H. cbn [W]. unfold sW, chart_eqb. destruct (Nat.eqb_spec (cid (sgrid a)) (cid (sgrid b))); [tauto|reflexivity]. Qed.
(** the derivative of a form of top degree is the number 0, which cannot be wedged with anything *)
Theorem C78_wedge_with_zero a b : valid a -> sdeg a = List.length (coords (sgrid a)) ->
  D (SForm a) = Ok SZero /\ bind (D (SForm a)) (W (SForm b)) = Err AttributeError /\ bind (D (SForm a)) (fun z => W z (SForm b)) = Err AttributeError.
Proof. intros Ha Hd. assert (D (SForm a) = Ok SZero) as E by (cases Ha; cbn in Hd; try discriminate; run). rewrite E. auto. Qed.
Theorem C78_contraction_mismatch X a : sdeg X <> 1%nat \/ cid (sgrid X) <> cid (sgrid a) -> C (SForm X) (SForm a) = Err AssertionError.
Proof. intro H. cbn [C]. unfold sC, chart_eqb. destruct (Nat.eqb_spec (sdeg X) 1), (Nat.eqb_spec (cid (sgrid X)) (cid (sgrid a))); auto; tauto. Qed.
(** the shorthands F0, F1, F2 are forms on the chart Chart(x, y) *)
Theorem C78_shorthands f g :
  (exists a, F0 f = Ok a /\ valid a /\ sdeg a = 0%nat /\ coords (sgrid a) = [0; 1]%nat /\ scomps a = [f]) /\
  (exists a, F1 [f; g] = Ok a /\ valid a /\ sdeg a = 1%nat /\ coords (sgrid a) = [0; 1]%nat /\ scomps a = [f; g]) /\
  (exists a, F2 f = Ok a /\ valid a /\ sdeg a = 2%nat /\ coords (sgrid a) = [0; 1]%nat /\ scomps a = [f]).
Proof. repeat split; (eexists; split; [reflexivity|]); (split; [split; [cbn; auto|reflexivity]|]); auto. Qed.
(** python's a + b on what the operators return: 0 is the neutral element *)
Theorem C78_zero a : valid a -> exists l r, py_add SZero (SForm a) = Ok (SForm l) /\ py_add (SForm a) SZero = Ok (SForm r) /\ same l a /\ same r a.
Proof.
  intro Ha. cases Ha; (eexists _, _; split; [run|]); (split; [run|]); split; (repeat split; try reflexivity; intros r i Hi; cbn in Hi; destruct i as [|[|i]]; try lia; unfold val; cbn; ring).
Qed.
Example C78_instance : exists a b c, valid a /\ valid b /\ sgrid a = sgrid b /\ sdeg a = sdeg b /\ run_arith Arsub a (OForm b) = Ok c /\ val (MkEnv (fun _ => 2) (fun _ _ _ _ _ => 0)) c 1 = 1.
Proof.
  exists (MkSform 1 (MkChart 0 [0; 1]%nat) [Sym 0; Sym 1]), (MkSform 1 (MkChart 0 [0; 1]%nat) [Sym 1; Cst 3]). eexists.
  repeat (split; [first [reflexivity|split; [cbn; auto|reflexivity]]|]). unfold val. cbn. lra.
Qed.
