(** C51-C59: symbolic forms. *)
From Coq Require Import ZArith Reals List Lia Lra Arith String.
From Coquelicot Require Import Coquelicot.
From Verif Require Import Model.Num Model.Sym Spec.Ext.
Import ListNotations.
Local Open Scope R_scope.

(** ** Shapes of valid forms *)
Lemma init_inv d g c f : sform_init (Z.of_nat d) g c = Ok f -> (d <= dimension g)%nat /\
  nCr (Z.of_nat (dimension g)) (Z.of_nat d) = Ok (Z.of_nat (List.length c)) /\ f = MkSform d g c.
Proof.
  unfold sform_init. destruct (Z.leb_spec (Z.of_nat d) (Z.of_nat (dimension g))); [|discriminate].
  destruct (nCr _ _) as [k|]; [|discriminate]. cbn [bind]. destruct (Z.eqb_spec (Z.of_nat (List.length c)) k); [|discriminate].
  intro E. injection E as <-. subst k. rewrite Nat2Z.id. repeat split. lia.
Qed.
Lemma nCr_10 : nCr 1 0 = Ok 1%Z. Proof. reflexivity. Qed.
Lemma nCr_11 : nCr 1 1 = Ok 1%Z. Proof. reflexivity. Qed.
Lemma nCr_20 : nCr 2 0 = Ok 1%Z. Proof. reflexivity. Qed.
Lemma nCr_21 : nCr 2 1 = Ok 2%Z. Proof. reflexivity. Qed.
Lemma nCr_22 : nCr 2 2 = Ok 1%Z. Proof. reflexivity. Qed.
Lemma valid_cases f : valid f ->
  (exists id x a, f = MkSform 0 (MkChart id [x]) [a]) \/
  (exists id x a, f = MkSform 1 (MkChart id [x]) [a]) \/
  (exists id x y a, f = MkSform 0 (MkChart id [x; y]) [a]) \/
  (exists id x y a b, f = MkSform 1 (MkChart id [x; y]) [a; b]) \/
  (exists id x y a, f = MkSform 2 (MkChart id [x; y]) [a]).
Proof.
  destruct f as [d [id cs] c]. unfold valid. cbn [sgrid sdeg scomps]. intros [Hd Hi].
  apply init_inv in Hi as (Hle & Hn & _). unfold dimension in *. cbn [coords] in *.
  destruct cs as [|x [|y [|z cs]]]; cbn [List.length] in *; try (exfalso; lia).
  - destruct d as [|[|d]]; [| |lia]; change (Z.of_nat 1) with 1%Z in Hn; change (Z.of_nat 0) with 0%Z in Hn;
    rewrite ?nCr_10, ?nCr_11 in Hn; injection Hn as Hn; destruct c as [|a [|b c]]; cbn [List.length] in Hn; try lia.
    + left. now exists id, x, a.
    + right; left. now exists id, x, a.
  - destruct d as [|[|[|d]]]; [| | |lia]; change (Z.of_nat 2) with 2%Z in Hn; change (Z.of_nat 1) with 1%Z in Hn; change (Z.of_nat 0) with 0%Z in Hn;
    rewrite ?nCr_20, ?nCr_21, ?nCr_22 in Hn; injection Hn as Hn; destruct c as [|a [|b [|b' c]]]; cbn [List.length] in Hn; try lia.
    + right; right; left. now exists id, x, y, a.
    + right; right; right; left. now exists id, x, y, a, b.
    + right; right; right; right. now exists id, x, y, a.
Qed.
Ltac cases Hv :=
  let H := fresh in pose proof (valid_cases _ Hv) as H;
  destruct H as [(?&?&?&->)|[(?&?&?&->)|[(?&?&?&?&->)|[(?&?&?&?&?&->)|(?&?&?&?&->)]]]]; clear Hv.
(** unify the charts of two forms *)
Ltac charts H := cbn [sgrid sdeg] in H; first [discriminate H|injection H as <- <- <-|injection H as <- <-|idtac].

Lemma chart_eqb_refl g : chart_eqb g g = true. Proof. apply Nat.eqb_refl. Qed.
Ltac run := lazy -[chart_eqb sdiff eval IZR]; rewrite ?chart_eqb_refl; repeat (progress (lazy -[chart_eqb sdiff eval IZR]; rewrite ?chart_eqb_refl)); reflexivity.
Ltac comps := let r := fresh "r" in let i := fresh "i" in let Hi := fresh "Hi" in
  intros r i Hi; simpl in Hi; destruct i as [|[|i]]; try (exfalso; lia); unfold val; cbn; try ring.
Ltac issum := repeat split; try reflexivity; comps.
(** two valid forms on the same chart *)
Ltac cases2 Ha Hb Hg := cases Ha; cases Hb; cbn [sgrid] in Hg; first [discriminate Hg|injection Hg as <- <- <-|injection Hg as <- <-].

(** mixed partial derivatives of expressions commute (value by value) *)
Lemma sdiff_comm r e u v : eval r (sdiff (sdiff e u) v) = eval r (sdiff (sdiff e v) u).
Proof.
  induction e as [c|w|f i j|a IHa b IHb|a IHa b IHb|a IHa|a IHa|a IHa n|a IHa|a IHa|a IHa|a IHa]; cbn [sdiff].
  - reflexivity.
  - destruct (Nat.eqb u w), (Nat.eqb v w); reflexivity.
  - destruct u as [|[|u]], v as [|[|v]]; reflexivity.
  - cbn [eval]. now rewrite IHa, IHb.
  - cbn [eval sdiff]. rewrite IHa, IHb. ring.
  - cbn [eval]. now rewrite IHa.
  - cbn [eval sdiff]. rewrite IHa. ring.
  - destruct n as [|n]; [reflexivity|]. cbn [sdiff eval]. destruct n as [|n]; cbn [sdiff eval]; rewrite IHa; ring.
  - cbn [eval sdiff]. rewrite IHa. ring.
  - cbn [eval sdiff]. rewrite IHa. ring.
  - cbn [eval sdiff]. rewrite IHa. ring.
  - cbn [eval sdiff]. rewrite IHa. ring.
Qed.

(** ** C51 *)
Theorem C51_d_squared_zero f : valid f -> exists g h, D (SForm f) = Ok g /\ D g = Ok h /\ vanishes h.
Proof.
  intro Hv. cases Hv.
  - do 2 eexists. split; [reflexivity|]. split; [reflexivity|]. exact I.
  - do 2 eexists. split; [reflexivity|]. split; [reflexivity|]. exact I.
  - do 2 eexists. split; [reflexivity|]. split; [reflexivity|]. intros r i Hi. simpl in Hi. assert (i = 0)%nat as -> by lia.
    unfold val. cbn. rewrite sdiff_comm. ring.
  - do 2 eexists. split; [reflexivity|]. split; [reflexivity|]. exact I.
  - do 2 eexists. split; [reflexivity|]. split; [reflexivity|]. exact I.
Qed.
Theorem C51_leibniz a b : valid a -> valid b -> sgrid a = sgrid b -> (sdeg a + sdeg b < dimension (sgrid a))%nat ->
  exists dab da_b a_db,
    bind (W (SForm a) (SForm b)) D = Ok (SForm dab) /\
    bind (D (SForm a)) (fun da => W da (SForm b)) = Ok (SForm da_b) /\
    bind (D (SForm b)) (W (SForm a)) = Ok (SForm a_db) /\
    sdeg dab = (sdeg a + sdeg b + 1)%nat /\ is_sum dab da_b ((-1) ^ sdeg a) a_db.
Proof.
  intros Ha Hb Hg Hd. cases2 Ha Hb Hg; cbn [sdeg sgrid dimension coords List.length] in *; try (exfalso; cbn in Hd; lia);
    (do 3 eexists; split; [run|]; split; [run|]; split; [run|]; issum).
Qed.
Example C51_instance : exists f, valid f /\ sdeg f = 1%nat /\ scomps f = [Mul (Sym 0) (Sin (Sym 1)); App 3 0 0].
Proof. exists (MkSform 1 chart_xy [Mul (Sym 0) (Sin (Sym 1)); App 3 0 0]). repeat split. right. reflexivity. Qed.

(** ** C52 *)
Theorem C52_defined_iff_degree a b : valid a -> valid b -> sgrid a = sgrid b ->
  if (sdeg a + sdeg b <=? dimension (sgrid a))%nat
  then exists w, W (SForm a) (SForm b) = Ok (SForm w) /\ valid w /\ sdeg w = (sdeg a + sdeg b)%nat /\ sgrid w = sgrid a
  else W (SForm a) (SForm b) = Err KeyError.
Proof.
  intros Ha Hb Hg. cases2 Ha Hb Hg; cbn [sdeg sgrid Nat.add]; cbn [dimension coords List.length Nat.leb]; try run;
   (eexists; split; [run|]; repeat split; [try (left; reflexivity); right; reflexivity]).
Qed.
Theorem C52_graded_commutative a b : valid a -> valid b -> sgrid a = sgrid b -> (sdeg a + sdeg b <= dimension (sgrid a))%nat ->
  exists ab ba, W (SForm a) (SForm b) = Ok (SForm ab) /\ W (SForm b) (SForm a) = Ok (SForm ba) /\
    sdeg ab = sdeg ba /\ List.length (scomps ab) = List.length (scomps ba) /\
    forall r i, (i < List.length (scomps ab))%nat -> val r ab i = (-1) ^ (sdeg a * sdeg b) * val r ba i.
Proof.
  intros Ha Hb Hg Hd. cases2 Ha Hb Hg; cbn [sdeg sgrid dimension coords List.length] in *; try (exfalso; cbn in Hd; lia);
   (do 2 eexists; split; [run|]; split; [run|]; repeat split; comps).
Qed.
Theorem C52_associative a b c : valid a -> valid b -> valid c -> sgrid a = sgrid b -> sgrid a = sgrid c ->
  (sdeg a + sdeg b + sdeg c <= dimension (sgrid a))%nat ->
  exists l r, bind (W (SForm a) (SForm b)) (fun ab => W ab (SForm c)) = Ok (SForm l) /\
    bind (W (SForm b) (SForm c)) (W (SForm a)) = Ok (SForm r) /\ same l r.
Proof.
  intros Ha Hb Hc Hg Hg' Hd. cases2 Ha Hb Hg; cases Hc; cbn [sgrid] in Hg'; try discriminate Hg';
   first [injection Hg' as <- <- <-|injection Hg' as <- <-]; cbn [sdeg sgrid dimension coords List.length] in *; try (exfalso; cbn in Hd; lia);
   (do 2 eexists; split; [run|]; split; [run|]; repeat split; comps).
Qed.
(** 1 is neutral; [one] is the 0-form 1 on the chart of a *)
Theorem C52_unit a one : valid a -> sform_init 0 (sgrid a) [Cst 1] = Ok one ->
  exists l r, W (SForm one) (SForm a) = Ok (SForm l) /\ W (SForm a) (SForm one) = Ok (SForm r) /\ same l a /\ same r a.
Proof.
  intros Ha Ho. cases Ha; vm_compute in Ho; injection Ho as <-;
   (do 2 eexists; split; [run|]; split; [run|]; repeat split; comps).
Qed.
Theorem C52_bilinear a a' b : valid a -> valid a' -> valid b -> sgrid a = sgrid a' -> sgrid a = sgrid b -> sdeg a = sdeg a' ->
  (sdeg a + sdeg b <= dimension (sgrid a))%nat ->
  exists l l1 l2 r r1 r2,
    bind (s_add a (OForm a')) (fun s => W (SForm s) (SForm b)) = Ok (SForm l) /\
    W (SForm a) (SForm b) = Ok (SForm l1) /\ W (SForm a') (SForm b) = Ok (SForm l2) /\ is_sum l l1 1 l2 /\
    bind (s_add a (OForm a')) (fun s => W (SForm b) (SForm s)) = Ok (SForm r) /\
    W (SForm b) (SForm a) = Ok (SForm r1) /\ W (SForm b) (SForm a') = Ok (SForm r2) /\ is_sum r r1 1 r2.
Proof.
  intros Ha Ha' Hb Hg Hg' Hs Hd. cases2 Ha Ha' Hg; try discriminate Hs; cases Hb; cbn [sgrid] in Hg'; try discriminate Hg';
   first [injection Hg' as <- <- <-|injection Hg' as <- <-]; cbn [sdeg sgrid dimension coords List.length] in *; try (exfalso; cbn in Hd; lia);
   (do 6 eexists; split; [run|]; split; [run|]; split; [run|]; split; [issum|]; split; [run|]; split; [run|]; split; [run|]; issum).
Qed.
Theorem C52_odd_square_zero a : valid a -> Nat.odd (sdeg a) = true -> (2 * sdeg a <= dimension (sgrid a))%nat ->
  exists w, W (SForm a) (SForm a) = Ok w /\ vanishes w.
Proof.
  intros Ha Ho Hd. cases Ha; cbn [sdeg sgrid dimension coords List.length] in *; try discriminate Ho; try (exfalso; cbn in Hd; lia).
  eexists; split; [run|]. comps.
Qed.
(** the components mean what they should: (a^b)(v,w) = a(v) b(w) - a(w) b(v) *)
Theorem C52_wedge_is_alternating_product a b : valid a -> valid b -> sgrid a = sgrid b -> sdeg a = 1%nat -> sdeg b = 1%nat -> dimension (sgrid a) = 2%nat ->
  exists w, W (SForm a) (SForm b) = Ok (SForm w) /\
    forall r v w1, on2 r w v w1 = on1 r a [fst v; snd v] * on1 r b [fst w1; snd w1] - on1 r a [fst w1; snd w1] * on1 r b [fst v; snd v].
Proof.
  intros Ha Hb Hg Da Db Hd. cases2 Ha Hb Hg; cbn [sdeg sgrid dimension coords List.length] in *; try discriminate.
  eexists; split; [run|]. intros r [v1 v2] [w1 w2]. unfold on2, on1, val. cbn. ring.
Qed.
Example C52_instance : valid (MkSform 1 chart_xy [Sym 0; Sym 1]) /\ valid (MkSform 1 chart_xy [Cst 3; Exp (Sym 0)]) /\
  W (SForm (MkSform 1 chart_xy [Sym 0; Sym 1])) (SForm (MkSform 1 chart_xy [Cst 3; Exp (Sym 0)])) =
    Ok (SForm (MkSform 2 chart_xy [Add (Mul (Sym 0) (Exp (Sym 0))) (Opp (Mul (Sym 1) (Cst 3)))])).
Proof. split; [|split]; [split; [right|]; reflexivity..|reflexivity]. Qed.

(** ** C53 *)
Theorem C53_hodge_involution a : valid a -> exists h hh, H (SForm a) = Ok h /\ H h = Ok (SForm hh) /\
  sdeg hh = sdeg a /\ sgrid hh = sgrid a /\ List.length (scomps hh) = List.length (scomps a) /\
  forall r i, (i < List.length (scomps a))%nat ->
    val r hh i = (-1) ^ (sdeg a * (dimension (sgrid a) - sdeg a)) * val r a i.
Proof. intro Ha. cases Ha; (do 2 eexists; split; [run|]; split; [run|]; repeat split; comps). Qed.
Theorem C53_dot a b : valid a -> valid b -> sgrid a = sgrid b -> sdeg a = sdeg b ->
  exists u v, Dot (SForm a) (SForm b) = Ok (SForm u) /\ Dot (SForm b) (SForm a) = Ok (SForm v) /\ same u v /\ sdeg u = 0%nat /\
   forall r, val r u 0 = fold_right Rplus 0 (map (fun i => val r a i * val r b i) (seq 0 (ncomp (dimension (sgrid a)) (sdeg a)))).
Proof.
  intros Ha Hb Hg Hd. cases2 Ha Hb Hg; cbn [sdeg] in Hd; try discriminate Hd;
  (do 2 eexists; split; [run|]; split; [run|]; repeat split; [comps|intro r; unfold val; cbn; try ring]).
Qed.
(** the inner product of forms of different degrees: the second degree may be larger (a number times the form, or the contraction), not smaller *)
Theorem C53_dot_degrees a b : valid a -> valid b -> sgrid a = sgrid b ->
  ((sdeg b < sdeg a)%nat -> Dot (SForm a) (SForm b) = Err KeyError) /\
  ((sdeg a < sdeg b)%nat -> exists u, Dot (SForm a) (SForm b) = Ok (SForm u) /\ sdeg u = (sdeg b - sdeg a)%nat /\ sgrid u = sgrid a /\
     List.length (scomps u) = ncomp (dimension (sgrid a)) (sdeg u) /\
     (sdeg a = 0%nat -> forall r i, (i < List.length (scomps b))%nat -> val r u i = (-1) ^ (sdeg b * (dimension (sgrid b) - sdeg b)) * (val r a 0 * val r b i)) /\
     (sdeg a = 1%nat -> exists c, C (SForm a) (SForm b) = Ok (SForm c) /\ same u c)).
Proof.
  intros Ha Hb Hg. cases2 Ha Hb Hg; cbn [sdeg]; (split; [intro Hl; first [exfalso; lia|run]|intro Hl; first [exfalso; lia|eexists; split; [run|]; split; [reflexivity|]; split; [reflexivity|]; split; [reflexivity|]; split;
    [intro Hz; first [discriminate Hz|comps]|intro Ho; first [discriminate Ho|eexists; split; [run|]; repeat split; comps]]]]).
Qed.
(** a ^ *b = <a,b> vol, where vol = *1 *)
Theorem C53_wedge_hodge a b one : valid a -> valid b -> sgrid a = sgrid b -> sdeg a = sdeg b -> sform_init 0 (sgrid a) [Cst 1] = Ok one ->
  exists l r, bind (H (SForm b)) (W (SForm a)) = Ok (SForm l) /\
    bind (Dot (SForm a) (SForm b)) (fun d => bind (H (SForm one)) (W d)) = Ok (SForm r) /\ same l r.
Proof.
  intros Ha Hb Hg Hd Ho. cases2 Ha Hb Hg; cbn [sdeg] in Hd; try discriminate Hd; vm_compute in Ho; injection Ho as <-;
  (do 2 eexists; split; [run|]; split; [run|]; repeat split; comps).
Qed.
Example C53_instance : Dot (SForm (MkSform 1 chart_xy [Sym 0; Sym 1])) (SForm (MkSform 1 chart_xy [Sym 0; Sym 1])) =
  Ok (SForm (MkSform 0 chart_xy [Add (Mul (Sym 0) (Sym 0)) (Opp (Mul (Sym 1) (Opp (Sym 1))))])).
Proof. reflexivity. Qed.

(** ** C54 *)
Theorem C54_contraction_twice X w : valid X -> valid w -> sgrid X = sgrid w -> sdeg X = 1%nat ->
  exists c cc, C (SForm X) (SForm w) = Ok c /\ C (SForm X) c = Ok cc /\ vanishes cc.
Proof.
  intros HX Hw Hg Hd. cases2 HX Hw Hg; cbn [sdeg] in Hd; try discriminate Hd;
  (do 2 eexists; split; [run|]; split; [run|]); try exact I; comps.
Qed.
(** contraction inserts X in the first slot; 0 on functions *)
Theorem C54_contraction_inserts X w : valid X -> valid w -> sgrid X = sgrid w -> sdeg X = 1%nat ->
  match sdeg w with
  | 0%nat => C (SForm X) (SForm w) = Ok SZero
  | 1%nat => exists c, C (SForm X) (SForm w) = Ok (SForm c) /\ forall r, val r c 0 = on1 r w (map (eval r) (scomps X))
  | _ => exists c, C (SForm X) (SForm w) = Ok (SForm c) /\ forall r v, on1 r c [fst v; snd v] = on2 r w (val r X 0, val r X 1) v
  end.
Proof.
  intros HX Hw Hg Hd. cases2 HX Hw Hg; cbn [sdeg] in *; try discriminate Hd; try run;
  (eexists; split; [run|]; intros; unfold val, on1, on2; cbn; try (unfold val; cbn); try ring).
Qed.
(** antiderivation; where a contraction is 0 (on functions) the corresponding term is absent *)
Theorem C54_antiderivation X a b : valid X -> valid a -> valid b -> sgrid X = sgrid a -> sgrid X = sgrid b -> sdeg X = 1%nat ->
  (sdeg a + sdeg b <= dimension (sgrid X))%nat ->
  match sdeg a, sdeg b with
  | O, O => bind (W (SForm a) (SForm b)) (C (SForm X)) = Ok SZero
  | O, S _ => exists l r, bind (W (SForm a) (SForm b)) (C (SForm X)) = Ok (SForm l) /\
        bind (C (SForm X) (SForm b)) (W (SForm a)) = Ok (SForm r) /\ same l r
  | S _, O => exists l r, bind (W (SForm a) (SForm b)) (C (SForm X)) = Ok (SForm l) /\
        bind (C (SForm X) (SForm a)) (fun c => W c (SForm b)) = Ok (SForm r) /\ same l r
  | S _, S _ => exists l r1 r2, bind (W (SForm a) (SForm b)) (C (SForm X)) = Ok (SForm l) /\
        bind (C (SForm X) (SForm a)) (fun c => W c (SForm b)) = Ok (SForm r1) /\
        bind (C (SForm X) (SForm b)) (W (SForm a)) = Ok (SForm r2) /\ is_sum l r1 ((-1) ^ sdeg a) r2
  end.
Proof.
  intros HX Ha Hb Hg Hg' Hd Hle. cases2 HX Ha Hg; cbn [sdeg] in Hd; try discriminate Hd; cases Hb; cbn [sgrid] in Hg'; try discriminate Hg';
   first [injection Hg' as <- <- <-|injection Hg' as <- <-]; cbn [sdeg sgrid dimension coords List.length] in *; try (exfalso; cbn in Hle; lia); try run;
   first [do 2 eexists; split; [run|]; split; [run|]; repeat split; comps|do 3 eexists; split; [run|]; split; [run|]; split; [run|]; issum].
Qed.
(** Lie derivative in coordinates: (L_X a)_j = sum_i X_i d_i a_j + a_i d_j X_i (k = 1), X(f) (k = 0), div(f X) (k = n) *)
Theorem C54_lie X f : valid X -> valid f -> sgrid X = sgrid f -> sdeg X = 1%nat ->
  exists L, Lie (SForm X) (SForm f) = Ok (SForm L) /\ sdeg L = sdeg f /\ sgrid L = sgrid f /\ List.length (scomps L) = List.length (scomps f) /\
  let cs := coords (sgrid f) in
  let comp a i := nth i (scomps a) (Cst 0) in
  forall r j, (j < List.length (scomps f))%nat -> val r L j =
    match sdeg f with
    | O => coord_sum cs (fun i v => val r X i * eval r (sdiff (comp f 0%nat) v)) 0
    | 1%nat => coord_sum cs (fun i v => val r X i * eval r (sdiff (comp f j) v) + val r f i * eval r (sdiff (comp X i) (nth j cs O))) 0
    | _ => coord_sum cs (fun i v => eval r (sdiff (Mul (comp f 0%nat) (comp X i)) v)) 0
    end.
Proof.
  intros HX Hf Hg Hd. cases2 HX Hf Hg; cbn [sdeg] in Hd; try discriminate Hd;
  (eexists; split; [run|]; repeat split; cbv zeta; comps).
Qed.
Theorem C54_lie_commutes_with_d X f : valid X -> valid f -> sgrid X = sgrid f -> sdeg X = 1%nat -> (sdeg f < dimension (sgrid f))%nat ->
  exists l r, bind (Lie (SForm X) (SForm f)) D = Ok (SForm l) /\ bind (D (SForm f)) (Lie (SForm X)) = Ok (SForm r) /\ same l r.
Proof.
  intros HX Hf Hg Hd Hle. cases2 HX Hf Hg; cbn [sdeg] in Hd; try discriminate Hd; cbn [sdeg sgrid dimension coords List.length] in *; try (exfalso; cbn in Hle; lia);
  (do 2 eexists; split; [run|]; split; [run|]; repeat split; comps).
  all: match goal with |- context [sdiff (sdiff ?e ?u) ?v] => assert_fails (constr_eq u v); rewrite !(sdiff_comm r _ u v); ring end.
Qed.
Example C54_instance : exists L, Lie (SForm (MkSform 1 chart_xy [App 0 0 0; App 1 0 0])) (SForm (MkSform 0 chart_xy [App 2 0 0])) = Ok (SForm L) /\
  scomps L = [Add (Add (Mul (App 0 0 0) (App 2 1 0)) (Mul (App 1 0 0) (App 2 0 1))) (Cst 0)].
Proof. eexists. split; reflexivity. Qed.

(** ** C55 *)
Theorem C55_laplacian f : valid f -> exists L, Laplacian (SForm f) = Ok (SForm L) /\ sdeg L = sdeg f /\ sgrid L = sgrid f /\ List.length (scomps L) = List.length (scomps f) /\
  forall r j, (j < List.length (scomps f))%nat ->
    val r L j = coord_sum (coords (sgrid f)) (fun _ v => eval r (sdiff (sdiff (nth j (scomps f) (Cst 0)) v) v)) 0.
Proof.
  intros Hf. cases Hf; (eexists; split; [run|]; repeat split; comps).
  all: match goal with |- context [sdiff (sdiff ?e ?u) ?v] => assert_fails (constr_eq u v); rewrite !(sdiff_comm r _ u v); ring end.
Qed.
(** grad, div, vort and adv (coordinates x, y = symbols 0, 1) *)
Theorem C55_vector_calculus (f u v : expr) :
  (exists gx gy, grad f = Ok [gx; gy] /\ (forall r, eval r gx = eval r (sdiff f 0) /\ eval r gy = eval r (sdiff f 1)) /\
     (exists L, div [gx; gy] = Ok L /\ forall r, eval r L = eval r (sdiff (sdiff f 0) 0) + eval r (sdiff (sdiff f 1) 1)) /\
     (exists w, vort [gx; gy] = Ok w /\ forall r, eval r w = 0) /\
     (exists w, div [Opp gy; gx] = Ok w /\ forall r, eval r w = 0)) /\
  (exists d, div [u; v] = Ok d /\ forall r, eval r d = eval r (sdiff u 0) + eval r (sdiff v 1)) /\
  (exists w, vort [u; v] = Ok w /\ forall r, eval r w = eval r (sdiff v 0) - eval r (sdiff u 1)) /\
  (exists a b, adv [u; v] = Ok [a; b] /\ forall r,
     eval r a = eval r u * eval r (sdiff u 0) + eval r v * eval r (sdiff u 1) /\
     eval r b = eval r u * eval r (sdiff v 0) + eval r v * eval r (sdiff v 1)).
Proof.
  repeat split.
  - do 2 eexists. split; [run|]. split; [intro r; split; reflexivity|]. repeat split; (eexists; split; [run|]); intro r; cbn; rewrite ?(sdiff_comm r f 1 0); ring.
  - eexists; split; [run|]; intro r; cbn; ring.
  - eexists; split; [run|]; intro r; cbn; ring.
  - do 2 eexists; split; [run|]; intro r; split; cbn; field.
Qed.
Example C55_instance : exists d, div [Mul (Sym 0) (Sym 1); Sin (Sym 1)] = Ok d /\ eval (MkEnv (fun _ => 0) (fun _ _ _ _ _ => 0)) d = 0 + 1.
Proof.
  destruct (C55_vector_calculus (Cst 0) (Mul (Sym 0) (Sym 1)) (Sin (Sym 1))) as (_ & (d & E & Hd) & _).
  exists d. split; [exact E|]. rewrite Hd. cbn. rewrite cos_0. ring.
Qed.

(** ** C56 *)
Theorem C56_scalar_multiplication_raises (c : expr) (f : sform) : s_rmul (Scalar c) f = Err TypeError.
Proof. reflexivity. Qed.
(** so the expected law "c*form scales every component" fails for every form and scalar *)
Theorem C56_scaling_law_refuted : ~ exists (c : expr) (f g : sform), valid f /\ s_rmul (Scalar c) f = Ok g.
Proof. intros (c & f & g & _ & E). discriminate E. Qed.

(** ** C57 *)
(** the functions and their formal partial derivatives are coherent *)
Definition coherent (r : env) : Prop := forall f i j x y,
  is_derive (fun t => fval r f i j t y) x (fval r f (S i) j x y) /\ is_derive (fun t => fval r f i j x t) y (fval r f i (S j) x y).
(** e is defined (and smooth) at r: no division by 0, square roots of positive numbers only *)
Fixpoint smooth_at (r : env) (e : expr) : Prop :=
  match e with
  | Add a b | Mul a b => smooth_at r a /\ smooth_at r b
  | Opp a | Pow a _ | Sin a | Cos a | Exp a => smooth_at r a
  | Inv a => smooth_at r a /\ eval r a <> 0
  | Sqrt a => smooth_at r a /\ 0 < eval r a
  | _ => True
  end.
Lemma upd_self r v e : eval (upd r v (sval r v)) e = eval r e.
Proof.
  assert (forall w, sval (upd r v (sval r v)) w = sval r w) as E by (intro w; simpl; now destruct (Nat.eqb_spec w v); subst).
  induction e; cbn [eval]; rewrite ?E; try reflexivity; congruence.
Qed.
Theorem C57_diff_is_derivative r e v : coherent r -> smooth_at r e ->
  is_derive (fun t => eval (upd r v t) e) (sval r v) (eval r (sdiff e v)).
Proof.
  intros Hc. induction e as [c|w|f i j|a IHa b IHb|a IHa b IHb|a IHa|a IHa|a IHa n|a IHa|a IHa|a IHa|a IHa]; cbn [smooth_at]; intro Hs; cbn [sdiff].
  - cbn [eval]. auto_derive; auto.
  - cbn [eval upd sval]. rewrite (Nat.eqb_sym v w). destruct (Nat.eqb w v); cbn [eval]; auto_derive; auto.
  - destruct v as [|[|v]]; cbn [eval upd sval fval Nat.eqb].
    + apply Hc.
    + apply Hc.
    + auto_derive; auto.
  - destruct Hs as [Ha Hb]. cbn [eval]. apply (is_derive_plus (fun t => eval (upd r v t) a) (fun t => eval (upd r v t) b)); auto.
  - destruct Hs as [Ha Hb]. cbn [eval]. evar_last. apply (is_derive_mult (fun t => eval (upd r v t) a) (fun t => eval (upd r v t) b)); auto.
    intros n m; apply Rmult_comm. rewrite !upd_self. reflexivity.
  - cbn [eval]. apply (is_derive_opp (fun t => eval (upd r v t) a)); auto.
  - destruct Hs as [Ha Hb]. cbn [eval]. evar_last. apply (is_derive_inv (fun t => eval (upd r v t) a)); [auto|now rewrite upd_self]. rewrite upd_self. cbn. field. auto.
  - destruct n as [|n]; cbn [eval].
    + simpl. auto_derive; auto.
    + evar_last. apply (is_derive_pow (fun t => eval (upd r v t) a)); auto. rewrite upd_self. simpl pred. ring.
  - cbn [eval]. evar_last. apply (is_derive_comp sin (fun t => eval (upd r v t) a)); [|auto]. rewrite upd_self. apply is_derive_Reals, derivable_pt_lim_sin. cbn. unfold scal; simpl; unfold mult; simpl. ring.
  - cbn [eval]. evar_last. apply (is_derive_comp cos (fun t => eval (upd r v t) a)); [|auto]. rewrite upd_self. apply is_derive_Reals, derivable_pt_lim_cos. cbn. unfold scal; simpl; unfold mult; simpl. ring.
  - cbn [eval]. evar_last. apply (is_derive_comp exp (fun t => eval (upd r v t) a)); [|auto]. rewrite upd_self. apply is_derive_Reals, derivable_pt_lim_exp. cbn. unfold scal; simpl; unfold mult; simpl. ring.
  - destruct Hs as [Ha Hb]. cbn [eval]. evar_last. apply (is_derive_comp sqrt (fun t => eval (upd r v t) a)); [|auto]. rewrite upd_self. apply is_derive_Reals. apply derivable_pt_lim_sqrt. auto. cbn. unfold scal; simpl; unfold mult; simpl. reflexivity.
Qed.
(** the components of D are (combinations of) the partial derivatives of the components *)
Theorem C57_D_components f : valid f -> exists d, D (SForm f) = Ok d /\
  match sdeg f, coords (sgrid f), d with
  | O, cs, SForm df => sdeg df = 1%nat /\ List.length (scomps df) = List.length cs /\
      forall r i, coherent r -> smooth_at r (nth 0 (scomps f) (Cst 0)) -> (i < List.length cs)%nat ->
        is_derive (fun t => val (upd r (nth i cs O) t) f 0) (sval r (nth i cs O)) (val r df i)
  | 1%nat, [x; y], SForm df => sdeg df = 2%nat /\ List.length (scomps df) = 1%nat /\
      forall r, coherent r -> smooth_at r (nth 0 (scomps f) (Cst 0)) -> smooth_at r (nth 1 (scomps f) (Cst 0)) ->
        val r df 0 = Derive (fun t => val (upd r x t) f 1) (sval r x) - Derive (fun t => val (upd r y t) f 0) (sval r y)
  | _, _, _ => d = SZero
  end.
Proof.
  intro Hf. cases Hf; (eexists; split; [run|]); cbn [sdeg sgrid coords]; try reflexivity.
  - split; [reflexivity|]. split; [reflexivity|]. intros r i Hc Hs Hi. cbn in Hi. assert (i = 0)%nat as -> by lia. unfold val. cbn [scomps nth]. apply C57_diff_is_derivative; auto.
  - split; [reflexivity|]. split; [reflexivity|]. intros r i Hc Hs Hi. cbn in Hi. destruct i as [|[|i]]; [| |lia]; unfold val; cbn [scomps nth]; apply C57_diff_is_derivative; auto.
  - split; [reflexivity|]. split; [reflexivity|]. intros r Hc Hs Hs'. unfold val. cbn [scomps nth eval].
    rewrite (is_derive_unique _ _ _ (C57_diff_is_derivative r _ _ Hc Hs)), (is_derive_unique _ _ _ (C57_diff_is_derivative r _ _ Hc Hs')). cbn [nth scomps]. ring.
Qed.
Example C57_instance : let r := MkEnv (fun _ => 2) (fun _ _ _ _ _ => 0) in
  coherent r /\ smooth_at r (Mul (Sin (Sym 0)) (Inv (Sqrt (Sym 1)))).
Proof.
  cbv zeta. split.
  - intros f i j x y. cbn. split; auto_derive; auto.
  - cbn. repeat split; try lra. apply Rgt_not_eq, sqrt_lt_R0. lra.
Qed.

(** ** C58 *)
Lemma choose_O n : choose n 0 = 1%nat. Proof. now destruct n. Qed.
Lemma choose_gt n : forall k, (n < k)%nat -> choose n k = 0%nat.
Proof. induction n; intros [|k] Hk; try lia; simpl; auto. rewrite !IHn by lia. reflexivity. Qed.
Lemma choose_fact n : forall k, (k <= n)%nat -> (choose n k * (fact k * fact (n - k)) = fact n)%nat.
Proof.
  induction n as [|n IH]; intros k Hk.
  - assert (k = 0)%nat as -> by lia. reflexivity.
  - destruct k as [|k]; [rewrite choose_O; simpl fact; lia|]. cbn [choose].
    destruct (Nat.eq_dec k n) as [->|Hne].
    + rewrite (choose_gt n (S n)) by lia. pose proof (IH n (le_n n)) as E. rewrite Nat.sub_diag in *. simpl fact in *. nia.
    + pose proof (IH k ltac:(lia)) as E1. pose proof (IH (S k) ltac:(lia)) as E2.
      replace (S n - S k)%nat with (n - k)%nat by lia. replace (n - k)%nat with (S (n - S k)) in * by lia.
      change (fact (S (n - S k))) with (S (n - S k) * fact (n - S k))%nat in *. change (fact (S k)) with (S k * fact k)%nat in *. change (fact (S n)) with (S n * fact n)%nat.
      set (A := fact k) in *. set (B := fact (n - S k)) in *. set (m := (n - S k)%nat) in *. assert (n = k + S m)%nat as En by (unfold m; lia).
      transitivity (S k * (choose n k * (A * (S m * B))) + S m * (choose n (S k) * (S k * A * B)))%nat; [ring|].
      rewrite E1, E2, <- Nat.mul_add_distr_r. f_equal. lia.
Qed.
Theorem C58_nCr (n r : Z) : (0 <= n)%Z ->
  nCr n r = if ((0 <=? r) && (r <=? n))%Z%bool then Ok (Z.of_nat (choose (Z.to_nat n) (Z.to_nat r))) else Err ValueError.
Proof.
  intro Hn. unfold nCr, factorial. destruct (Z.ltb_spec n 0); [lia|]. cbn [bind].
  destruct (Z.leb_spec 0 r), (Z.ltb_spec r 0); try lia; cbn [andb bind]; [|reflexivity].
  destruct (Z.leb_spec r n), (Z.ltb_spec (n - r) 0); try lia; cbn [bind]; [|reflexivity].
  f_equal. pose proof (choose_fact (Z.to_nat n) (Z.to_nat r) ltac:(lia)) as E. rewrite Z2Nat.inj_sub by lia. rewrite <- E.
  rewrite !Nat2Z.inj_mul. pose proof (lt_O_fact (Z.to_nat r)). pose proof (lt_O_fact (Z.to_nat n - Z.to_nat r)).
  rewrite (Z.mul_comm (Z.of_nat (fact _)) (Z.of_nat (fact (_ - _)))), Z.mul_assoc, Z.div_mul by lia. apply Z.div_mul. lia.
Qed.
Theorem C58_form_guard (d : Z) (g : chart) (c : list expr) :
  (exists f, sform_init d g c = Ok f /\ sdeg f = Z.to_nat d /\ sgrid f = g /\ scomps f = c) <->
  (0 <= d <= Z.of_nat (dimension g))%Z /\ List.length c = choose (dimension g) (Z.to_nat d).
Proof.
  unfold sform_init. split.
  - intros (f & E & _). destruct (Z.leb_spec d (Z.of_nat (dimension g))); [|discriminate]. rewrite C58_nCr in E by lia.
    destruct (Z.leb_spec 0 d); [|discriminate]. destruct (Z.leb_spec d (Z.of_nat (dimension g))); [|discriminate]. cbn [andb bind] in E.
    destruct (Z.eqb_spec (Z.of_nat (List.length c)) (Z.of_nat (choose (Z.to_nat (Z.of_nat (dimension g))) (Z.to_nat d)))) as [El|]; [|discriminate].
    rewrite Nat2Z.id in El. split; [lia|]. lia.
  - intros [Hd Hl]. destruct (Z.leb_spec d (Z.of_nat (dimension g))); [|lia]. rewrite C58_nCr by lia.
    destruct (Z.leb_spec 0 d); [|lia]. destruct (Z.leb_spec d (Z.of_nat (dimension g))); [|lia]. cbn [andb bind].
    rewrite Nat2Z.id, Hl, Z.eqb_refl. eexists. repeat split.
Qed.
Example C58_instance : nCr 5 2 = Ok 10%Z /\ exists f, sform_init 1 chart_xy [Sym 0; Cst 1] = Ok f.
Proof. split; [reflexivity|]. eexists. reflexivity. Qed.

(** ** C59 *)
(** points have measure 1 and segments their (signed, in 1D) length, in dimensions 1 to 3 *)
Theorem C59_point_segment_measure (p q : list R) : List.length p = List.length q -> (1 <= List.length p <= 3)%nat ->
  simplex_measure [p] = Ok (Some 1) /\
  simplex_measure [p; q] = Ok (Some (match p, q with
     | [a], [b] => b - a
     | _, _ => sqrt (fold_right Rplus 0 (map (fun ab => (snd ab - fst ab) * (snd ab - fst ab)) (combine p q)))
     end)).
Proof.
  intros E Hl. destruct p as [|a [|b [|c [|d p]]]], q as [|a' [|b' [|c' [|d' q]]]]; simpl in E, Hl; try lia; (split; [reflexivity|]);
   cbv - [sqrt Rplus Rminus Rmult pow IZR Ropp fold_right]; cbn [fold_right]; do 2 f_equal; f_equal; ring.
Qed.
(** points of different dimensions raise, and so does no point; points of dimension above 3, and too many of them, give None *)
Theorem C59_malformed (s : list (list R)) :
  (s = [] -> simplex_measure s = Err IndexError) /\
  (forall p q, In p s -> In q s -> List.length p <> List.length q -> simplex_measure s = Err AssertionError) /\
  (forall n, s <> [] -> (forall p, In p s -> List.length p = n) -> (n = 0 \/ 3 < n \/ S n < List.length s)%nat -> simplex_measure s = Ok None).
Proof.
  split; [intros ->; reflexivity|]. split.
  - intros p q Hp Hq Hl. destruct s as [|s0 s]; [destruct Hp|]. unfold simplex_measure.
    destruct (forallb _ (s0 :: s)) eqn:E; [|reflexivity]. rewrite forallb_forall in E. elim Hl. transitivity (List.length s0); [symmetry|]; now apply Nat.eqb_eq, E.
  - intros n Hs Hn Hc. destruct s as [|s0 s]; [easy|]. unfold simplex_measure. rewrite (Hn s0) by (cbn; auto).
    replace (forallb _ (s0 :: s)) with true by (symmetry; apply forallb_forall; intros x Hx; apply Nat.eqb_eq; symmetry; now apply Hn).
    destruct n as [|[|[|[|n]]]]; [reflexivity| | | |reflexivity]; destruct s as [|s1 [|s2 [|s3 [|s4 s]]]]; cbn [List.length] in *; first [reflexivity|exfalso; lia].
Qed.
(** every triangle in the plane raises *)
Theorem C59_triangle_raises (x0 y0 x1 y1 x2 y2 : R) : simplex_measure [[x0; y0]; [x1; y1]; [x2; y2]] = Err UnboundLocalError.
Proof. reflexivity. Qed.
Theorem C59_triangle_area_refuted : ~ exists x0 y0 x1 y1 x2 y2 : R, simplex_measure [[x0; y0]; [x1; y1]; [x2; y2]] = Ok (Some (((x1-x0)*(y2-y0) - (x2-x0)*(y1-y0))/2)).
Proof. intros (x0 & y0 & x1 & y1 & x2 & y2 & E). discriminate E. Qed.
Example C59_instance : simplex_measure [[1]; [4]] = Ok (Some (4 - 1)).
Proof. reflexivity. Qed.
