(** C36-C40: the operator tables of 1D grids and discrete forms. *)
From Coq Require Import ZArith Reals List Lia Lra Arith Bool.
From Verif Require Import Model.Sym.
From Coquelicot Require Import Complex.
From Verif Require Import Model.Num Model.Np Model.Spectral Model.Regular Model.Chebyshev Model.Basis Model.Grids1 Model.Common Model.Decform
  Proofs.ListLemmas Proofs.Lin Proofs.TableLin.
Import ListNotations.
Local Open Scope R_scope.

(** ** C36: keys and lengths *)
Lemma has_key4 {V} (v : nat -> bool -> V) d p : (exists o, tget (tab4 v) (d, p) = Ok o) <-> (d <= 1)%nat.
Proof.
  split.
  - intros [o E]. destruct d as [|[|d]]; [lia|lia|]. destruct p; discriminate.
  - intro. destruct d as [|[|d]]; [| |lia]; destruct p; eexists; reflexivity.
Qed.
Theorem C36_keys_unary close k n d p : let g := grid_1d close k n in
  ((exists o, tget (gD g) (d, p) = Ok o) <-> (d <= 1)%nat) /\
  ((exists o, tget (gH g) (d, p) = Ok o) <-> (d <= 1)%nat) /\
  ((exists o, tget (gB g) (d, p) = Ok o) <-> (d <= 1)%nat) /\
  ((exists o, tget (gT g) (d, p) = Ok o) <-> (d <= 1)%nat) /\
  ((exists o, tget (gN g) (d, p) = Ok o) <-> (d <= 1)%nat).
Proof.
  repeat split; try apply has_key4; intro H;
  try (destruct H as [o E]; destruct d as [|[|d]]; [lia|lia|]; destruct p, k; discriminate);
  (destruct d as [|[|d]]; [| |lia]; destruct p, k; eexists; reflexivity).
Qed.
Theorem C36_keys_W close k n d0 p0 d1 p1 p2 :
  match gW (grid_1d close k n) with
  | None => k = Regular
  | Some W => k <> Regular /\ ((exists o, dget wkey_eqb W ((d0, p0), (d1, p1), p2) = Ok o) <-> (d0 + d1 <= 1)%nat)
  end.
Proof.
  destruct k; [|reflexivity|]; (split; [discriminate|split]).
  1,3: intros [o E]; destruct d0 as [|[|d0]], d1 as [|[|d1]]; try lia; destruct p0, p1, p2; discriminate.
  all: intro; destruct d0 as [|[|d0]], d1 as [|[|d1]]; try lia; destruct p0, p1, p2; eexists; reflexivity.
Qed.
Theorem C36_keys_C close k n p0 d1 p1 p2 :
  match gC (grid_1d close k n) with
  | None => k = Regular
  | Some C => k <> Regular /\ ((exists o, dget ckey_eqb C (p0, (d1, p1), p2) = Ok o) <-> d1 = 1%nat)
  end.
Proof.
  destruct k; [|reflexivity|]; (split; [discriminate|split]).
  1,3: intros [o E]; destruct d1 as [|[|d1]]; auto; destruct p0, p1, p2; discriminate.
  all: intros ->; destruct p0, p1, p2; eexists; reflexivity.
Qed.

(** The lengths of results.  [guarded]: on Chebyshev grids of n vertices the test numpy.isclose of
    fourier_K_inv does not report a singular operator. *)
Theorem C36_length_D close k n p f : (1 <= n)%nat -> length f = grid_N k n 0 p ->
  exists o a, tget (gD (grid_1d close k n)) (0%nat, p) = Ok o /\ o f = Ok (RArr a) /\ length a = grid_N k n 1 p.
Proof.
  intros Hn L. destruct p; destruct k; eexists _, _; (split; [reflexivity|]); (split; [reflexivity|]);
  first [apply (lin_len _ _ _ _ (lin_D0 _ n) L)|apply (lin_len _ _ _ _ (lin_D0d _ n Hn) L)].
Qed.
Theorem C36_length_H close k n d p f : big_enough k n -> guarded close k n -> (d <= 1)%nat -> length f = grid_N k n d p ->
  exists o a, tget (gH (grid_1d close k n)) (d, p) = Ok o /\ o f = Ok a /\ length a = grid_N k n (1 - d) (negb p).
Proof.
  intros Hn Hg Hd L. destruct (table_H_lin close k n d p Hn Hg Hd) as (o & E & G).
  destruct (rlin_total _ _ _ f G L) as (a & Ea & La). exists o, a. auto.
Qed.

(** the value of an entry of W *)
Lemma W_entry r d0 p0 d1 p1 p2 : (d0 + d1 <= 1)%nat ->
  dget wkey_eqb (wedge r) ((d0, p0), (d1, p1), p2) = Ok (if direct d0 p0 d1 p1 p2 then np_bin Rmult else get_w r d0 p0 d1 p1 p2).
Proof. intro. destruct d0 as [|[|d0]], d1 as [|[|d1]]; try lia; destruct p0, p1, p2; reflexivity. Qed.
Lemma C_entry r p0 p1 p2 : dget ckey_eqb (contraction r) (p0, (1%nat, p1), p2) = Ok (get_c r p0 1 p1 p2).
Proof. destruct p0, p1, p2; reflexivity. Qed.
Lemma np_bin_eq {A B} (op : A -> A -> B) a b : length a = length b -> np_bin op a b = Ok (zipw op a b).
Proof. intro E. unfold np_bin. now rewrite E, Nat.eqb_refl. Qed.

Lemma zipw_comm (A B : list R) : zipw Rmult A B = zipw Rmult B A.
Proof. revert B. induction A as [|x A IH]; intros [|y B]; auto. cbn. now rewrite IH, Rmult_comm. Qed.
(** an entry of W refines both arguments, multiplies the refined arrays and comes back *)
Lemma get_w_val close k n d0 p0 d1 p1 p2 a b : big_enough k n -> guarded close k n -> k <> Regular -> (d0 + d1 <= 1)%nat ->
  length a = grid_N k n d0 p0 -> length b = grid_N k n d1 p1 ->
  exists t0 t1 u A B c, tget (rT (refine_of close k)) (d0, p0) = Ok t0 /\ tget (rT (refine_of close k)) (d1, p1) = Ok t1 /\
    tget (rU (refine_of close k)) ((d0 + d1)%nat, p2) = Ok u /\ t0 a = Ok A /\ t1 b = Ok B /\ u (zipw Rmult A B) = Ok c /\
    get_w (refine_of close k) d0 p0 d1 p1 p2 a b = Ok c /\ length A = refined k n /\ length B = refined k n /\ length c = grid_N k n (d0 + d1) p2.
Proof.
  intros Hn Hg Hk Hd La Lb.
  destruct (table_T_lin close k n d0 p0 Hn Hg ltac:(lia) Hk) as (t0 & E0 & G0).
  destruct (table_T_lin close k n d1 p1 Hn Hg ltac:(lia) Hk) as (t1 & E1 & G1).
  destruct (table_U_lin close k n (d0 + d1) p2 Hn Hd Hk) as (u & Eu & Gu).
  destruct (rlin_total _ _ _ a G0 La) as (A & EA & LA). destruct (rlin_total _ _ _ b G1 Lb) as (B & EB & LB).
  assert (length (zipw Rmult A B) = refined k n) as LZ by (rewrite length_zipw; lia).
  destruct (rlin_total _ _ _ (zipw Rmult A B) Gu LZ) as (c & Ec & Lc).
  exists t0, t1, u, A, B, c. repeat (split; [assumption|]). split; [|auto].
  unfold get_w. rewrite E0; cbn [bind]. rewrite EA; cbn [bind]. rewrite E1; cbn [bind]. rewrite EB; cbn [bind].
  assert (exists w, wget (wedge_1d missing) d0 d1 = Some w /\ unpack1 (w [Ok A] [Ok B]) = Ok (zipw Rmult A B)) as (w & Ew & EW).
  { destruct d0 as [|[|d0]], d1 as [|[|d1]]; try lia; (eexists; split; [reflexivity|]);
    cbn; rewrite np_bin_eq by lia; cbn; rewrite 1?(zipw_comm B A); reflexivity. }
  rewrite Ew; cbn [bind]. rewrite EW; cbn [bind]. now rewrite Eu; cbn [bind].
Qed.
Theorem C36_length_W close k n d0 p0 d1 p1 p2 a b W : big_enough k n -> guarded close k n -> (d0 + d1 <= 1)%nat ->
  gW (grid_1d close k n) = Some W -> length a = grid_N k n d0 p0 -> length b = grid_N k n d1 p1 ->
  exists o c, dget wkey_eqb W ((d0, p0), (d1, p1), p2) = Ok o /\ o a b = Ok c /\ length c = grid_N k n (d0 + d1) p2.
Proof.
  intros Hn Hg Hd EW La Lb.
  assert (W = wedge (refine_of close k) /\ k <> Regular) as [-> Hk] by (destruct k; cbn -[wedge contraction] in EW; (discriminate || (split; [injection EW as <-; reflexivity|discriminate]))).
  rewrite W_entry by auto. destruct (direct d0 p0 d1 p1 p2) eqn:Dr.
  - unfold direct in Dr. rewrite !andb_true_iff, !eqb_true_iff, !Nat.eqb_eq in Dr. destruct Dr as [[[-> ->] ->] ->].
    eexists _, _. split; [reflexivity|]. split; [apply np_bin_eq; lia|]. rewrite length_zipw. cbn [Nat.add]. lia.
  - destruct (get_w_val close k n d0 p0 d1 p1 p2 a b Hn Hg Hk Hd La Lb) as (t0 & t1 & u & A & B & c & _ & _ & _ & _ & _ & _ & E & _ & _ & L).
    exists (get_w (refine_of close k) d0 p0 d1 p1 p2), c. auto.
Qed.
Lemma get_c_val close k n p0 p1 p2 a b : big_enough k n -> guarded close k n -> k <> Regular ->
  length a = grid_N k n 1 p0 -> length b = grid_N k n 1 p1 ->
  exists t0 t1 u A B c, tget (rT (refine_of close k)) (1%nat, p0) = Ok t0 /\ tget (rT (refine_of close k)) (1%nat, p1) = Ok t1 /\
    tget (rU (refine_of close k)) (0%nat, p2) = Ok u /\ t0 a = Ok A /\ t1 b = Ok B /\ u (zipw Rmult A B) = Ok c /\
    get_c (refine_of close k) p0 1 p1 p2 a b = Ok c /\ length A = refined k n /\ length B = refined k n /\ length c = grid_N k n 0 p2.
Proof.
  intros Hn Hg Hk La Lb.
  destruct (table_T_lin close k n 1 p0 Hn Hg ltac:(lia) Hk) as (t0 & E0 & G0).
  destruct (table_T_lin close k n 1 p1 Hn Hg ltac:(lia) Hk) as (t1 & E1 & G1).
  destruct (table_U_lin close k n 0 p2 Hn ltac:(lia) Hk) as (u & Eu & Gu).
  destruct (rlin_total _ _ _ a G0 La) as (A & EA & LA). destruct (rlin_total _ _ _ b G1 Lb) as (B & EB & LB).
  assert (length (zipw Rmult A B) = refined k n) as LZ by (rewrite length_zipw; lia).
  destruct (rlin_total _ _ _ (zipw Rmult A B) Gu LZ) as (c & Ec & Lc).
  exists t0, t1, u, A, B, c. repeat (split; [assumption|]). split; [|auto].
  unfold get_c. rewrite E0; cbn [bind]. rewrite EA; cbn [bind]. rewrite E1; cbn [bind]. rewrite EB; cbn [bind].
  cbn. rewrite np_bin_eq by lia. cbn [bind]. now rewrite Eu; cbn [bind].
Qed.
Theorem C36_length_C close k n p0 p1 p2 a b C : big_enough k n -> guarded close k n ->
  gC (grid_1d close k n) = Some C -> length a = grid_N k n 1 p0 -> length b = grid_N k n 1 p1 ->
  exists o c, dget ckey_eqb C (p0, (1%nat, p1), p2) = Ok o /\ o a b = Ok c /\ length c = grid_N k n 0 p2.
Proof.
  intros Hn Hg EC La Lb.
  assert (C = contraction (refine_of close k) /\ k <> Regular) as [-> Hk] by (destruct k; cbn -[wedge contraction] in EC; (discriminate || (split; [injection EC as <-; reflexivity|discriminate]))).
  rewrite C_entry. eexists. 
  destruct (get_c_val close k n p0 p1 p2 a b Hn Hg Hk La Lb) as (t0 & t1 & u & A & B & c & _ & _ & _ & _ & _ & _ & E & _ & _ & L).
  exists c. auto.
Qed.
Definition never : C -> C -> bool := fun _ _ => false.
Lemma guarded_never k n : guarded never k n.
Proof. destruct k; reflexivity || exact Logic.I. Qed.
Example C36_instance : exists o c, dget wkey_eqb (wedge (refine_of never Chebyshev)) ((0%nat, true), (1%nat, false), true) = Ok o /\ o [1; 2; 3] [4; 5; 6] = Ok c /\ length c = 2%nat.
Proof. apply (C36_length_W never Chebyshev 3 0 true 1 false true); auto; [cbn; lia|apply guarded_never]. Qed.

(** ** C37: arithmetic *)
Section Arith.
Implicit Types a b c : decform.
Definition opR (o : bop) : R -> R -> R :=
  match o with Badd | Bradd => Rplus | Bmul | Brmul => Rmult | Bsub | Bdiv => Rminus | Brsub => fun x y => y - x | Btruediv => Rdiv end.
(** forms of the same degree, kind and grid *)
Definition like a b : Prop := degree a = degree b /\ isprimal a = isprimal b /\ gref a = gref b.
Lemma like_dec a b : {like a b} + {~ like a b}.
Proof.
  unfold like. destruct (Nat.eq_dec (degree a) (degree b)), (bool_dec (isprimal a) (isprimal b)), (Nat.eq_dec (gref a) (gref b)); (left; tauto) || (right; tauto).
Qed.
Lemma bop_fn_opR o : o <> Bdiv -> exists g, bop_fn o = Ok g /\ forall x y, g x y = opR o x y.
Proof. destruct o; try congruence; intros _; eexists; (split; [reflexivity|]); intros; cbn; ring. Qed.

Theorem C37_binary o a b : o <> Bdiv ->
  (like a b -> length (array a) = length (array b) ->
     exists c, binary o a (OForm b) = Ok c /\ like c a /\ like c b /\
       length (array c) = length (array a) /\
       forall i, (i < length (array a))%nat -> nth i (array c) 0 = opR o (nth i (array a) 0) (nth i (array b) 0)) /\
  (~ like a b -> binary o a (OForm b) = Err AssertionError).
Proof.
  intro Ho. destruct (bop_fn_opR o Ho) as (g & Eg & Hg). split.
  - intros (E1 & E2 & E3) L. unfold binary. rewrite E1, E2, E3, !Nat.eqb_refl, eqb_reflx. cbn [negb].
    rewrite Eg; cbn [bind]. rewrite np_bin_eq by auto. cbn [bind].
    eexists. split; [reflexivity|]. repeat split; cbn; auto. rewrite length_zipw. lia.
    intros i Hi. rewrite (nth_zipw _ _ _ i 0 0 0) by lia. apply Hg.
  - intro H. unfold binary. destruct (Nat.eqb_spec (degree a) (degree b)); cbn [negb]; auto.
    destruct (Nat.eqb_spec (gref a) (gref b)); cbn [negb]; auto.
    destruct (Bool.eqb (isprimal a) (isprimal b)) eqn:E; cbn [negb]; auto. apply eqb_prop in E. elim H. red; auto.
Qed.
(** a form and a number: f + 2, 2 + f, ..., f / 2 with the number on either side *)
Theorem C37_scalar o a (r : R) : o <> Bdiv -> exists c, binary o a (ONum r) = Ok c /\ like c a /\ length (array c) = length (array a) /\
  forall i, (i < length (array a))%nat -> nth i (array c) 0 = opR o (nth i (array a) 0) r.
Proof.
  intro Ho. destruct (bop_fn_opR o Ho) as (g & Eg & Hg). unfold binary. rewrite Eg; cbn [bind]. eexists. split; [reflexivity|].
  cbn. repeat split; auto; [apply map_length|]. intros i Hi.
  rewrite (nth_indep _ 0 (g 0 r)) by (now rewrite map_length). rewrite (map_nth (fun x => g x r)). apply Hg.
Qed.
(** numpy's broadcasting, for two forms of one kind and for a form and an array: an array of one entry combines with every entry of the other, in
    the order of the operands; other arrays of different lengths raise ValueError *)
Definition spread (x : list R) (i : nat) : R := if Nat.eqb (length x) 1 then nth 0 x 0 else nth i x 0.
Theorem C37_broadcast o a (y : list R) z : o <> Bdiv -> (z = OArr y \/ exists b, z = OForm b /\ like a b /\ array b = y) ->
  (length (array a) = length y \/ length (array a) = 1%nat \/ length y = 1%nat -> exists c, binary o a z = Ok c /\ like c a /\
     length (array c) = (if Nat.eqb (length y) 1 then length (array a) else length y) /\
     forall i, (i < length (array c))%nat -> nth i (array c) 0 = opR o (spread (array a) i) (spread y i)) /\
  (length (array a) <> length y -> length (array a) <> 1%nat -> length y <> 1%nat -> binary o a z = Err ValueError).
Proof.
  intros Ho Hz. destruct (bop_fn_opR o Ho) as (g & Eg & Hg).
  assert (binary o a z = bind (np_bin g (array a) y) (fun v => Ok (MkForm (degree a) (isprimal a) (gref a) v))) as ->.
  { destruct Hz as [->|(b & -> & (E1 & E2 & E3) & <-)]; unfold binary; [now rewrite Eg|]. rewrite E1, E2, E3, !Nat.eqb_refl, eqb_reflx. cbn [negb]. now rewrite Eg. }
  unfold np_bin, spread. destruct (Nat.eqb_spec (length (array a)) (length y)) as [L|L].
  - split; [|intros; congruence]. intros _. cbn [bind]. eexists. split; [reflexivity|]. cbn [array]. rewrite length_zipw. repeat split; [destruct (Nat.eqb (length y) 1); lia|]. intros i Hi.
    rewrite (nth_zipw _ _ _ i 0 0 0) by lia. rewrite L. destruct (Nat.eqb_spec (length y) 1); [|apply Hg]. replace i with 0%nat by lia. apply Hg.
  - destruct (array a) as [|x [|x' l]] eqn:Ea.
    + destruct y as [|v [|v' l']]; cbn [length] in *; [lia| |split; [intros [H|[H|H]]; lia|reflexivity]].
      split; [|lia]. intros _. cbn [bind map]. eexists. split; [reflexivity|]. cbn. repeat split; auto. intros; lia.
    + split; [|cbn; lia]. intros _. cbn [bind]. eexists. split; [reflexivity|]. cbn [array degree isprimal gref]. rewrite map_length. cbn [length Nat.eqb] in *. destruct (Nat.eqb_spec (length y) 1); [lia|]. repeat split. intros i Hi.
      rewrite (nth_indep _ 0 (g x 0)) by now rewrite map_length. rewrite (map_nth (g x)). apply Hg.
    + destruct y as [|v [|v' l']]; cbn [length] in *; [split; [intros [H|[H|H]]; lia|reflexivity]| |split; [intros [H|[H|H]]; lia|reflexivity]].
      split; [|lia]. intros _. cbn [bind]. eexists. split; [reflexivity|]. cbn [array degree isprimal gref]. rewrite map_length. cbn [length Nat.eqb] in *. repeat split. intros i Hi.
      rewrite (nth_indep _ 0 (g 0 v)) by (rewrite map_length; exact Hi). rewrite (map_nth (fun u => g u v)). apply Hg.
Qed.
(** [5] - [1, 2, 3] and [1, 2, 3] - [5] *)
Example C37_broadcast_instance : let a := MkForm 0 true 0 [5] in let b := MkForm 0 true 0 [1; 2; 3] in
  (exists c, binary Bsub a (OForm b) = Ok c /\ length (array c) = 3%nat /\ nth 1 (array c) 0 = 3) /\ (exists c, binary Bsub b (OArr [5]) = Ok c /\ length (array c) = 3%nat /\ nth 1 (array c) 0 = -3).
Proof.
  intros a b. split.
  - destruct (C37_broadcast Bsub a [1; 2; 3] (OForm b) ltac:(discriminate)) as [H _]; [right; exists b; repeat split|]. destruct H as (c & E & _ & L & V); [cbn; auto|]. exists c. cbn [length Nat.eqb] in L. repeat split; auto. rewrite V by lia. unfold spread. cbn. lra.
  - destruct (C37_broadcast Bsub b [5] (OArr [5]) ltac:(discriminate)) as [H _]; [auto|]. destruct H as (c & E & _ & L & V); [cbn; auto|]. exists c. cbn [length Nat.eqb array b] in L. repeat split; auto. rewrite V by lia. unfold spread. cbn. lra.
Qed.
Theorem C37_neg a : like (neg a) a /\ length (array (neg a)) = length (array a) /\
  forall i, nth i (array (neg a)) 0 = - nth i (array a) 0.
Proof.
  repeat split; [apply map_length|]. intro i. cbn. rewrite <- (map_nth Ropp). f_equal. ring.
Qed.
(** no operation whatever the right operand changes degree, kind or grid; the Python 2 division fails *)
Theorem C37_never_mixes o a x c : binary o a x = Ok c -> like c a /\ match x with OForm b => like c b | _ => True end.
Proof.
  unfold binary. destruct x as [b|r|l].
  - destruct (Nat.eqb_spec (degree a) (degree b)); cbn [negb]; try discriminate.
    destruct (Nat.eqb_spec (gref a) (gref b)); cbn [negb]; try discriminate.
    destruct (Bool.eqb (isprimal a) (isprimal b)) eqn:E; cbn [negb]; try discriminate. apply eqb_prop in E.
    destruct (bop_fn o); cbn [bind]; try discriminate. destruct (np_bin _ _ _); cbn [bind]; try discriminate.
    intro H; injection H as <-. unfold like; cbn; auto.
  - destruct (bop_fn o); cbn [bind]; try discriminate. intro H; injection H as <-. unfold like; cbn; auto.
  - destruct (bop_fn o); cbn [bind]; try discriminate. destruct (np_bin _ _ _); cbn [bind]; try discriminate.
    intro H; injection H as <-. unfold like; cbn; auto.
Qed.
Theorem C37_div_raises a x : (match x with OForm b => like a b | _ => True end) -> binary Bdiv a x = Err AttributeError.
Proof.
  unfold binary. destruct x as [b|r|l]; auto. intros (-> & -> & ->). now rewrite !Nat.eqb_refl, eqb_reflx.
Qed.
Example C37_instance : binary Bsub (MkForm 1 true 0 [1; 2]) (OForm (MkForm 1 true 0 [3; 5])) = Ok (MkForm 1 true 0 [1 - 3; 2 - 5]) /\
  binary Bsub (MkForm 1 true 0 [1; 2]) (OForm (MkForm 1 false 0 [3; 5])) = Err AssertionError /\
  binary Brsub (MkForm 1 true 0 [1; 2]) (ONum 3) = Ok (MkForm 1 true 0 [3 - 1; 3 - 2]).
Proof. repeat split. Qed.
End Arith.

(** ** C38: degrees and kinds *)
Section Track.
Context {X : Type}.
Variable heap : nat -> grid X.
Implicit Types a b c f : decform.
(** whatever the grid *)
Theorem C38_D f z : form_D heap f = Ok z ->
  exists o, tget (gD (heap (gref f))) (degree f, isprimal f) = Ok o /\
  match z with
  | ZForm g => degree g = S (degree f) /\ isprimal g = isprimal f /\ gref g = gref f /\ o (array f) = Ok (RArr (array g))
  | ZZero => o (array f) = Ok RZero end.
Proof.
  unfold form_D. destruct (tget _ _) as [o|]; cbn [bind]; try discriminate.
  destruct (o (array f)) as [[|l]|] eqn:E; cbn [bind]; try discriminate; intro H; injection H as <-; exists o; auto.
  cbn. repeat split; auto. lia.
Qed.
Theorem C38_H f g : form_H heap f = Ok g ->
  degree g = (gdim (heap (gref f)) - degree f)%nat /\ isprimal g = negb (isprimal f) /\ gref g = gref f /\
  exists o, tget (gH (heap (gref f))) (degree f, isprimal f) = Ok o /\ o (array f) = Ok (array g).
Proof.
  unfold form_H. destruct (tget _ _) as [o|]; cbn [bind]; try discriminate. destruct (o _) eqn:E; cbn [bind]; try discriminate.
  intro H; injection H as <-. cbn. eauto 6.
Qed.
Theorem C38_W p a b c : form_W heap p a b = Ok c ->
  gref a = gref b /\ degree c = (degree a + degree b)%nat /\ isprimal c = p /\ gref c = gref a /\
  exists W w, gW (heap (gref a)) = Some W /\
    dget wkey_eqb W ((degree a, isprimal a), (degree b, isprimal b), p) = Ok w /\ w (array a) (array b) = Ok (array c).
Proof.
  unfold form_W. destruct (Nat.eqb_spec (gref a) (gref b)); cbn [negb]; try discriminate. destruct (gW _) as [W|]; try discriminate.
  destruct (dget _ _ _) as [o|] eqn:Eo; cbn [bind]; try discriminate. destruct (o _ _) eqn:E; cbn [bind]; try discriminate.
  intro H; injection H as <-. cbn. repeat split; auto. exists W, o. auto.
Qed.
Theorem C38_C p a b c : form_C heap p a b = Ok c ->
  degree a = 1%nat /\ gref a = gref b /\ degree c = (degree b - 1)%nat /\ isprimal c = p /\ gref c = gref a /\
  exists C o, gC (heap (gref a)) = Some C /\
    dget ckey_eqb C (isprimal a, (degree b, isprimal b), p) = Ok o /\ o (array a) (array b) = Ok (array c).
Proof.
  unfold form_C. destruct (Nat.eqb_spec (gref a) (gref b)); cbn [negb andb]; try discriminate.
  destruct (Nat.eqb_spec (degree a) 1); cbn [negb]; try discriminate. destruct (gC _) as [C|]; try discriminate.
  destruct (dget _ _ _) as [o|] eqn:Eo; cbn [bind]; try discriminate. destruct (o _ _) eqn:E; cbn [bind]; try discriminate.
  intro H; injection H as <-. cbn. repeat split; auto. exists C, o. auto.
Qed.
(** a ^ b is the wedge product onto the primal cells *)
Theorem C38_xor a b c : form_xor heap a b = Ok c ->
  isprimal c = true /\ gref c = gref a /\ degree c = (degree a + degree b)%nat /\ form_W heap true a b = Ok c.
Proof. intro H. destruct (C38_W _ _ _ _ H) as (_ & D & P & G & _). auto. Qed.
Theorem C38_other_grid_raises p a b : gref a <> gref b -> form_W heap p a b = Err AssertionError /\ form_C heap p a b = Err AssertionError /\ form_xor heap a b = Err AssertionError.
Proof. intro H. unfold form_xor, form_W, form_C. apply Nat.eqb_neq in H. now rewrite H. Qed.
End Track.

(** on the 1D grids the operators do return, and D of a top form is the number 0 *)
Section Track1.
Variable close : C -> C -> bool.
Variable heap : nat -> grid (list R).
Implicit Types a b c f : decform.
(** f is a form with the right number of coefficients on a 1D grid of kind k and n vertices *)
Definition on_grid k n f : Prop := heap (gref f) = grid_1d close k n /\ (degree f <= 1)%nat /\ length (array f) = grid_N k n (degree f) (isprimal f).
Theorem C38_1d_D k n f : (1 <= n)%nat -> on_grid k n f ->
  match degree f with
  | 0%nat => exists g, form_D heap f = Ok (ZForm g) /\ on_grid k n g /\ degree g = 1%nat /\ isprimal g = isprimal f /\ gref g = gref f
  | _ => form_D heap f = Ok ZZero end.
Proof.
  intros Hn (E & Hd & L). destruct f as [d p r arr]. cbn [degree isprimal gref array] in *. destruct d as [|[|d]]; [| |lia].
  - destruct (C36_length_D close k n p arr Hn L) as (o & a & Eo & Ea & La).
    unfold form_D; cbn [degree isprimal gref array]. rewrite E, Eo; cbn [bind]. rewrite Ea; cbn [bind].
    eexists. split; [reflexivity|]. unfold on_grid; cbn. repeat split; auto.
  - unfold form_D; cbn [degree isprimal gref array]. rewrite E. destruct p, k; reflexivity.
Qed.
Theorem C38_1d_H k n f : big_enough k n -> guarded close k n -> on_grid k n f ->
  exists g, form_H heap f = Ok g /\ on_grid k n g /\ degree g = (1 - degree f)%nat /\ isprimal g = negb (isprimal f) /\ gref g = gref f.
Proof.
  intros Hn Hg (E & Hd & L). destruct f as [d p r arr]. cbn [degree isprimal gref array] in *.
  destruct (C36_length_H close k n d p arr Hn Hg Hd L) as (o & a & Eo & Ea & La).
  unfold form_H; cbn [degree isprimal gref array]. rewrite E, Eo; cbn [bind]. rewrite Ea; cbn [bind].
  eexists. split; [reflexivity|]. unfold on_grid; cbn [degree isprimal gref array]. cbn [gdim grid_1d]. repeat split; auto. lia.
Qed.
Theorem C38_1d_W k n t a b : big_enough k n -> guarded close k n -> on_grid k n a -> on_grid k n b -> gref a = gref b ->
  match k with
  | Regular => form_W heap t a b = Err TypeError
  | _ => if (degree a + degree b <=? 1)%nat
         then exists c, form_W heap t a b = Ok c /\ on_grid k n c /\ degree c = (degree a + degree b)%nat /\ isprimal c = t /\ gref c = gref a
         else form_W heap t a b = Err KeyError
  end.
Proof.
  intros Hn Hg (E & Hd & L) (E' & Hd' & L') R. destruct a as [d p r arr], b as [d' p' r' arr']. cbn [degree isprimal gref array] in *. subst r'.
  assert (k <> Regular -> forall W, gW (grid_1d close k n) = Some W -> 
    if (d + d' <=? 1)%nat then exists c, form_W heap t (MkForm d p r arr) (MkForm d' p' r arr') = Ok c /\ on_grid k n c /\ degree c = (d + d')%nat /\ isprimal c = t /\ gref c = r
    else form_W heap t (MkForm d p r arr) (MkForm d' p' r arr') = Err KeyError) as X.
  { intros Hk W EW. unfold form_W; cbn [degree isprimal gref array]. rewrite Nat.eqb_refl; cbn [negb]. rewrite E, EW. destruct (Nat.leb_spec (d + d') 1).
    - destruct (C36_length_W close k n d p d' p' t arr arr' W Hn Hg H EW L L') as (o & c & Eo & Ec & Lc).
      rewrite Eo; cbn [bind]. rewrite Ec; cbn [bind]. eexists. split; [reflexivity|].
      unfold on_grid; cbn [degree isprimal gref array]. repeat split; auto.
    - pose proof (C36_keys_W close k n d p d' p' t) as K. rewrite EW in K. destruct K as [_ K].
      destruct (dget wkey_eqb W _) as [o|e] eqn:Eo; [exfalso; assert (d + d' <= 1)%nat by (apply K; eauto); lia|].
      enough (e = KeyError) by now subst. clear - Eo. induction W as [|[k' v] W IH]; cbn in Eo; [congruence|]. destruct (wkey_eqb _ _); [discriminate|auto]. }
  destruct k; [apply (X ltac:(discriminate) _ eq_refl)| |apply (X ltac:(discriminate) _ eq_refl)].
  unfold form_W; cbn [degree isprimal gref array]. rewrite Nat.eqb_refl; cbn [negb]. now rewrite E.
Qed.
(** the contraction of a 0-form raises KeyError, that of a 1-form by a 1-form is a 0-form *)
Theorem C38_1d_C k n t a b : big_enough k n -> guarded close k n -> on_grid k n a -> on_grid k n b -> gref a = gref b -> degree a = 1%nat ->
  match k with
  | Regular => form_C heap t a b = Err TypeError
  | _ => match degree b with
         | 0%nat => form_C heap t a b = Err KeyError
         | _ => exists c, form_C heap t a b = Ok c /\ on_grid k n c /\ degree c = 0%nat /\ isprimal c = t /\ gref c = gref a
         end
  end.
Proof.
  intros Hn Hg (E & Hd & L) (E' & Hd' & L') R. destruct a as [d p r arr], b as [d' p' r' arr']. cbn [degree isprimal gref array] in *. subst r'. intros ->.
  assert (k <> Regular -> forall C, gC (grid_1d close k n) = Some C -> 
    match d' with 0%nat => form_C heap t (MkForm 1 p r arr) (MkForm d' p' r arr') = Err KeyError
    | _ => exists c, form_C heap t (MkForm 1 p r arr) (MkForm d' p' r arr') = Ok c /\ on_grid k n c /\ degree c = 0%nat /\ isprimal c = t /\ gref c = r end) as X.
  { intros Hk C EC. unfold form_C; cbn [degree isprimal gref array]. rewrite !Nat.eqb_refl; cbn [negb andb]. rewrite E, EC. destruct d' as [|[|d']]; [| |lia].
    - pose proof (C36_keys_C close k n p 0 p' t) as K. rewrite EC in K. destruct K as [_ K].
      destruct (dget ckey_eqb C _) as [o|e] eqn:Eo; [exfalso; assert (0 = 1)%nat by (apply K; eauto); lia|].
      enough (e = KeyError) by now subst. clear - Eo. induction C as [|[k' v] C IH]; cbn in Eo; [congruence|]. destruct (ckey_eqb _ _); [discriminate|auto].
    - destruct (C36_length_C close k n p p' t arr arr' C Hn Hg EC L L') as (o & c & Eo & Ec & Lc).
      rewrite Eo; cbn [bind]. rewrite Ec; cbn [bind]. eexists. split; [reflexivity|].
      unfold on_grid; cbn [degree isprimal gref array]. repeat split; auto. }
  destruct k; [apply (X ltac:(discriminate) _ eq_refl)| |apply (X ltac:(discriminate) _ eq_refl)].
  unfold form_C; cbn [degree isprimal gref array]. rewrite !Nat.eqb_refl; cbn [negb andb]. now rewrite E.
Qed.
(** C39: decform.I never works *)
Theorem C39_interpolation_raises k n f : heap (gref f) = grid_1d close k n -> form_I heap f = Err KeyError.
Proof. intro E. unfold form_I. now rewrite E. Qed.
End Track1.
Example C38_instance : exists g, form_H (fun _ => grid_1d never Chebyshev 3) (MkForm 1 true 0 [4; 5]) = Ok g /\ degree g = 0%nat /\ isprimal g = false /\ length (array g) = 2%nat.
Proof.
  destruct (C38_1d_H never (fun _ => grid_1d never Chebyshev 3) Chebyshev 3 (MkForm 1 true 0 [4; 5])) as (g & E & (_ & _ & L) & D & P & _).
  - cbn; lia. - apply guarded_never. - unfold on_grid; cbn; auto.
  - exists g. rewrite D, P in L. auto.
Qed.
Example C39_instance : form_I (fun _ => grid_1d never Periodic 2) (MkForm 0 true 0 [4; 5]) = Err KeyError.
Proof. now apply (C39_interpolation_raises never _ Periodic 2). Qed.

(** ** C40: equality *)
Lemma close1_true x y : close1 x y = true <-> Rabs (x - y) <= / 100000000 + / 100000 * Rabs y.
Proof. unfold close1. destruct (Rle_dec _ _); split; auto; discriminate || (intro; contradiction). Qed.
Lemma allclose_eq a b : length a = length b -> exists v, allclose a b = Ok v /\
  (v = true <-> forall i, (i < length a)%nat -> Rabs (nth i a 0 - nth i b 0) <= / 100000000 + / 100000 * Rabs (nth i b 0)).
Proof.
  intro L. unfold allclose. rewrite np_bin_eq by auto. cbn [bind]. eexists; split; [reflexivity|]. rewrite forallb_forall. split.
  - intros H i Hi. apply close1_true. rewrite <- (nth_zipw close1 a b i 0 0 true) by lia. apply H, nth_In. rewrite length_zipw. lia.
  - intros H x Hx. apply (In_nth _ _ true) in Hx. destruct Hx as (i & Hi & <-). rewrite length_zipw in Hi.
    rewrite (nth_zipw _ _ _ i 0 0 true) by lia. apply close1_true, H. lia.
Qed.
Section Eq.
Implicit Types a b f : decform.
(** for forms with arrays of the same length, == says: same degree, kind and grid, and every entry equal up
    to numpy's tolerance 1e-8 + 1e-5*|b_i|; != says the opposite *)
Theorem C40_meaning a b : length (array a) = length (array b) -> exists v, form_eq a (OForm b) = Ok v /\ form_ne a (OForm b) = Ok (negb v) /\
  (v = true <-> like a b /\ forall i, (i < length (array a))%nat ->
     Rabs (nth i (array a) 0 - nth i (array b) 0) <= / 100000000 + / 100000 * Rabs (nth i (array b) 0)).
Proof.
  intro L. unfold form_ne, form_eq.
  destruct (Nat.eqb_spec (degree a) (degree b)); cbn [andb]; [|exists false; repeat split; try discriminate; intros [(? & _) _]; contradiction].
  destruct (Bool.eqb (isprimal a) (isprimal b)) eqn:E; cbn [andb];
    [|exists false; repeat split; try discriminate; intros [(_ & H & _) _]; apply eqb_false_iff in E; contradiction].
  apply eqb_prop in E. destruct (Nat.eqb_spec (gref a) (gref b)); cbn [andb]; [|exists false; repeat split; try discriminate; intros [(_ & _ & ?) _]; contradiction].
  destruct (allclose_eq _ _ L) as (v & -> & H). exists v. cbn [bind]. split; [auto|]. split; [auto|]. rewrite H. unfold like. tauto.
Qed.
(** without the hypothesis on lengths: True is only answered for forms of the same degree, kind and grid *)
Theorem C40_true a b : form_eq a (OForm b) = Ok true -> like a b.
Proof.
  unfold form_eq, like. destruct (Nat.eqb_spec (degree a) (degree b)); cbn [andb]; [|discriminate].
  destruct (Bool.eqb (isprimal a) (isprimal b)) eqn:E; cbn [andb]; [|discriminate]. apply eqb_prop in E.
  destruct (Nat.eqb_spec (gref a) (gref b)); cbn [andb]; [auto|discriminate].
Qed.
Theorem C40_ne_negates a x : form_ne a x = match form_eq a x with Ok v => Ok (negb v) | Err e => Err e end.
Proof. reflexivity. Qed.
Theorem C40_reflexive a : form_eq a (OForm a) = Ok true /\ form_ne a (OForm a) = Ok false.
Proof.
  destruct (C40_meaning a a eq_refl) as (v & -> & -> & H). replace v with true; [auto|]. symmetry. apply H. split; [red; auto|].
  intros i _. replace (_ - _) with 0 by ring. rewrite Rabs_R0. pose proof (Rabs_pos (nth i (array a) 0)). lra.
Qed.
Definition one_entry (x : R) : decform := MkForm 0 true 0 [x].
Lemma one_entry_eq x y : form_eq (one_entry x) (OForm (one_entry y)) = Ok (close1 x y).
Proof. unfold form_eq, allclose, one_entry. cbn. now rewrite andb_true_r. Qed.
Lemma close1_ge x y : 0 <= y -> Rabs (x - y) <= / 100000000 + / 100000 * y -> close1 x y = true.
Proof. intros Hy H. apply close1_true. now rewrite (Rabs_right y) by lra. Qed.
Theorem C40_not_symmetric : exists a b, form_eq a (OForm b) = Ok true /\ form_eq b (OForm a) = Ok false.
Proof.
  exists (one_entry 100000), (one_entry (100000 + (1 + / 1000000))). rewrite !one_entry_eq. split; f_equal.
  - apply close1_ge; [lra|]. rewrite Rabs_left by lra. lra.
  - unfold close1. destruct (Rle_dec _ _) as [H|]; auto. exfalso. rewrite Rabs_right, Rabs_right in H by lra. lra.
Qed.
Theorem C40_not_transitive : exists a b c, form_eq a (OForm b) = Ok true /\ form_eq b (OForm c) = Ok true /\ form_eq a (OForm c) = Ok false.
Proof.
  exists (one_entry 0), (one_entry (/ 100000000)), (one_entry (/ 50000000)). rewrite !one_entry_eq. repeat split; f_equal.
  - apply close1_ge; [lra|]. rewrite Rabs_left by lra. lra.
  - apply close1_ge; [lra|]. rewrite Rabs_left by lra. lra.
  - unfold close1. destruct (Rle_dec _ _) as [H|]; auto. exfalso. rewrite Rabs_left, Rabs_right in H by lra. lra.
Qed.
End Eq.
