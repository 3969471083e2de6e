(** C90: which discrete forms on a product grid are derivatives: the cohomology of the discrete de Rham complex. *)
From Coq Require Import ZArith Reals List Lia Lra Arith Bool.
From Coq Require Import ZifyNat ZifyBool.
From Verif Require Import Model.Sym.
From Coquelicot Require Import Coquelicot.
From Verif Require Import Model.Num Model.Np Model.Spectral Model.Basis Model.Grids1 Model.Regular Model.Chebyshev Model.Common Model.Decform Model.Grid2 Spec.Trig Spec.Tiling
  Proofs.ListLemmas Proofs.RingSums Proofs.Grids1P Proofs.GridsThm Proofs.Lin Proofs.TableLin Proofs.Arr2 Proofs.Grid2P Proofs.Grid2Ops Proofs.LaplaceP Proofs.Cohomology Props.Grid2.
Import ListNotations.
Local Open Scope R_scope.
Ltac Zify.zify_post_hook ::= Z.div_mod_to_equations.

(** ** Specification *)
(** f is an array of a d-form of G; t = true: primal, false: dual *)
Definition isform (G : grid2) (d : nat) (t : bool) (f : list R) : Prop := tget (g2N G) (d, t) = Ok (length f).
(** G.dec.D[d, t](f) = g *)
Definition deriv (G : grid2) (d : nat) (t : bool) (f g : list R) : Prop := exists D, tget (g2D G) (d, t) = Ok D /\ D f = Ok g.
Definition closed (G : grid2) (d : nat) (t : bool) (f : list R) : Prop := exists n, deriv G d t f (repeat 0 n).
Definition exact (G : grid2) (d : nat) (t : bool) (g : list R) : Prop := exists f, isform G d t f /\ deriv G d t f g.
Definition constant (u : list R) : Prop := forall i j, (i < length u)%nat -> (j < length u)%nat -> nth i u 0 = nth j u 0.
(** along this factor constants have derivative 0: always, except on the dual cells of an interval, where the boundary values are taken to be 0 *)
Definition free (g : grid1) (t : bool) : Prop := kd g = Periodic \/ t = true.
(** along this factor derivatives have sum 0: always, except on the primal cells of an interval *)
Definition tied (g : grid1) (t : bool) : Prop := kd g = Periodic \/ t = false.
(** the sum of a 1-form over the edges of the i-th horizontal line, of the j-th vertical line *)
Definition xsum (gx gy : grid1) (t : bool) (i : nat) (w : list R) : R := Rsum (Nd gx 1 t) (fun j => nth (i * Nd gx 1 t + j) w 0).
Definition ysum (gx gy : grid1) (t : bool) (j : nat) (w : list R) : R := Rsum (Nd gy 1 t) (fun i => nth (Nd gy 0 t * Nd gx 1 t + (i * Nd gx 0 t + j)) w 0).

Lemma app_inj_len (a b a' b' : list R) : a ++ b = a' ++ b' -> length a = length a' -> a = a' /\ b = b'.
Proof. revert a'. induction a as [|x a IH]; intros [|y a'] E L; cbn in *; try lia; auto. injection E as -> E. destruct (IH a' E ltac:(lia)) as [-> ->]. auto. Qed.
Lemma free_dec g t : (free g t /\ loop g || t = true)%bool \/ (~ free g t /\ loop g || t = false)%bool.
Proof. unfold free, loop. destruct (kd g), t; cbn; (left; split; [auto|reflexivity]) || (right; split; [intros [|]; discriminate|reflexivity]). Qed.
Lemma tied_dec g t : (tied g t /\ loop g || negb t = true)%bool \/ (~ tied g t /\ loop g || negb t = false)%bool.
Proof. unfold tied, loop. destruct (kd g), t; cbn; (left; split; [auto|reflexivity]) || (right; split; [intros [|]; discriminate|reflexivity]). Qed.

Section G.
Variables (close : C -> C -> bool) (gx gy : grid1) (G : grid2) (t : bool).
Hypothesis Gx : good gx. Hypothesis Gy : good gy. Hypothesis EG : product close gx gy = Ok G.
Notation mx := (Nd gx 0 t). Notation nx := (Nd gx 1 t). Notation my := (Nd gy 0 t). Notation ny := (Nd gy 1 t).
Notation dx := (dv gx t). Notation dy := (dv gy t).
Lemma Lx : line (loop gx || t) (loop gx || negb t) mx nx dx. Proof. now apply line_dv. Qed.
Lemma Ly : line (loop gy || t) (loop gy || negb t) my ny dy. Proof. now apply line_dv. Qed.
Lemma fields : g2N G = table6 (N2 gx gy) /\ g2D G = reshapeO (table6 (shp2 gx gy)) (derivative (d1 (kd gx)) (d1 (kd gy))).
Proof. destruct (product_ok close gx gy Gx Gy) as (sx & sy & G' & _ & _ & E & H). rewrite EG in E. injection E as <-. intuition auto. Qed.
Lemma isform_len d f : (d <= 2)%nat -> isform G d t f <-> length f = N2 gx gy d t.
Proof. intro Hd. unfold isform. rewrite (Logic.proj1 fields), tget_table6 by auto. split; [congruence|now intros ->]. Qed.
Lemma deriv0 F w : deriv G 0 t (flat my mx F) w <-> w = flat my nx (onrows mx dx F) ++ flat ny mx (oncols my dy F).
Proof.
  destruct (D0_flat gx gy Gx Gy t) as (o & Eo & Ev). unfold deriv. rewrite (Logic.proj2 fields). split.
  - intros (D & ED & H). rewrite Eo in ED. injection ED as <-. rewrite Ev in H. congruence.
  - intros ->. exists o. split; auto.
Qed.
Lemma deriv1 U V w : deriv G 1 t (flat my nx U ++ flat ny mx V) w <-> w = flat ny nx (fun i j => - oncols my dy U i j + onrows mx dx V i j).
Proof.
  destruct (D1_flat gx gy Gx Gy t) as (o & Eo & Ev). unfold deriv. rewrite (Logic.proj2 fields). split.
  - intros (D & ED & H). rewrite Eo in ED. injection ED as <-. rewrite Ev in H. congruence.
  - intros ->. exists o. split; auto.
Qed.
Lemma form0 f : isform G 0 t f -> f = flat my mx (ent mx f). Proof. intro H. apply (isform_len 0) in H; [|lia]. now apply flat_ent. Qed.
Lemma form0_flat F : isform G 0 t (flat my mx F). Proof. apply isform_len; [lia|]. apply length_flat. Qed.
Lemma form1 w : isform G 1 t w -> exists U V, w = flat my nx U ++ flat ny mx V.
Proof.
  intro H. apply (isform_len 1) in H; [|lia]. destruct (split_two w (my * nx) (ny * mx) H) as (u & v & -> & Lu & Lv). exists (ent nx u), (ent mx v). now rewrite <- (flat_ent my nx u Lu), <- (flat_ent ny mx v Lv).
Qed.
Lemma form1_flat U V : isform G 1 t (flat my nx U ++ flat ny mx V). Proof. apply isform_len; [lia|]. rewrite app_length, !length_flat. reflexivity. Qed.
Lemma form2 f : isform G 2 t f -> f = flat ny nx (ent nx f). Proof. intro H. apply (isform_len 2) in H; [|lia]. now apply flat_ent. Qed.
Lemma flat2_inj U V U' V' : flat my nx U ++ flat ny mx V = flat my nx U' ++ flat ny mx V' -> (forall i j, (i < my)%nat -> (j < nx)%nat -> U i j = U' i j) /\ (forall i j, (i < ny)%nat -> (j < mx)%nat -> V i j = V' i j).
Proof. intro E. apply app_inj_len in E as [E E']; [|now rewrite !length_flat]. split; now apply flat_inj. Qed.
Lemma flat_zeros r c F n : flat r c F = repeat 0 n -> forall i j, (i < r)%nat -> (j < c)%nat -> F i j = 0.
Proof.
  intros E i j Hi Hj. rewrite <- (nth_flat r c F i j 0 Hi Hj), E. destruct (Nat.lt_ge_cases (i * c + j) n) as [H|H]; [|apply nth_overflow; now rewrite repeat_length]. apply nth_repeat.
Qed.
Lemma closed1 U V : closed G 1 t (flat my nx U ++ flat ny mx V) <-> forall i j, (i < ny)%nat -> (j < nx)%nat -> - oncols my dy U i j + onrows mx dx V i j = 0.
Proof.
  split.
  - intros (n & H). apply deriv1 in H. symmetry in H. exact (flat_zeros _ _ _ _ H).
  - intro H. exists (ny * nx)%nat. apply deriv1. symmetry. now apply flat_zero.
Qed.
Lemma exact0 U V : exact G 0 t (flat my nx U ++ flat ny mx V) <-> exists F, (forall i j, (i < my)%nat -> (j < nx)%nat -> onrows mx dx F i j = U i j) /\ (forall i j, (i < ny)%nat -> (j < mx)%nat -> oncols my dy F i j = V i j).
Proof.
  split.
  - intros (f & Hf & H). rewrite (form0 f Hf) in H. apply deriv0 in H. apply flat2_inj in H as [H H']. exists (ent mx f). split; intros i j Hi Hj; symmetry; auto.
  - intros (F & H & H'). exists (flat my mx F). split; [apply form0_flat|]. apply deriv0. f_equal; apply flat_ext; intros; symmetry; auto.
Qed.
Lemma xsum_flat U V i : (i < my)%nat -> xsum gx gy t i (flat my nx U ++ flat ny mx V) = bsum nx (U i).
Proof.
  intro Hi. unfold xsum. rewrite <- bsum_Rsum. apply bsum_extR. intros j Hj. rewrite app_nth1 by (rewrite length_flat; nia). now apply nth_flat.
Qed.
Lemma ysum_flat U V j : (j < mx)%nat -> ysum gx gy t j (flat my nx U ++ flat ny mx V) = bsum ny (fun i => V i j).
Proof.
  intro Hj. unfold ysum. rewrite <- bsum_Rsum. apply bsum_extR. intros i Hi. rewrite app_nth2 by (rewrite length_flat; lia). rewrite length_flat. replace (my * nx + (i * mx + j) - my * nx)%nat with (i * mx + j)%nat by lia. now apply nth_flat.
Qed.
Lemma pos : (0 < mx)%nat /\ (0 < nx)%nat /\ (0 < my)%nat /\ (0 < ny)%nat. Proof. repeat split; now apply Nd_pos. Qed.
Lemma lsum_flat r c F : lsum (flat r c F) = bsum r (fun i => bsum c (F i)).
Proof.
  destruct c as [|c].
  - assert (flat r 0 F = []) as -> by (apply length_zero_iff_nil; rewrite length_flat; lia). symmetry. apply bsum_zeroR. reflexivity.
  - induction r as [|r IH]; [reflexivity|]. pose proof (bsum_S_r (A := R) r (fun i => bsum (S c) (F i))) as Q. cbn [nadd NumR] in Q. rewrite Q, <- IH.
    assert (flat (S r) (S c) F = flat r (S c) F ++ tab (S c) (F r)) as ->.
    { apply (nth_ext _ _ 0 0); [rewrite app_length, !length_flat, length_tab; lia|]. intros k Hk. rewrite length_flat in Hk.
      replace k with (k / S c * S c + k mod S c)%nat by (symmetry; rewrite (Nat.div_mod_eq k (S c)) at 1; lia). pose proof (Nat.mod_upper_bound k (S c) ltac:(lia)) as Hm. assert (k / S c < S r)%nat as Hd by (apply Nat.div_lt_upper_bound; lia).
      set (i := (k / S c)%nat) in *. set (j := (k mod S c)%nat) in *. rewrite nth_flat by auto. destruct (Nat.lt_ge_cases i r) as [H|H].
      - rewrite app_nth1 by (rewrite length_flat; nia). now rewrite nth_flat.
      - assert (i = r) as -> by lia. rewrite app_nth2 by (rewrite length_flat; lia). rewrite length_flat. replace (r * S c + j - r * S c)%nat with j by lia. now rewrite nth_tab. }
    rewrite <- lsum_tabR. generalize (flat r (S c) F) (tab (S c) (F r)). clear. intros l l'. induction l as [|a l IH]; cbn [app]; rewrite ?lsum_consR; [|rewrite IH]; try (change (lsum (@nil R)) with 0); ring.
Qed.

(** closed 0-forms: the constants, when constants are closed along both factors; only 0 otherwise *)
Theorem C90_closed_0 f : isform G 0 t f -> (closed G 0 t f <-> constant f /\ (~ (free gx t /\ free gy t) -> forall i, nth i f 0 = 0)).
Proof.
  intro Hf. pose proof (form0 f Hf) as Ef. apply (isform_len 0) in Hf; [|lia]. cbn [N2] in Hf. destruct pos as (Pmx & Pnx & Pmy & Pny).
  pose proof (kernel0 _ _ _ _ mx nx my ny dx dy Lx Ly Pmx Pmy (ent mx f)) as K.
  assert (closed G 0 t f <-> ((forall i j, (i < my)%nat -> (j < nx)%nat -> onrows mx dx (ent mx f) i j = 0) /\ (forall i j, (i < ny)%nat -> (j < mx)%nat -> oncols my dy (ent mx f) i j = 0))) as ->.
  { split.
    - intros (n & H). rewrite Ef in H. apply deriv0 in H. symmetry in H. pose proof H as H2. apply (f_equal (firstn (my * nx))) in H. rewrite firstn_app, firstn_all2, length_flat, Nat.sub_diag, app_nil_r in H by (rewrite length_flat; lia).
      apply (f_equal (skipn (my * nx))) in H2. rewrite skipn_app, skipn_all2, length_flat, Nat.sub_diag in H2 by (rewrite length_flat; lia). cbn [app skipn] in H2.
      assert (forall (x : R) a n, firstn a (repeat x n) = repeat x (Nat.min a n) /\ skipn a (repeat x n) = repeat x (n - a)) as Rp.
      { clear. intro x. induction a as [|a IH]; intros [|n]; cbn; auto. destruct (IH n) as [-> ->]. auto. }
      rewrite (Logic.proj1 (Rp 0 (my * nx)%nat n)) in H. rewrite (Logic.proj2 (Rp 0 (my * nx)%nat n)) in H2. split; eapply flat_zeros; eassumption.
    - intros [H H']. exists (my * nx + ny * mx)%nat. rewrite Ef. apply deriv0. rewrite (flat_zero my nx _ H), (flat_zero ny mx _ H'). symmetry. rewrite repeat_app. reflexivity. }
  rewrite K. assert (forall i, (i < length f)%nat -> exists a b, (a < my)%nat /\ (b < mx)%nat /\ nth i f 0 = ent mx f a b) as Idx.
  { intros i Hi. rewrite Hf in Hi. exists (i / mx)%nat, (i mod mx)%nat. split; [apply Nat.div_lt_upper_bound; lia|]. split; [apply Nat.mod_upper_bound; lia|]. unfold ent. f_equal. rewrite (Nat.div_mod_eq i mx) at 1. lia. }
  assert (forall a b, (a < my)%nat -> (b < mx)%nat -> (a * mx + b < length f)%nat) as Idx' by (intros; rewrite Hf; nia).
  destruct (free_dec gx t) as [[Fx ->]|[Fx ->]], (free_dec gy t) as [[Fy ->]|[Fy ->]]; cbn [andb].
  1: { split.
    - intro H. split; [|tauto]. intros i j Hi Hj. destruct (Idx i Hi) as (a & b & Ha & Hb & ->). destruct (Idx j Hj) as (a' & b' & Ha' & Hb' & ->). now rewrite (H a b), (H a' b').
    - intros [H _] i j Hi Hj. unfold ent. apply H; apply Idx'; auto. }
  all: split; [intro H|intros [_ H] i j Hi Hj; unfold ent; apply H; tauto].
  all: assert (forall i, nth i f 0 = 0) as Z by (intro i; destruct (Nat.lt_ge_cases i (length f)) as [Hi|Hi]; [destruct (Idx i Hi) as (a & b & Ha & Hb & ->); auto|now apply nth_overflow]).
  all: split; [intros i j _ _; now rewrite !Z|auto].
Qed.
(** two 0-forms with the same derivative differ by a constant; they are equal unless constants are closed along both factors *)
Theorem C90_potential_unique f f' w : isform G 0 t f -> isform G 0 t f' -> deriv G 0 t f w -> deriv G 0 t f' w -> exists c, f' = map (Rplus c) f /\ (~ (free gx t /\ free gy t) -> c = 0).
Proof.
  intros Hf Hf' H H'. pose proof Hf as Lf. pose proof Hf' as Lf'. apply (isform_len 0) in Lf, Lf'; try lia. cbn [N2] in Lf, Lf'.
  rewrite (form0 f Hf) in H. rewrite (form0 f' Hf') in H'. apply deriv0 in H, H'. rewrite H in H'. apply flat2_inj in H' as [Hx Hy]. destruct pos as (Pmx & Pnx & Pmy & Pny).
  set (E := fun i j => 1 * ent mx f' i j + -1 * ent mx f i j).
  assert (closed G 0 t (flat my mx E)) as HE.
  { exists (my * nx + ny * mx)%nat. apply deriv0. rewrite (flat_zero my nx), (flat_zero ny mx). { symmetry. rewrite repeat_app. reflexivity. }
    - intros i j Hi Hj. unfold E. rewrite (oncols_comb my ny dy 1 (-1) (ent mx f') (ent mx f) i j (lin_dv gy t Gy) Hi), (Hy i j) by auto. ring.
    - intros i j Hi Hj. unfold E. rewrite (onrows_comb mx nx dx 1 (-1) (ent mx f') (ent mx f) i j (lin_dv gx t Gx) Hj), (Hx i j) by auto. ring. }
  apply C90_closed_0 in HE as [Hc Hz]; [|apply form0_flat]. exists (E 0%nat 0%nat). split.
  - rewrite (form0 f' Hf'). rewrite (form0 f Hf) at 1. apply (nth_ext _ _ 0 (E 0%nat 0%nat + 0)); [rewrite map_length, !length_flat; lia|]. intros k Hk. rewrite map_nth. rewrite length_flat in Hk.
    assert (exists i j, k = (i * mx + j)%nat /\ (i < my)%nat /\ (j < mx)%nat) as (i & j & -> & Hi & Hj).
    { exists (k / mx)%nat, (k mod mx)%nat. split; [rewrite (Nat.div_mod_eq k mx) at 1; lia|]. split; [apply Nat.div_lt_upper_bound; lia|apply Nat.mod_upper_bound; lia]. }
    rewrite !nth_flat by auto. assert (E i j = E 0%nat 0%nat) as Q.
    { rewrite <- (nth_flat my mx E i j 0 Hi Hj), <- (nth_flat my mx E 0 0 0 Pmy Pmx). apply Hc; rewrite length_flat; nia. }
    rewrite <- Q. unfold E. ring.
  - intro H0. rewrite <- (nth_flat my mx E 0 0 0 Pmy Pmx). now apply Hz.
Qed.
(** the sums of a closed 1-form along the horizontal lines are all the same, and so are those along the vertical lines; they are 0 if constants are not closed across *)
Theorem C90_periods w : isform G 1 t w -> closed G 1 t w ->
  (tied gx t -> forall i, (i < my)%nat -> xsum gx gy t i w = xsum gx gy t 0 w /\ (~ free gy t -> xsum gx gy t i w = 0)) /\
  (tied gy t -> forall j, (j < mx)%nat -> ysum gx gy t j w = ysum gx gy t 0 w /\ (~ free gx t -> ysum gx gy t j w = 0)).
Proof.
  intros Hw Hc. destruct (form1 w Hw) as (U & V & ->). rewrite closed1 in Hc. destruct pos as (Pmx & Pnx & Pmy & Pny). split.
  - intros T i Hi. rewrite !xsum_flat by auto. destruct (tied_dec gx t) as [[_ E]|[N _]]; [|tauto]. pose proof (period_rows _ _ _ _ mx nx my ny dx dy Lx Ly Pmx Pnx Pmy Pny U V Hc E) as Q.
    destruct (free_dec gy t) as [[F Ef]|[F Ef]]; rewrite Ef in Q; [split; [auto|tauto]|]. split; [now rewrite !Q|auto].
  - intros T j Hj. rewrite !ysum_flat by auto. destruct (tied_dec gy t) as [[_ E]|[N _]]; [|tauto]. pose proof (period_cols _ _ _ _ mx nx my ny dx dy Lx Ly Pmx Pnx Pmy Pny U V Hc E) as Q.
    destruct (free_dec gx t) as [[F Ef]|[F Ef]]; rewrite Ef in Q; [split; [auto|tauto]|]. split; [now rewrite !Q|auto].
Qed.
(** a 1-form is a derivative exactly when it is closed and its sum is 0 along a horizontal line, if derivatives sum to 0 horizontally and constants are closed
    vertically, and along a vertical line, if the other way round *)
Theorem C90_exact_1 w : isform G 1 t w ->
  (exact G 0 t w <-> closed G 1 t w /\ (tied gx t -> free gy t -> xsum gx gy t 0 w = 0) /\ (free gx t -> tied gy t -> ysum gx gy t 0 w = 0)).
Proof.
  intro Hw. destruct pos as (Pmx & Pnx & Pmy & Pny). split.
  - intros (f & Hf & Hd). split.
    + destruct (C42_dd close gx gy G t f Gx Gy EG Hf) as (D0 & D1 & g & n1 & n2 & E0 & E1 & _ & _ & Ev & _ & Ez). destruct Hd as (D & ED & Ed). rewrite E0 in ED. injection ED as <-. rewrite Ev in Ed. injection Ed as <-. exists n2, D1. auto.
    + destruct (form1 w Hw) as (U & V & ->). assert (exact G 0 t (flat my nx U ++ flat ny mx V)) as X by (exists f; auto). apply exact0 in X. apply (exact_1_sums _ _ _ _ mx nx my ny dx dy Lx Ly U V) in X as [SX SY].
      rewrite xsum_flat, ysum_flat by auto. split; [intros T _|intros _ T]; [destruct (tied_dec gx t) as [[_ E]|[N _]]|destruct (tied_dec gy t) as [[_ E]|[N _]]]; tauto || auto.
  - intros (Hc & HX & HY). destruct (form1 w Hw) as (U & V & ->). rewrite xsum_flat in HX by auto. rewrite ysum_flat in HY by auto. apply exact0. rewrite closed1 in Hc. apply (exact_1 _ _ _ _ mx nx my ny dx dy Lx Ly Pmx Pnx Pmy Pny U V Hc).
    + intros E E'. destruct (tied_dec gx t) as [[T _]|[_ T]]; [|congruence]. destruct (free_dec gy t) as [[T' _]|[_ T']]; [|congruence]. auto.
    + intros E E'. destruct (free_dec gx t) as [[T _]|[_ T]]; [|congruence]. destruct (tied_dec gy t) as [[T' _]|[_ T']]; [|congruence]. auto.
Qed.
(** those two conditions are needed: there are closed 1-forms with any such sums *)
Theorem C90_any_periods a b : exists w, isform G 1 t w /\ closed G 1 t w /\ (tied gx t -> free gy t -> xsum gx gy t 0 w = a) /\ (free gx t -> tied gy t -> ysum gx gy t 0 w = b).
Proof.
  destruct pos as (Pmx & Pnx & Pmy & Pny). pose proof (lin_dv gx t Gx) as LX. pose proof (lin_dv gy t Gy) as LY.
  destruct (periods_onto _ _ _ _ mx nx my ny dx dy Lx Ly Pnx Pny a b) as [HX HY].
  assert (exists U, (forall i j, (i < ny)%nat -> (j < nx)%nat -> oncols my dy U i j = 0) /\ (tied gx t -> free gy t -> bsum nx (U 0%nat) = a)) as (U & CU & SU).
  { destruct (tied_dec gx t) as [[T E]|[T E]], (free_dec gy t) as [[F E']|[F E']].
    1: { destruct (HX E E') as (U & CU & SU). exists U. split; [|auto]. intros i j Hi Hj. specialize (CU i j Hi Hj). rewrite (rows_zero _ _ mx nx dx Lx (fun _ _ => 0)) in CU by auto. lra. }
    all: exists (fun _ _ => 0); split; [|tauto]; intros i j Hi Hj; exact (rows_zero _ _ my ny dy Ly (fun _ _ => 0) j i ltac:(auto)). }
  assert (exists V, (forall i j, (i < ny)%nat -> (j < nx)%nat -> onrows mx dx V i j = 0) /\ (free gx t -> tied gy t -> bsum ny (fun i => V i 0%nat) = b)) as (V & CV & SV).
  { destruct (free_dec gx t) as [[T E]|[T E]], (tied_dec gy t) as [[F E']|[F E']].
    1: { destruct (HY E E') as (V & CV & SV). exists V. split; [|auto]. intros i j Hi Hj. specialize (CV i j Hi Hj). pose proof (rows_zero _ _ my ny dy Ly (fun _ _ => 0) j i ltac:(auto)) as Q. unfold oncols, onrows in *. lra. }
    all: exists (fun _ _ => 0); split; [|tauto]; intros i j Hi Hj; exact (rows_zero _ _ mx nx dx Lx (fun _ _ => 0) i j ltac:(auto)). }
  exists (flat my nx U ++ flat ny mx V). split; [apply form1_flat|]. split; [|rewrite xsum_flat, ysum_flat by auto; auto]. apply closed1. intros i j Hi Hj. rewrite CU, CV by auto. ring.
Qed.
(** a 2-form is a derivative exactly when its sum is 0, if derivatives sum to 0 along both factors, and always otherwise *)
Theorem C90_exact_2 g : isform G 2 t g -> (exact G 1 t g <-> (tied gx t -> tied gy t -> lsum g = 0)).
Proof.
  intro Hg. rewrite (form2 g Hg). set (K := ent nx g). pose proof (exact_2 _ _ _ _ mx nx my ny dx dy Lx Ly (Logic.proj1 (Logic.proj2 pos)) K) as X.
  assert (exact G 1 t (flat ny nx K) <-> exists U V, forall i j, (i < ny)%nat -> (j < nx)%nat -> - oncols my dy U i j + onrows mx dx V i j = K i j) as ->.
  { split.
    - intros (w & Hw & H). destruct (form1 w Hw) as (U & V & ->). apply deriv1 in H. exists U, V. intros i j Hi Hj. symmetry. exact (flat_inj ny nx K _ H i j Hi Hj).
    - intros (U & V & H). exists (flat my nx U ++ flat ny mx V). split; [apply form1_flat|]. apply deriv1. apply flat_ext. intros i j Hi Hj. symmetry. auto. }
  rewrite X, lsum_flat. destruct (tied_dec gx t) as [[T E]|[T E]], (tied_dec gy t) as [[F E']|[F E']]; rewrite E, E'; split; auto; try tauto; intros _ ?; discriminate || (intro; discriminate).
Qed.
End G.
(** on the primal cells of a rectangle every closed 1-form and every 2-form is a derivative; on the dual cells every closed 1-form is, and the 2-forms with sum 0 are *)
Theorem C90_rectangle close gx gy G : good gx -> good gy -> product close gx gy = Ok G -> kd gx <> Periodic -> kd gy <> Periodic ->
  (forall t w, isform G 1 t w -> (exact G 0 t w <-> closed G 1 t w)) /\ (forall g, isform G 2 true g -> exact G 1 true g) /\ (forall g, isform G 2 false g -> (exact G 1 false g <-> lsum g = 0)).
Proof.
  intros Gx Gy EG Hx Hy. unfold not in *. split; [|split].
  - intros t w Hw. rewrite (C90_exact_1 close gx gy G t Gx Gy EG w Hw). split; [tauto|]. intro H. split; auto. unfold tied, free. split; intros [E|E] [E'|E']; try tauto; congruence.
  - intros g Hg. apply (C90_exact_2 close gx gy G true Gx Gy EG g Hg). intros [E|E]; [tauto|discriminate].
  - intros g Hg. rewrite (C90_exact_2 close gx gy G false Gx Gy EG g Hg). unfold tied. split; auto.
Qed.
(** on a torus: the conditions are all there *)
Theorem C90_torus close gx gy G t : good gx -> good gy -> product close gx gy = Ok G -> kd gx = Periodic -> kd gy = Periodic ->
  (forall f, isform G 0 t f -> (closed G 0 t f <-> constant f)) /\
  (forall w, isform G 1 t w -> (exact G 0 t w <-> closed G 1 t w /\ xsum gx gy t 0 w = 0 /\ ysum gx gy t 0 w = 0)) /\
  (forall g, isform G 2 t g -> (exact G 1 t g <-> lsum g = 0)).
Proof.
  intros Gx Gy EG Hx Hy. assert (free gx t /\ free gy t /\ tied gx t /\ tied gy t) as (F1 & F2 & F3 & F4) by (unfold free, tied; auto). split; [|split].
  - intros f Hf. rewrite (C90_closed_0 close gx gy G t Gx Gy EG f Hf). tauto.
  - intros w Hw. rewrite (C90_exact_1 close gx gy G t Gx Gy EG w Hw). tauto.
  - intros g Hg. rewrite (C90_exact_2 close gx gy G t Gx Gy EG g Hg). tauto.
Qed.
(** the horizontal unit 1-form on a 3 by 3 torus is closed and is not a derivative *)
Definition torus_dx : list R := repeat 1 9 ++ repeat 0 9.
Example C90_instance : exists G, product (fun _ _ => true) gp gp = Ok G /\ isform G 1 true torus_dx /\ closed G 1 true torus_dx /\ ~ exact G 0 true torus_dx /\ xsum gp gp true 0 torus_dx = 3.
Proof.
  assert (good gp) as Gp by (unfold good, gp, big_enough; cbn; split; [lia|lra]). destruct (C46_product_exists (fun _ _ => true) gp gp Gp Gp) as (G & EG). exists G. split; auto.
  assert (isform G 1 true torus_dx) as Hw by (apply (isform_len (fun _ _ => true) gp gp G true Gp Gp EG 1); [lia|reflexivity]). split; auto.
  assert (torus_dx = flat 3 3 (fun _ _ => 1) ++ flat 3 3 (fun _ _ => 0)) as ET by reflexivity.
  assert (xsum gp gp true 0 torus_dx = 3) as S by (unfold xsum, torus_dx, Nd; cbn; ring).
  split; [|split; [|exact S]].
  - rewrite ET. apply (closed1 (fun _ _ => true) gp gp G true Gp Gp EG (fun _ _ => 1) (fun _ _ => 0)).
    intros i j Hi Hj. change (Nd gp 1 true) with 3%nat in *. unfold oncols, onrows. change (Nd gp 0 true) with 3%nat. destruct i as [|[|[|i]]]; [..|lia]; destruct j as [|[|[|j]]]; try lia; cbn; change (Pos.to_nat 1) with 1%nat; cbn; ring.
  - intro X. apply (C90_torus _ gp gp G true Gp Gp EG eq_refl eq_refl) in X; auto. lra.
Qed.
