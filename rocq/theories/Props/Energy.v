(** C92, C93: the Hodge star defines an inner product of forms on periodic and regular grids and on their products; Green's identity, and the
    Poisson problem on product grids. *)
From Coq Require Import ZArith Reals List Lia Lra Arith Bool.
From Coq Require Import ZifyNat ZifyBool.
From Verif Require Import Model.Sym.
From Coquelicot Require Import Coquelicot.
From Verif Require Import Model.Num Model.Np Model.Spectral Model.Basis Model.Grids1 Model.Regular Model.Chebyshev Model.Common Model.Decform Model.Grid2 Model.Laplacian Spec.Trig Spec.Tiling Spec.Poly Spec.Resolved
  Proofs.ListLemmas Proofs.RingSums Proofs.Sums Proofs.Grids1P Proofs.GridsThm Proofs.Lin Proofs.Mirror Proofs.TableLin Proofs.Fourier Proofs.Ops Proofs.ChebPoly Proofs.Cheb1 Proofs.Cheb2 Proofs.RegularBasis Proofs.Exact1 Proofs.Arr2 Proofs.Grid2P Proofs.Grid2Ops Proofs.RegularP Proofs.LaplaceP Proofs.Cohomology Proofs.Gram
  Props.Grid1 Props.Grid2 Props.Basis2 Props.Exact1 Props.Laplacian Props.Cohomology.
Import ListNotations.
Local Open Scope R_scope.
Ltac Zify.zify_post_hook ::= Z.div_mod_to_equations.

(** ** one dimension *)
(** the sum of a form times the star of another: the form a on d-cells, H b on the dual cells *)
Definition pairing (a b : list R) : R := lsum (vmul a b).
Lemma pairing_dot a b m : length a = m -> length b = m -> pairing a b = dot m a b.
Proof.
  intros La Lb. unfold pairing, dot. rewrite (lsum_bsum _ 0), bsum_Rsum. unfold vmul. rewrite length_zipw, La, Lb, Nat.min_id. apply Rsum_ext. intros i Hi. rewrite (nth_zipw _ _ _ _ 0 0 0) by lia. reflexivity.
Qed.
Lemma N_dual k n d t : (d <= 1)%nat -> grid_N k n (1 - d) (negb t) = grid_N k n d t.
Proof. intro Hd. destruct k, t, d as [|[|d]]; try lia; reflexivity. Qed.
Lemma gram_hodge close k n d t : k <> Chebyshev -> big_enough k n -> (d <= 1)%nat -> exists h, lin (grid_N k n d t) (grid_N k n d t) h /\ gram (grid_N k n d t) h /\
  exists H, tget (Common.dH (dec_of close k)) (d, t) = Ok H /\ forall a, length a = grid_N k n d t -> H a = Ok (h a).
Proof.
  intros Hk B Hd. assert (guarded close k n) as Gd by (destruct k; [exact I|exact I|congruence]).
  destruct (table_H_lin close k n d t B Gd Hd) as (o & Eo & h & Lh & Ev). rewrite N_dual in Lh by auto. exists h. split; [exact Lh|]. split; [|now exists o].
  assert (forall a, length a = grid_N k n d t -> h a = run o a) as Er by (intros a La; unfold run; now rewrite (Ev a La)).
  assert (forall o', (forall a, length a = grid_N k n d t -> exists b, o a = Ok b /\ o' b = Ok a) -> forall a, length a = grid_N k n d t -> run o' (h a) = a) as Inv.
  { intros o' Ho a La. destruct (Ho a La) as (b & Eb & Ea). rewrite (Ev a La) in Eb. injection Eb as ->. unfold run. now rewrite Ea. }
  assert (k = Periodic \/ k = Regular) as [E|E] by (destruct k; auto; congruence); rewrite E in *; cbn [big_enough] in B.
  - assert (grid_N Periodic n d t = n) as EN by (destruct d as [|[|d]], t; try lia; reflexivity). rewrite EN in *.
    assert (exists g, (g = opH \/ g = opHinv) /\ o = spec g) as (g & Hg & ->) by (destruct d as [|[|d]]; [| |lia]; destruct t; cbn in Eo; injection Eo as <-; eexists; split; [left; reflexivity|reflexivity| left; reflexivity|reflexivity|right; reflexivity|reflexivity|right; reflexivity|reflexivity]).
    apply (gram_ext _ _ g); [intros a La; rewrite Er by auto; unfold run, spec; destruct a; [cbn in La; lia|reflexivity]|]. destruct Hg as [->| ->]; [apply gram_opH; lia|apply gram_opHinv; lia].
  - destruct d as [|[|d]]; [| |lia].
    + apply (gram_ext _ _ _ Er). destruct t; cbn in Eo; injection Eo as <-; [apply gram_H0_regular; exact B|apply gram_H0d_regular; cbn; lia].
    + apply (gram_inv _ (run (if t then real_of H0d_regular else real_of H0_regular)) h); [|exact Lh|].
      * destruct t; [apply gram_H0d_regular; cbn; lia|apply gram_H0_regular; exact B].
      * apply Inv. intros a La. assert (sound close (MkGrid1 Regular n 0 PI)) as Sg by (split; [split; [exact B|cbn; apply PI_RGT_0]|discriminate]).
        pose proof (Grid2.h_inv close (MkGrid1 Regular n 0 PI) 1 t a Sg ltac:(lia) La) as X. unfold hget in X. cbn [kd] in X. rewrite Eo, (Ev a La) in X. cbn [bind] in X. exists (h a). split; [now apply Ev|]. destruct t; exact X.
Qed.
(** ** C92, one dimension: the star defines an inner product on the d-forms of every periodic and regular grid: (a, b) = sum a * H b is symmetric,
    positive definite (linear by C13), hence satisfies the Cauchy-Schwarz inequality *)
Theorem C92_inner_product close k n d t : k <> Chebyshev -> big_enough k n -> (d <= 1)%nat ->
  exists H, tget (Common.dH (dec_of close k)) (d, t) = Ok H /\
  forall a b, length a = grid_N k n d t -> length b = grid_N k n d t -> exists Ha Hb, H a = Ok Ha /\ H b = Ok Hb /\
    pairing a Hb = pairing b Ha /\ 0 <= pairing a Ha /\ (pairing a Ha = 0 <-> forall i, nth i a 0 = 0) /\
    pairing a Hb * pairing a Hb <= pairing a Ha * pairing b Hb.
Proof.
  intros Hk B Hd. destruct (gram_hodge close k n d t Hk B Hd) as (h & Lh & Gh & H & EH & Ev). exists H. split; auto. intros a b La Lb. exists (h a), (h b).
  pose proof (lin_len _ _ h a Lh La) as LA. pose proof (lin_len _ _ h b Lh Lb) as LB. rewrite !(pairing_dot _ _ (grid_N k n d t)) by auto.
  split; [now apply Ev|]. split; [now apply Ev|]. split; [now apply gram_sym|]. split; [now apply gram_nonneg|]. split; [|now apply gram_cauchy]. split.
  - intro Z. pose proof (gram_zero _ h a Gh La LA Z) as HZ.
    assert (sound close (MkGrid1 k n 0 PI)) as Sg by (split; [split; [exact B|cbn; apply PI_RGT_0]|cbn; congruence]).
    assert (forall u, length u = grid_N k n d t -> exists o', forall v, H u = Ok v -> o' v = Ok u) as Inj.
    { intros u Lu. pose proof (Grid2.h_inv close (MkGrid1 k n 0 PI) d t u Sg Hd Lu) as X. unfold hget at 1 in X. cbn [kd] in X. rewrite EH in X. eexists. intros v E. rewrite E in X. exact X. }
    assert (h (repeat 0 (grid_N k n d t)) = repeat 0 (grid_N k n d t)) as Hz by exact (LaplaceP.lin_zeros _ _ h Lh).
    assert (forall u, length u = grid_N k n d t -> h u = repeat 0 (grid_N k n d t) -> hget close (MkGrid1 k n 0 PI) (1 - d) (negb t) (repeat 0 (grid_N k n d t)) = Ok u) as Q.
    { intros u Lu Eu. pose proof (Grid2.h_inv close (MkGrid1 k n 0 PI) d t u Sg Hd Lu) as X. unfold hget at 1 in X. cbn [kd] in X. rewrite EH, (Ev u Lu), Eu in X. exact X. }
    pose proof (Q a La HZ) as Qa. pose proof (Q (repeat 0 (grid_N k n d t)) (repeat_length _ _) Hz) as Q0. rewrite Q0 in Qa. injection Qa as <-. intro i. apply nth_repeat.
  - intro Z. unfold dot. apply Rsum_zero_ext. intros i Hi. rewrite Z. ring.
Qed.
(** on Chebyshev grids it does not: with three vertices (1, x^2) = 2/3 is the integral of x^2, but (x^2, 1) = 2 - sqrt 2 *)
Lemma cheb3 : exists c, chebyshev_default 3 = Ok c /\ verts c = [-1; 0; 1] /\ edges_dual c = ([-1; - (1 / sqrt 2); 1 / sqrt 2], [- (1 / sqrt 2); 1 / sqrt 2; 1]).
Proof.
  destruct (cd_cells 3 ltac:(lia)) as (c & E & Ev & _ & _ & Ed). exists c. split; [exact E|]. rewrite Ev, Ed. cbn [Nat.sub Nat.mul Nat.add].
  unfold tab. cbn [seq map]. unfold tdual, xg, hstep. cbn [Nat.eqb Nat.sub Nat.mul Nat.add]. replace (INR 4) with 4 by (cbn; ring). replace (INR 0) with 0 by reflexivity. replace (INR 1) with 1 by reflexivity. replace (INR 2) with 2 by (cbn; ring).
  replace (0 * (2 * PI / 4)) with 0 by field. replace (1 * (2 * PI / 4)) with (PI / 2) by field. replace (2 * (2 * PI / 4)) with PI by field.
  replace (0 + 2 * PI / 4 / 2) with (PI / 4) by field. replace (PI / 2 + 2 * PI / 4 / 2) with (PI - PI / 4) by field.
  rewrite cos_0, cos_PI2, cos_PI. rewrite (cos_minus PI), cos_PI, sin_PI, cos_PI4. split; [repeat f_equal; ring|]. f_equal; repeat f_equal; ring.
Qed.
Theorem C92_chebyshev_refuted close : exists H a b Ha Hb, tget (Common.dH (dec_of close Chebyshev)) (0%nat, true) = Ok H /\ length a = grid_N Chebyshev 3 0 true /\ length b = grid_N Chebyshev 3 0 true /\
  H a = Ok Ha /\ H b = Ok Hb /\ pairing a Hb = 2 / 3 /\ pairing b Ha = 2 - sqrt 2 /\ pairing a Hb <> pairing b Ha.
Proof.
  destruct cheb3 as (c & Ec & Ev & Ed).
  assert (polynomial 2 (fun _ => 1)) as P1' by apply poly_const.
  assert (polynomial 2 (fun x => x * (x * 1))) as P2 by (apply poly_mulx, poly_mulx, poly_const).
  pose proof (Proofs.Exact1.H0_poly 3 ltac:(lia) c Ec (fun _ => 1) P1') as H1. pose proof (Proofs.Exact1.H0_poly 3 ltac:(lia) c Ec (fun x => x * (x * 1)) P2) as H2.
  unfold P0, proj0, P1d, proj1 in H1, H2. rewrite Ev, Ed in H1, H2. cbn [map fst snd zipw] in H1, H2.
  assert (forall a b, RInt (fun _ : R => 1) a b = b - a) as R1 by (intros; rewrite RInt_const; change ((b - a) * 1 = b - a); ring).
  assert (forall a b, RInt (fun x : R => x * (x * 1)) a b = (b * b * b - a * a * a) / 3) as R2.
  { intros a b. apply is_RInt_unique. replace ((b * b * b - a * a * a) / 3) with (minus (b * b * b / 3) (a * a * a / 3)) by (unfold minus, plus, opp; cbn; field).
    apply (is_RInt_derive (fun x => x * x * x / 3)); [intros x _; auto_derive; [trivial|field]|]. intros x _. apply (continuous_mult (fun x => x) (fun x => x * 1)); [apply continuous_id|]. apply (continuous_mult (fun x => x) (fun x => 1)); [apply continuous_id|apply continuous_const]. }
  rewrite !R1 in H1. rewrite !R2 in H2.
  pose proof Rlt_sqrt2_0 as Ps. pose proof (sqrt_sqrt 2 ltac:(lra)) as Sq.
  assert (1 / sqrt 2 = sqrt 2 / 2) as Es by (apply (Rmult_eq_reg_r (sqrt 2)); [|lra]; replace (1 / sqrt 2 * sqrt 2) with 1 by (field; lra); lra).
  rewrite Es in *.
  exists H0_cheb, [1; 1; 1], [-1 * (-1 * 1); 0 * (0 * 1); 1 * (1 * 1)]. eexists _, _. split; [reflexivity|]. split; [reflexivity|]. split; [reflexivity|]. split; [exact H1|]. split; [exact H2|].
  unfold pairing, lsum, vmul, zipw, fold_left, combine, map. cbn [nmul nadd nzero NumR fst snd].
  assert (0 + 1 * ((- (sqrt 2 / 2) * - (sqrt 2 / 2) * - (sqrt 2 / 2) - -1 * -1 * -1) / 3) + 1 * ((sqrt 2 / 2 * (sqrt 2 / 2) * (sqrt 2 / 2) - - (sqrt 2 / 2) * - (sqrt 2 / 2) * - (sqrt 2 / 2)) / 3) + 1 * ((1 * 1 * 1 - sqrt 2 / 2 * (sqrt 2 / 2) * (sqrt 2 / 2)) / 3) = 2 / 3) as A by field.
  assert (sqrt 2 <> 4 / 3) as Ne by (intro Q; rewrite Q in Sq; lra).
  repeat split; lra.
Qed.

(** ** product grids *)
(** G.dec.H[d, t](f) = g *)
Definition star (G : grid2) (d : nat) (t : bool) (f g : list R) : Prop := exists H, tget (g2H G) (d, t) = Ok H /\ H f = Ok g.
(** the sum of a form a times a form b of the complementary degree on the dual cells.  1-forms: (sum over the horizontal edges of a_x b_y) - (sum over
    the vertical edges of a_y b_x); the horizontal edges come first in a 1-form, and the horizontal dual edges are dual to the vertical edges *)
Definition horizontal (gx gy : grid1) (t : bool) : nat := Nd gy 0 t * Nd gx 1 t.
Definition pairing2 (gx gy : grid1) (d : nat) (t : bool) (a b : list R) : R :=
  if Nat.eqb d 1 then pairing (firstn (horizontal gx gy t) a) (skipn (horizontal gx gy (negb t)) b) - pairing (skipn (horizontal gx gy t) a) (firstn (horizontal gx gy (negb t)) b)
  else pairing a b.
Section P.
Variables (close : C -> C -> bool) (gx gy : grid1) (G : grid2) (t : bool).
Hypothesis Gx : good gx. Hypothesis Gy : good gy. Hypothesis Kx : kd gx <> Chebyshev. Hypothesis Ky : kd gy <> Chebyshev. Hypothesis EG : product close gx gy = Ok G.
Notation mx := (Nd gx 0 t). Notation nx := (Nd gx 1 t). Notation my := (Nd gy 0 t). Notation ny := (Nd gy 1 t).
Lemma sound_x : sound close gx. Proof. split; auto. congruence. Qed.
Lemma sound_y : sound close gy. Proof. split; auto. congruence. Qed.
Lemma Nd_dual g d s : (d <= 1)%nat -> Nd g (1 - d) (negb s) = Nd g d s. Proof. exact (N_dual (kd g) (sz g) d s). Qed.
Lemma gram_h g d s : good g -> kd g <> Chebyshev -> (d <= 1)%nat -> exists h, lin (Nd g d s) (Nd g d s) h /\ gram (Nd g d s) h /\ forall a, length a = Nd g d s -> hget close g d s a = Ok (h a).
Proof.
  intros [B _] K Hd. destruct (gram_hodge close (kd g) (sz g) d s K B Hd) as (h & L & Gh & H & E & Ev). exists h. split; auto. split; auto. intros a La. unfold hget. rewrite E. now apply Ev.
Qed.
Lemma hodge_field : g2H G = reshapeO (table6 (shp2 gx gy)) (table6 (fun d t => match d with | 0%nat => H2_0 (hget close gx 0 t) (hget close gy 0 t) | 1%nat => H2_1 (hget close gx 0 t) (hget close gx 1 t) (hget close gy 0 t) (hget close gy 1 t) | _ => H2_0 (hget close gx 1 t) (hget close gy 1 t) end)).
Proof. destruct (product_ok close gx gy Gx Gy) as (sx & sy & G' & _ & _ & E & H). rewrite EG in E. injection E as <-. intuition auto. Qed.
Lemma app_zero (a b : list R) n : a ++ b = repeat 0 n -> a = repeat 0 (length a) /\ b = repeat 0 (length b).
Proof.
  intro E. assert (n = length a + length b)%nat as -> by (apply (f_equal (@length R)) in E; rewrite app_length, repeat_length in E; lia).
  rewrite repeat_app in E. apply app_inj_len in E; [exact E|]. now rewrite repeat_length.
Qed.
Lemma opp_zero n : map Ropp (repeat 0 n) = repeat 0 n. Proof. induction n as [|n IH]; [reflexivity|]. cbn. rewrite IH. f_equal. ring. Qed.
Lemma turned_dot p q (b u v : list R) : length b = (p + q)%nat -> length u = q -> length v = p -> pairing (firstn p b) v - pairing (skipn p b) u = dot (p + q) b (v ++ map Ropp u).
Proof.
  intros Lb Lu Lv. rewrite (pairing_dot _ _ p), (pairing_dot _ _ q) by (rewrite ?firstn_length, ?skipn_length; lia). unfold dot. rewrite Rsum_split. unfold Rminus. rewrite <- Rsum_opp. f_equal.
  - apply Rsum_ext. intros i Hi. rewrite app_nth1 by lia. now rewrite nth_firstn_.
  - apply Rsum_ext. intros i Hi. rewrite app_nth2 by lia. rewrite nth_firstn_skipn, Lv. replace (p + i - p)%nat with i by lia. rewrite (nth_map_ Ropp u i 0 0) by lia. ring.
Qed.
Lemma gram2 d : (d <= 2)%nat -> exists g, gram (N2 gx gy d t) g /\ (forall a, length a = N2 gx gy d t -> length (g a) = N2 gx gy d t) /\
  forall a, isform G d t a -> exists Ha, star G d t a Ha /\ (g a = repeat 0 (N2 gx gy d t) -> exists m, Ha = repeat 0 m) /\ forall b, isform G d t b -> pairing2 gx gy d t b Ha = dot (N2 gx gy d t) b (g a).
Proof.
  intro Hd. unfold star. rewrite hodge_field. destruct (Nat.eq_dec d 1) as [->|Hn].
  - destruct (gram_h gx 0 t Gx Kx ltac:(lia)) as (hx0 & A1 & A2 & A3). destruct (gram_h gx 1 t Gx Kx ltac:(lia)) as (hx1 & B1 & B2 & B3).
    destruct (gram_h gy 0 t Gy Ky ltac:(lia)) as (hy0 & C1 & C2 & C3). destruct (gram_h gy 1 t Gy Ky ltac:(lia)) as (hy1 & D1 & D2 & D3).
    exists (fun a => tensor my nx hx1 hy0 (firstn (my * nx) a) ++ tensor ny mx hx0 hy1 (skipn (my * nx) a)). cbn [N2]. split; [|split].
    + apply gram_app; [now apply gram_tensor..|]. intros a La. unfold tensor. apply length_flat.
    + intros a La. rewrite app_length. unfold tensor. now rewrite !length_flat.
    + intros a Fa. destruct (form1 close gx gy G t Gx Gy EG a Fa) as (U & V & ->).
      destruct (H1_flat close gx gy Gx Gy t hx0 hx1 hy0 hy1) as (o & Eo & Ho); [intros d h [[= <- <-]|[[= <- <-]|[]]]; rewrite Nd_dual by lia; split; assumption..|].
      eexists. split; [exists o; split; [exact Eo|apply Ho]|]. pose proof (Nd_dual gx 0 t ltac:(lia)) as X0. pose proof (Nd_dual gx 1 t ltac:(lia)) as X1. pose proof (Nd_dual gy 0 t ltac:(lia)) as Y0. pose proof (Nd_dual gy 1 t ltac:(lia)) as Y1. cbn [Nat.sub] in X0, X1, Y0, Y1. rewrite X0, X1, Y0, Y1.
      rewrite firstn_app_exact, skipn_app, skipn_all2, length_flat, Nat.sub_diag by (rewrite ?length_flat; auto). cbn [skipn app].
      assert (tensor my nx hx1 hy0 (flat my nx U) = flat my nx (oncols my hy0 (onrows nx hx1 U))) as T0.
      { unfold tensor. apply flat_ext. intros i j Hi Hj. rewrite (rows_cols my nx nx my) by auto. apply oncols_ext. intros i' Hi'. apply onrows_ext. intros j' Hj'. unfold ent. now apply nth_flat. }
      assert (tensor ny mx hx0 hy1 (flat ny mx V) = flat ny mx (onrows mx hx0 (oncols ny hy1 V))) as T1.
      { unfold tensor. apply flat_ext. intros i j Hi Hj. apply onrows_ext. intros j' Hj'. apply oncols_ext. intros i' Hi'. unfold ent. now apply nth_flat. }
      split.
      * intro Z. rewrite T0, T1 in Z. apply app_zero in Z as [Z0 Z1]. exists (ny * mx + my * nx)%nat. rewrite <- flat_opp, Z0, Z1, opp_zero, !length_flat. symmetry. apply repeat_app.
      * intros b Fb. apply (isform_len close gx gy G t Gx Gy EG 1) in Fb; [|lia]. unfold pairing2, horizontal. cbn [Nat.eqb]. rewrite X0, Y1. rewrite firstn_app_exact, skipn_app, skipn_all2, length_flat, Nat.sub_diag by (rewrite ?length_flat; auto). cbn [skipn app].
        rewrite (turned_dot (my * nx) (ny * mx)) by (rewrite ?length_flat; auto). rewrite T0, T1. do 2 f_equal. rewrite flat_opp. apply flat_ext. intros. ring.
  - assert (exists e, (e <= 1)%nat /\ d = (2 * e)%nat) as (e & He & ->) by (exists (d / 2)%nat; destruct d as [|[|[|d]]]; cbn; lia).
    destruct (gram_h gx e t Gx Kx He) as (hx & A1 & A2 & A3). destruct (gram_h gy e t Gy Ky He) as (hy & C1 & C2 & C3).
    assert (N2 gx gy (2 * e) t = Nd gy e t * Nd gx e t)%nat as EN by (destruct e as [|[|e]]; [reflexivity|reflexivity|lia]). rewrite EN.
    exists (tensor (Nd gy e t) (Nd gx e t) hx hy). split; [now apply gram_tensor|]. split; [intros; apply length_flat|]. intros a Fa. apply (isform_len close gx gy G t Gx Gy EG) in Fa; [|lia]. rewrite EN in Fa.
    destruct (H02_flat close gx gy Gx Gy e t hx hy He) as (o & Eo & Ho); rewrite ?Nd_dual by lia; auto. rewrite !Nd_dual in Ho by lia.
    exists (tensor (Nd gy e t) (Nd gx e t) hx hy a). split; [|split].
    + exists o. split; [exact Eo|]. rewrite (flat_ent _ _ a Fa) at 1. apply Ho.
    + intros ->. now exists (Nd gy e t * Nd gx e t)%nat.
    + intros b Fb. apply (isform_len close gx gy G t Gx Gy EG) in Fb; [|lia]. rewrite EN in Fb. unfold pairing2. destruct (Nat.eqb_spec (2 * e) 1); [lia|]. apply pairing_dot; auto. apply length_flat.
Qed.
Lemma star_inj d a Ha m : (d <= 2)%nat -> isform G d t a -> star G d t a Ha -> Ha = repeat 0 m -> a = repeat 0 (N2 gx gy d t).
Proof.
  intros Hd Fa (H & EH & Ea) ->. pose proof (isform_len close gx gy G t Gx Gy EG) as IL.
  assert (isform G d t (repeat 0 (N2 gx gy d t))) as F0 by (apply IL; auto; apply repeat_length).
  destruct (C44_hodge close gx gy G d t a sound_x sound_y EG Hd Fa) as (H1 & H1' & g & E1 & E1' & V & LV & I). rewrite EH in E1. injection E1 as <-. rewrite Ea in V. injection V as <-.
  destruct (gram2 d Hd) as (g & Gg & Lg & Sg). destruct (Sg _ F0) as (H0 & S0 & Z0 & _).
  assert (g (repeat 0 (N2 gx gy d t)) = repeat 0 (N2 gx gy d t)) as Eg.
  { apply gram_zero; auto using repeat_length. unfold dot. apply Rsum_zero_ext. intros i Hi. rewrite nth_repeat. ring. }
  destruct (Z0 Eg) as (m' & ->). destruct S0 as (H2 & E2 & V2). rewrite EH in E2. injection E2 as <-.
  destruct (C44_hodge close gx gy G d t _ sound_x sound_y EG Hd F0) as (H3 & H3' & g3 & E3 & E3' & V3 & LV3 & I3). rewrite EH in E3. injection E3 as <-. rewrite V2 in V3. injection V3 as <-. rewrite E1' in E3'. injection E3' as <-.
  assert (m' = m) as -> by (rewrite LV in LV3; injection LV3 as LV3; rewrite !repeat_length in LV3; lia). rewrite I in I3. injection I3 as I3.
  destruct (Nat.eqb d 1); [|exact I3]. rewrite opp_zero in I3. rewrite <- (map_id a). rewrite (map_ext (fun x => x) (fun x => - - x)) by (intros; ring). rewrite <- (map_map Ropp Ropp), I3. apply opp_zero.
Qed.
(** the same on product grids, for 0-, 1- and 2-forms *)
Theorem C92_inner_product_2d d a b : (d <= 2)%nat -> isform G d t a -> isform G d t b ->
  exists Ha Hb, star G d t a Ha /\ star G d t b Hb /\
    pairing2 gx gy d t a Hb = pairing2 gx gy d t b Ha /\ 0 <= pairing2 gx gy d t a Ha /\ (pairing2 gx gy d t a Ha = 0 <-> forall i, nth i a 0 = 0) /\
    pairing2 gx gy d t a Hb * pairing2 gx gy d t a Hb <= pairing2 gx gy d t a Ha * pairing2 gx gy d t b Hb.
Proof.
  intros Hd Fa Fb. destruct (gram2 d Hd) as (g & Gg & Lg & Sg). destruct (Sg a Fa) as (Ha & Sa & Za & Pa). destruct (Sg b Fb) as (Hb & Sb & Zb & Pb). exists Ha, Hb.
  pose proof Fa as La. apply (isform_len close gx gy G t Gx Gy EG) in La; auto. pose proof Fb as Lb. apply (isform_len close gx gy G t Gx Gy EG) in Lb; auto.
  split; auto. split; auto. rewrite !Pa, !Pb by auto. split; [now apply gram_sym|]. split; [now apply gram_nonneg|]. split; [|now apply gram_cauchy]. split.
  - intro Z. destruct (Za (gram_zero _ g a Gg La (Lg a La) Z)) as (m & E). rewrite (star_inj d a Ha m Hd Fa Sa E). intro i. apply nth_repeat.
  - intro Z. unfold dot. apply Rsum_zero_ext. intros i Hi. rewrite Z. ring.
Qed.
End P.
(** the hypotheses hold on a cylinder: a periodic factor of 3 and a regular factor of 3 vertices, for dual 1-forms (6 + 9 entries) *)
Definition cyl_x : grid1 := MkGrid1 Periodic 3 0 1.
Definition cyl_y : grid1 := MkGrid1 Regular 3 (-1) 1.
Lemma cyl_good : good cyl_x /\ good cyl_y. Proof. unfold good, big_enough; cbn; repeat split; (lia || lra). Qed.
Example C92_instance : exists G, product (fun _ _ => true) cyl_x cyl_y = Ok G /\ isform G 1 false (repeat 1 15) /\ exists Ha, star G 1 false (repeat 1 15) Ha /\ 0 < pairing2 cyl_x cyl_y 1 false (repeat 1 15) Ha.
Proof.
  destruct cyl_good as [Gx Gy]. destruct (C46_product_exists (fun _ _ => true) cyl_x cyl_y Gx Gy) as (G & EG). exists G. split; [exact EG|].
  assert (isform G 1 false (repeat 1 15)) as Hw by (apply (isform_len (fun _ _ => true) cyl_x cyl_y G false Gx Gy EG 1); [lia|reflexivity]). split; [exact Hw|].
  destruct (C92_inner_product_2d (fun _ _ => true) cyl_x cyl_y G false Gx Gy ltac:(discriminate) ltac:(discriminate) EG 1 _ _ ltac:(lia) Hw Hw) as (Ha & _ & S & _ & _ & P & D & _). exists Ha. split; [exact S|].
  destruct P as [P|P]; [exact P|]. exfalso. pose proof (Logic.proj1 D (eq_sym P) 0%nat) as X. cbn in X. lra.
Qed.
