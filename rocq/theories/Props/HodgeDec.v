(** C94: the Hodge decomposition of the 1-forms of a product grid, and its harmonic 1-forms. *)
From Coq Require Import ZArith Reals List Lia Lra Arith Bool.
From Coq Require Import ZifyNat ZifyBool.
From Verif Require Import Model.Sym.
From Coquelicot Require Import Coquelicot.
From Verif Require Import Model.Num Model.Np Model.Spectral Model.Basis Model.Grids1 Model.Regular Model.Chebyshev Model.Common Model.Decform Model.Grid2 Model.Laplacian Spec.Trig Spec.Tiling
  Proofs.ListLemmas Proofs.RingSums Proofs.Sums Proofs.Grids1P Proofs.GridsThm Proofs.Lin Proofs.Mirror Proofs.TableLin Proofs.Arr2 Proofs.Grid2P Proofs.Grid2Ops Proofs.LaplaceP Proofs.Cohomology Proofs.Gram Proofs.InjSurj
  Props.Grid1 Props.Grid2 Props.Exact1 Props.Laplacian Props.Cohomology Props.Energy Props.Poisson2 Proofs.Ops2.
Import ListNotations.
Local Open Scope R_scope.
Ltac Zify.zify_post_hook ::= Z.div_mod_to_equations.

(** b = g.H.D.H for some 2-form g *)
Definition coexact (G : grid2) (t : bool) (b : list R) : Prop := exists g p v, isform G 2 t g /\ star G 2 t g p /\ deriv G 0 (negb t) p v /\ star G 1 (negb t) v b.
(** h.D = 0 and h.H.D = 0 *)
Definition harmonic (G : grid2) (t : bool) (h : list R) : Prop := isform G 1 t h /\ closed G 1 t h /\ exists Hh, star G 1 t h Hh /\ closed G 1 (negb t) Hh.
(** the pairing of a with b.H is 0 *)
Definition orthogonal (gx gy : grid1) (G : grid2) (t : bool) (a b : list R) : Prop := exists Hb, star G 1 t b Hb /\ pairing2 gx gy 1 t a Hb = 0.
(** entrywise sum *)
Definition plus (a b : list R) : list R := vadd a b.

Lemma nth_plus a b i : length a = length b -> nth i (plus a b) 0 = nth i a 0 + nth i b 0.
Proof. intro L. unfold plus, vadd. destruct (Nat.lt_ge_cases i (length a)) as [H|H]; [now rewrite (nth_zipw _ a b i 0 0 0) by lia|]. rewrite !nth_overflow by (rewrite ?length_zipw; lia). ring. Qed.
Lemma length_plus a b : length a = length b -> length (plus a b) = length a. Proof. intro L. unfold plus, vadd. rewrite length_zipw. lia. Qed.
Lemma plus_axpy a b : length a = length b -> plus a b = axpy 1 a b.
Proof. intro L. apply (nth_ext _ _ 0 0); [rewrite length_plus, length_axpy; auto|]. intros i _. rewrite nth_plus, nth_axpyR by auto. ring. Qed.
Lemma lin_plus m n (g : list R -> list R) a b : lin m n g -> length a = m -> length b = m -> g (plus a b) = plus (g a) (g b).
Proof. intros L La Lb. rewrite plus_axpy by congruence. destruct L as [L1 L2]. rewrite L2 by auto. symmetry. apply plus_axpy. rewrite !L1; auto. Qed.
Lemma zeros_nth (l : list R) n : length l = n -> (forall i, nth i l 0 = 0) -> l = repeat 0 n.
Proof. intros L H. apply (nth_ext _ _ 0 0); [now rewrite repeat_length|]. intros i _. rewrite H. symmetry. apply nth_repeat. Qed.

Lemma lin_zeros' m n g : lin m n g -> g (repeat 0 m) = repeat 0 n. Proof. exact (LaplaceP.lin_zeros m n g). Qed.
Section P.
Variables (close : C -> C -> bool) (gx gy : grid1) (G : grid2) (t : bool).
Hypothesis Sx : sound close gx. Hypothesis Sy : sound close gy. Hypothesis EG : product close gx gy = Ok G.
Let Gx : good gx := Logic.proj1 Sx. Let Gy : good gy := Logic.proj1 Sy.
Lemma islen d s f : (d <= 2)%nat -> isform G d s f <-> length f = N2 gx gy d s. Proof. exact (isform_len close gx gy G s Gx Gy EG d f). Qed.
Lemma deriv_form0 s f g : isform G 0 s f -> deriv G 0 s f g -> isform G 1 s g.
Proof. intros Ff H. destruct (D0_fun close gx gy G Sx Sy EG s) as (D & L & E). rewrite (deriv_fun _ _ _ _ _ _ H (E f Ff)). apply islen; [lia|]. apply (lin_len _ _ _ _ L). apply islen; [lia|assumption]. Qed.
Lemma deriv_form1 s f g : isform G 1 s f -> deriv G 1 s f g -> isform G 2 s g.
Proof. intros Ff H. destruct (D1_fun close gx gy G Sx Sy EG s) as (D & L & E). rewrite (deriv_fun _ _ _ _ _ _ H (E f Ff)). apply islen; [lia|]. apply (lin_len _ _ _ _ L). apply islen; [lia|assumption]. Qed.
Lemma star_form d s f g : (d <= 2)%nat -> isform G d s f -> star G d s f g -> isform G (2 - d) (negb s) g.
Proof. intros Hd Ff H. destruct (S_fun close gx gy G Sx Sy EG d s Hd) as (S & L & E). rewrite (star_fun _ _ _ _ _ _ H (E f Ff)). apply islen; [lia|]. apply (lin_len _ _ _ _ L). apply islen; [lia|assumption]. Qed.
Lemma star_star d s f g : (d <= 2)%nat -> isform G d s f -> star G d s f g -> star G (2 - d) (negb s) g (if Nat.eqb d 1 then map Ropp f else f).
Proof. intros Hd Ff (H & E & V). destruct (C44_hodge close gx gy G d s f Sx Sy EG Hd Ff) as (H1 & H2 & g' & E1 & E2 & V1 & L & V2). rewrite E in E1. injection E1 as <-. rewrite V in V1. injection V1 as <-. now exists H2. Qed.
Lemma dd0 s f g h : isform G 0 s f -> deriv G 0 s f g -> deriv G 1 s g h -> h = repeat 0 (N2 gx gy 2 s).
Proof.
  intros Ff H1 H2. destruct (C42_dd close gx gy G s f Gx Gy EG Ff) as (D0 & D1 & g' & n1 & n2 & E0 & E1 & _ & EN & V0 & _ & V1). destruct H1 as (D & E & V). rewrite E0 in E. injection E as <-. rewrite V0 in V. injection V as <-. destruct H2 as (D & E & V). rewrite E1 in E. injection E as <-.
  rewrite V1 in V. injection V as <-. f_equal. assert (isform G 2 s (repeat 0 n2)) as F2 by (unfold isform; now rewrite repeat_length). apply islen in F2; [|lia]. now rewrite repeat_length in F2.
Qed.
Lemma closed_zero d s f g : closed G d s f -> deriv G d s f g -> forall i, nth i g 0 = 0.
Proof. intros (n & H) H' i. rewrite (deriv_fun _ _ _ _ _ _ H' H). apply nth_repeat. Qed.
Lemma pairing_zero_r a (b : list R) : (forall i, nth i b 0 = 0) -> pairing a b = 0.
Proof. intro H. rewrite (zeros_nth b (length b) eq_refl H). apply pairing_zeros_r. Qed.
Lemma pairing2_opp a b : length a = N2 gx gy 1 t -> length b = N2 gx gy 1 (negb t) -> pairing2 gx gy 1 t a (map Ropp b) = - pairing2 gx gy 1 t a b.
Proof.
  intros La Lb. unfold pairing2, horizontal. cbn [Nat.eqb N2] in *. rewrite (X0 gx t), (X1 gx t), (Y0 gy t), (Y1 gy t) in *.
  rewrite skipn_map, firstn_map. assert (forall m (u v : list R), length u = m -> length v = m -> pairing u (map Ropp v) = - pairing u v) as E.
  { intros m u v Lu Lv. rewrite (pairing_dot u (map Ropp v) m), (pairing_dot u v m) by (rewrite ?map_length; auto). unfold dot. rewrite <- Rsum_opp. apply Rsum_ext. intros i Hi. rewrite (nth_map_ Ropp v i 0 0) by lia. ring. }
  rewrite (E (Nd gy 0 t * Nd gx 1 t)%nat), (E (Nd gy 1 t * Nd gx 0 t)%nat) by (rewrite ?firstn_length, ?skipn_length; lia). ring.
Qed.
(** derivatives of 0-forms, g.H.D.H and harmonic forms are orthogonal to each other *)
Theorem C94_orthogonal a b h : exact G 0 t a -> coexact G t b -> harmonic G t h -> orthogonal gx gy G t a b /\ orthogonal gx gy G t a h /\ orthogonal gx gy G t h b.
Proof.
  intros (f & Ff & Hf) (g & p & v & Fg & Hg & Hp & Hv) (Fh & Ch & Hh & SHh & CHh).
  pose proof (deriv_form0 t f a Ff Hf) as Fa. pose proof (star_form 2 t g p ltac:(lia) Fg Hg) as Fp. cbn [Nat.sub] in Fp. pose proof (deriv_form0 (negb t) p v Fp Hp) as Fv.
  pose proof (star_form 1 (negb t) v b ltac:(lia) Fv Hv) as Fb. cbn [Nat.sub] in Fb. rewrite negb_involutive in Fb. pose proof (star_star 1 (negb t) v b ltac:(lia) Fv Hv) as Sb. cbn [Nat.sub Nat.eqb] in Sb. rewrite negb_involutive in Sb.
  pose proof (star_form 1 t h Hh ltac:(lia) Fh SHh) as FHh. cbn [Nat.sub] in FHh.
  split; [|split].
  - exists (map Ropp v). split; [exact Sb|]. rewrite pairing2_opp by (apply islen; [lia|assumption]). destruct (D1_fun close gx gy G Sx Sy EG (negb t)) as (D & _ & ED). pose proof (stokes01 close gx gy G Sx Sy EG t f v a (D v) Ff Fv Hf (ED v Fv)) as E.
    rewrite <- E. rewrite (dd0 (negb t) p v (D v) Fp Hp (ED v Fv)). apply pairing_zeros_r.
  - exists Hh. split; [exact SHh|]. destruct (D1_fun close gx gy G Sx Sy EG (negb t)) as (D & _ & ED). pose proof (stokes01 close gx gy G Sx Sy EG t f Hh a (D Hh) Ff FHh Hf (ED Hh FHh)) as E.
    rewrite pairing_zero_r in E; [lra|]. exact (closed_zero 1 (negb t) Hh (D Hh) CHh (ED Hh FHh)).
  - exists (map Ropp v). split; [exact Sb|]. rewrite pairing2_opp by (apply islen; [lia|assumption]). rewrite (pairing2_anti gx gy t h v) by (apply islen; [lia|assumption]). rewrite Ropp_involutive.
    destruct (D1_fun close gx gy G Sx Sy EG t) as (D & _ & ED). assert (isform G 1 (negb (negb t)) h) as Fh' by (rewrite negb_involutive; exact Fh).
    pose proof (stokes01 close gx gy G Sx Sy EG (negb t) p h v (D h) Fp Fh' Hp) as E. rewrite negb_involutive in E. specialize (E (ED h Fh)). rewrite pairing_zero_r in E; [lra|]. exact (closed_zero 1 t h (D h) Ch (ED h Fh)).
Qed.
End P.

Section N.
Variables (close : C -> C -> bool) (gx gy : grid1) (G : grid2) (t : bool).
Hypothesis Gx : good gx. Hypothesis Gy : good gy. Hypothesis Kx : kd gx <> Chebyshev. Hypothesis Ky : kd gy <> Chebyshev. Hypothesis EG : product close gx gy = Ok G.
Let Sx : sound close gx := sound_x close gx Gx Kx. Let Sy : sound close gy := sound_y close gy Gy Ky.
Notation il := (islen close gx gy G Sx Sy EG).
Lemma sum_range s w Dw : isform G 1 s w -> deriv G 1 s w Dw -> free gx (negb s) -> free gy (negb s) -> lsum Dw = 0.
Proof.
  intros Fw Hw F1 F2. apply (C90_exact_2 close gx gy G s Gx Gy EG Dw).
  - now apply (deriv_form1 close gx gy G Sx Sy EG s w).
  - now exists w.
  - destruct F1 as [E|E]; [now left|right; now destruct s].
  - destruct F2 as [E|E]; [now left|right; now destruct s].
Qed.
(** every 1-form is the sum of a derivative, of g.H.D.H for a 2-form g, and of a harmonic form *)
Theorem C94_decomposition w : isform G 1 t w -> exists a b h, exact G 0 t a /\ coexact G t b /\ harmonic G t h /\ length a = length w /\ length b = length w /\ length h = length w /\ w = plus (plus a b) h.
Proof.
  intro Fw. destruct (D0_fun close gx gy G Sx Sy EG t) as (D0 & LD0 & ED0). destruct (D1_fun close gx gy G Sx Sy EG t) as (D1 & LD1 & ED1). destruct (D0_fun close gx gy G Sx Sy EG (negb t)) as (E0 & LE0 & EE0). destruct (D1_fun close gx gy G Sx Sy EG (negb t)) as (E1 & LE1 & EE1).
  destruct (S_fun close gx gy G Sx Sy EG 1 t ltac:(lia)) as (S1 & LS1 & ES1). destruct (S_fun close gx gy G Sx Sy EG 2 t ltac:(lia)) as (S2 & LS2 & ES2). destruct (S_fun close gx gy G Sx Sy EG 0 (negb t) ltac:(lia)) as (T0 & LT0 & ET0). destruct (S_fun close gx gy G Sx Sy EG 1 (negb t) ltac:(lia)) as (T1 & LT1 & ET1). destruct (S_fun close gx gy G Sx Sy EG 2 (negb t) ltac:(lia)) as (T2 & LT2 & ET2).
  cbn [Nat.sub] in *. rewrite negb_involutive in *.
  pose proof (Logic.proj1 (il 1%nat t w ltac:(lia)) Fw) as Lw.
  (* f *)
  assert (isform G 1 (negb t) (S1 w)) as F1 by (apply il; [lia|]; exact (lin_len _ _ _ _ LS1 Lw)).
  assert (isform G 2 (negb t) (E1 (S1 w))) as F2 by (apply il; [lia|]; apply (lin_len _ _ _ _ LE1); apply il; [lia|assumption]).
  assert (isform G 0 t (T2 (E1 (S1 w)))) as Fq by (apply il; [lia|]; apply (lin_len _ _ _ _ LT2); apply il; [lia|assumption]).
  destruct (C93_poisson_2d close gx gy G t Gx Gy Kx Ky EG _ Fq) as [[_ Ex] _]. destruct Ex as (f & Ff & Hf).
  { intros P1 P2. exists (E1 (S1 w)). split; [pose proof (star_star close gx gy G Sx Sy EG 2 (negb t) _ _ ltac:(lia) F2 (ET2 _ F2)) as Q; cbn [Nat.sub Nat.eqb] in Q; now rewrite negb_involutive in Q|].
    apply (sum_range (negb t) (S1 w)); auto; now rewrite negb_involutive. }
  (* p *)
  assert (isform G 2 t (D1 w)) as F3 by (apply il; [lia|]; exact (lin_len _ _ _ _ LD1 Lw)).
  assert (isform G 0 (negb t) (S2 (D1 w))) as Fq' by (apply il; [lia|]; apply (lin_len _ _ _ _ LS2); apply il; [lia|assumption]).
  destruct (C93_poisson_2d close gx gy G (negb t) Gx Gy Kx Ky EG _ Fq') as [[_ Ex] _]. destruct Ex as (p & Fp & Hp).
  { intros P1 P2. exists (D1 w). split; [exact (star_star close gx gy G Sx Sy EG 2 t _ _ ltac:(lia) F3 (ES2 _ F3))|]. now apply (sum_range t w); auto. }
  pose proof (Logic.proj1 (il 0%nat t f ltac:(lia)) Ff) as Lf. pose proof (Logic.proj1 (il 0%nat (negb t) p ltac:(lia)) Fp) as Lp.
  pose proof (lin_len _ _ _ _ LD0 Lf) as La. pose proof (lin_len _ _ _ _ LE0 Lp) as Lv. pose proof (lin_len _ _ _ _ LT1 Lv) as Lb.
  assert (isform G 1 t (D0 f)) as Fa by (apply il; [lia|assumption]). assert (isform G 1 (negb t) (E0 p)) as Fv by (apply il; [lia|assumption]). assert (isform G 1 t (T1 (E0 p))) as Fb by (apply il; [lia|assumption]).
  (* the Poisson equations in terms of the maps *)
  assert (E1 (S1 (D0 f)) = E1 (S1 w)) as Q1.
  { destruct Hf as (u & v & z & H1 & H2 & H3 & H4). rewrite (deriv_fun _ _ _ _ _ _ H1 (ED0 f Ff)) in H2. rewrite (star_fun _ _ _ _ _ _ H2 (ES1 _ Fa)) in H3.
    assert (isform G 1 (negb t) (S1 (D0 f))) as F4 by (apply il; [lia|]; exact (lin_len _ _ _ _ LS1 La)). rewrite (deriv_fun _ _ _ _ _ _ H3 (EE1 _ F4)) in H4.
    assert (isform G 2 (negb t) (E1 (S1 (D0 f)))) as F5 by (apply il; [lia|]; apply (lin_len _ _ _ _ LE1); apply il; [lia|assumption]).
    pose proof (star_star close gx gy G Sx Sy EG 2 (negb t) _ _ ltac:(lia) F5 H4) as X. pose proof (star_star close gx gy G Sx Sy EG 2 (negb t) _ _ ltac:(lia) F2 (ET2 _ F2)) as Y. cbn [Nat.eqb] in X, Y. exact (star_fun _ _ _ _ _ _ X Y). }
  assert (D1 (T1 (E0 p)) = D1 w) as Q2.
  { destruct Hp as (u & v & z & H1 & H2 & H3 & H4). rewrite (deriv_fun _ _ _ _ _ _ H1 (EE0 p Fp)) in H2. rewrite (star_fun _ _ _ _ _ _ H2 (ET1 _ Fv)) in H3. rewrite negb_involutive in *. rewrite (deriv_fun _ _ _ _ _ _ H3 (ED1 _ Fb)) in H4.
    assert (isform G 2 t (D1 (T1 (E0 p)))) as F5 by (apply il; [lia|]; exact (lin_len _ _ _ _ LD1 Lb)).
    pose proof (star_star close gx gy G Sx Sy EG 2 t _ _ ltac:(lia) F5 H4) as X. pose proof (star_star close gx gy G Sx Sy EG 2 t _ _ ltac:(lia) F3 (ES2 _ F3)) as Y. cbn [Nat.eqb] in X, Y. exact (star_fun _ _ _ _ _ _ X Y). }
  set (a := D0 f) in *. set (b := T1 (E0 p)) in *. set (h := axpy (-1) a (axpy (-1) b w)).
  assert (length (axpy (-1) b w) = length b) as Lbw by (apply length_axpy; congruence). assert (length h = length w) as Lh by (unfold h; rewrite length_axpy; congruence).
  assert (isform G 1 t h) as Fh by (apply il; [lia|congruence]).
  assert (forall m n (g : list R -> list R), lin m n g -> m = N2 gx gy 1 t -> g h = axpy (-1) (g a) (axpy (-1) (g b) (g w))) as Lin3.
  { intros m n g [L1 L2] ->. unfold h. rewrite L2 by congruence. now rewrite L2 by congruence. }
  exists a, b, h. split; [exists f; split; [exact Ff|exact (ED0 f Ff)]|]. split.
  { exists (T0 p), p, (E0 p). assert (isform G 2 t (T0 p)) as FT by (apply il; [lia|]; exact (lin_len _ _ _ _ LT0 Lp)). split; [exact FT|]. split; [|split; [exact (EE0 p Fp)|exact (ET1 _ Fv)]].
    pose proof (star_star close gx gy G Sx Sy EG 0 (negb t) p _ ltac:(lia) Fp (ET0 p Fp)) as X. cbn [Nat.eqb Nat.sub] in X. now rewrite negb_involutive in X. }
  split; [|split; [congruence|split; [congruence|split; [exact Lh|]]]].
  - split; [exact Fh|]. split.
    + exists (N2 gx gy 2 t). assert (D1 h = repeat 0 (N2 gx gy 2 t)) as <-; [|now apply ED1]. rewrite (Lin3 _ _ D1 LD1 eq_refl), Q2. rewrite (dd0 close gx gy G Sx Sy EG t f a (D1 a) Ff (ED0 f Ff) (ED1 a Fa)).
      apply zeros_nth; [rewrite !length_axpy; rewrite ?repeat_length; rewrite ?length_axpy; auto; rewrite (lin_len _ _ _ _ LD1 Lw); auto|]. intro i. rewrite !nth_axpyR by (rewrite ?length_axpy; rewrite ?repeat_length; auto; rewrite (lin_len _ _ _ _ LD1 Lw); auto). rewrite nth_repeat. ring.
    + exists (S1 h). split; [now apply ES1|]. exists (N2 gx gy 2 (negb t)). assert (isform G 1 (negb t) (S1 h)) as FS by (apply il; [lia|]; apply (lin_len _ _ _ _ LS1); congruence).
      assert (E1 (S1 h) = repeat 0 (N2 gx gy 2 (negb t))) as <-; [|now apply EE1].
      pose proof (lin_comp (A := R) _ _ _ _ _ LS1 LE1) as LC. rewrite (Lin3 _ _ (fun f => E1 (S1 f)) LC eq_refl). cbn beta. rewrite Q1.
      assert (E1 (S1 b) = repeat 0 (N2 gx gy 2 (negb t))) as ->.
      { pose proof (star_star close gx gy G Sx Sy EG 1 (negb t) _ _ ltac:(lia) Fv (ET1 _ Fv)) as X. cbn [Nat.eqb Nat.sub] in X. rewrite negb_involutive in X. fold b in X. rewrite (star_fun _ _ _ _ _ _ (ES1 b Fb) X).
        assert (map Ropp (E0 p) = axpy (-1) (E0 p) (repeat 0 (N2 gx gy 1 (negb t)))) as -> by (apply (nth_ext _ _ 0 0); [rewrite map_length, length_axpy; rewrite ?repeat_length; auto|]; intros i Hi; rewrite map_length in Hi; rewrite nth_axpyR by (rewrite repeat_length; auto); rewrite (nth_map_ Ropp _ i 0 0) by lia; rewrite nth_repeat; ring).
        destruct LE1 as [LE1a LE1b]. rewrite LE1b by (rewrite ?repeat_length; auto). rewrite (dd0 close gx gy G Sx Sy EG (negb t) p (E0 p) _ Fp (EE0 p Fp) (EE1 _ Fv)).
        change (repeat 0 (N2 gx gy 1 (negb t))) with (cst (N2 gx gy 1 (negb t)) 0). rewrite (LaplaceP.lin_zeros _ _ E1 (conj LE1a LE1b)). unfold cst. apply zeros_nth; [rewrite length_axpy; rewrite !repeat_length; auto|]. intro i. rewrite nth_axpyR by now rewrite !repeat_length. rewrite !nth_repeat. ring. }
      pose proof (lin_len _ _ _ _ LC Lw) as LCw. cbn beta in LCw. apply zeros_nth; [rewrite !length_axpy; rewrite ?length_axpy; rewrite ?repeat_length; auto|]. intro i. rewrite !nth_axpyR by (rewrite ?length_axpy; rewrite ?repeat_length; auto). rewrite nth_repeat. ring.
  - apply (nth_ext _ _ 0 0); [rewrite !length_plus; rewrite ?length_plus; congruence|]. intros i _. rewrite !nth_plus by (rewrite ?length_plus; congruence). unfold h. rewrite !nth_axpyR by congruence. ring.
Qed.
(** *** linearity of the three kinds of forms *)
Lemma deriv_axpy d s c f f' g g' : (d <= 1)%nat -> isform G d s f -> isform G d s f' -> deriv G d s f g -> deriv G d s f' g' -> deriv G d s (axpy c f f') (axpy c g g').
Proof.
  intros Hd Ff Ff' H H'. assert (exists D, lin (N2 gx gy d s) (N2 gx gy (S d) s) D /\ forall f, isform G d s f -> deriv G d s f (D f)) as (D & [L1 L2] & ED).
  { destruct d as [|[|d]]; [exact (D0_fun close gx gy G Sx Sy EG s)|exact (D1_fun close gx gy G Sx Sy EG s)|lia]. }
  rewrite (deriv_fun _ _ _ _ _ _ H (ED f Ff)), (deriv_fun _ _ _ _ _ _ H' (ED f' Ff')). apply il in Ff, Ff'; [|lia..]. rewrite <- L2 by auto. apply ED. apply il; [lia|]. rewrite length_axpy; congruence.
Qed.
Lemma star_axpy d s c f f' g g' : (d <= 2)%nat -> isform G d s f -> isform G d s f' -> star G d s f g -> star G d s f' g' -> star G d s (axpy c f f') (axpy c g g').
Proof.
  intros Hd Ff Ff' H H'. destruct (S_fun close gx gy G Sx Sy EG d s Hd) as (D & [L1 L2] & ED).
  rewrite (star_fun _ _ _ _ _ _ H (ED f Ff)), (star_fun _ _ _ _ _ _ H' (ED f' Ff')). apply il in Ff, Ff'; [|lia..]. rewrite <- L2 by auto. apply ED. apply il; [lia|]. rewrite length_axpy; congruence.
Qed.
Lemma isform_axpy d s c f f' : (d <= 2)%nat -> isform G d s f -> isform G d s f' -> isform G d s (axpy c f f').
Proof. intros Hd Ff Ff'. apply il in Ff, Ff'; [|lia..]. apply il; [lia|]. rewrite length_axpy; congruence. Qed.
Lemma axpy_zeros c n m : n = m -> axpy c (repeat 0 n) (repeat 0 m) = repeat 0 n.
Proof. intros <-. apply zeros_nth; [rewrite length_axpy; rewrite repeat_length; auto|]. intro i. rewrite nth_axpyR by auto. rewrite nth_repeat. ring. Qed.
Lemma closed_axpy s c f f' : isform G 1 s f -> isform G 1 s f' -> closed G 1 s f -> closed G 1 s f' -> closed G 1 s (axpy c f f').
Proof.
  intros Ff Ff' (n & H) (m & H'). exists n. rewrite <- (axpy_zeros c n m) at 1; [now apply deriv_axpy|].
  pose proof (deriv_form1 close gx gy G Sx Sy EG s f _ Ff H) as A. pose proof (deriv_form1 close gx gy G Sx Sy EG s f' _ Ff' H') as B. apply il in A, B; [|lia..]. rewrite repeat_length in *. congruence.
Qed.
Lemma exact_axpy c a a' : exact G 0 t a -> exact G 0 t a' -> exact G 0 t (axpy c a a').
Proof. intros (f & Ff & H) (f' & Ff' & H'). exists (axpy c f f'). split; [apply isform_axpy; auto|]. now apply deriv_axpy; auto. Qed.
Lemma coexact_axpy c a a' : coexact G t a -> coexact G t a' -> coexact G t (axpy c a a').
Proof.
  intros (g & p & v & Fg & H1 & H2 & H3) (g' & p' & v' & Fg' & H1' & H2' & H3').
  pose proof (star_form close gx gy G Sx Sy EG 2 t g p ltac:(lia) Fg H1) as Fp. pose proof (star_form close gx gy G Sx Sy EG 2 t g' p' ltac:(lia) Fg' H1') as Fp'. cbn [Nat.sub] in *.
  pose proof (deriv_form0 close gx gy G Sx Sy EG _ p v Fp H2) as Fv. pose proof (deriv_form0 close gx gy G Sx Sy EG _ p' v' Fp' H2') as Fv'.
  exists (axpy c g g'), (axpy c p p'), (axpy c v v'). split; [apply isform_axpy; auto|]. split; [now apply star_axpy|]. split; [apply deriv_axpy; auto|]. apply star_axpy; auto.
Qed.
Lemma harmonic_axpy c a a' : harmonic G t a -> harmonic G t a' -> harmonic G t (axpy c a a').
Proof.
  intros (Fa & Ca & Ha & H1 & H2) (Fa' & Ca' & Ha' & H1' & H2'). split; [apply isform_axpy; auto|]. split; [now apply closed_axpy|]. exists (axpy c Ha Ha'). split; [apply star_axpy; auto|].
  pose proof (star_form close gx gy G Sx Sy EG 1 t a Ha ltac:(lia) Fa H1) as F. pose proof (star_form close gx gy G Sx Sy EG 1 t a' Ha' ltac:(lia) Fa' H1') as F'. now apply closed_axpy.
Qed.
Lemma exact_form a : exact G 0 t a -> isform G 1 t a. Proof. intros (f & Ff & H). exact (deriv_form0 close gx gy G Sx Sy EG t f a Ff H). Qed.
Lemma coexact_form b : coexact G t b -> isform G 1 t b.
Proof.
  intros (g & p & v & Fg & H1 & H2 & H3). pose proof (star_form close gx gy G Sx Sy EG 2 t g p ltac:(lia) Fg H1) as Fp. pose proof (deriv_form0 close gx gy G Sx Sy EG _ p v Fp H2) as Fv. pose proof (star_form close gx gy G Sx Sy EG 1 _ v b ltac:(lia) Fv H3) as F. cbn [Nat.sub] in F. now rewrite negb_involutive in F.
Qed.
(** *** the inner product *)
Notation N1 := (N2 gx gy 1 t).
Lemma inner_product : exists K (w : nat -> nat -> R), (forall a b, isform G 1 t a -> isform G 1 t b -> (orthogonal gx gy G t a b <-> Rsum K (fun k => fnl N1 (w k) a * fnl N1 (w k) b) = 0)) /\
  (forall a, isform G 1 t a -> Rsum K (fun k => fnl N1 (w k) a * fnl N1 (w k) a) = 0 -> forall i, nth i a 0 = 0).
Proof.
  destruct (gram2 close gx gy G t Gx Gy Kx Ky EG 1 ltac:(lia)) as (g & (K & w & HK) & Lg & Hg). exists K, w.
  assert (forall a b Hb, isform G 1 t a -> isform G 1 t b -> star G 1 t b Hb -> pairing2 gx gy 1 t a Hb = Rsum K (fun k => fnl N1 (w k) b * fnl N1 (w k) a)) as E.
  { intros a b Hb Fa Fb S. destruct (Hg b Fb) as (Hb' & S' & _ & P). rewrite (star_fun _ _ _ _ _ _ S S'), (P a Fa). apply HK; apply il; auto; lia. }
  split.
  - intros a b Fa Fb. rewrite (Rsum_ext K _ (fun k => fnl N1 (w k) b * fnl N1 (w k) a)) by (intros; ring). split.
    + intros (Hb & S & Z). now rewrite <- (E a b Hb Fa Fb S).
    + intro Z. destruct (Hg b Fb) as (Hb & S & _). exists Hb. split; [exact S|]. now rewrite (E a b Hb Fa Fb S).
  - intros a Fa Z. destruct (C92_inner_product_2d close gx gy G t Gx Gy Kx Ky EG 1 a a ltac:(lia) Fa Fa) as (Ha & _ & S & _ & _ & _ & De & _). apply De. now rewrite (E a a Ha Fa Fa S).
Qed.
Lemma zero_sum e1 e2 e3 : exact G 0 t e1 -> coexact G t e2 -> harmonic G t e3 -> (forall i, nth i e1 0 + nth i e2 0 + nth i e3 0 = 0) -> (forall i, nth i e1 0 = 0) /\ (forall i, nth i e2 0 = 0) /\ (forall i, nth i e3 0 = 0).
Proof.
  intros X1 X2 X3 Z. destruct inner_product as (K & w & O & P). pose proof (exact_form e1 X1) as F1. pose proof (coexact_form e2 X2) as F2. pose proof (Logic.proj1 X3) as F3.
  destruct (C94_orthogonal close gx gy G t Sx Sy EG e1 e2 e3 X1 X2 X3) as (O12 & O13 & O32). apply O in O12, O13, O32; auto.
  assert (forall k, fnl N1 (w k) e1 + fnl N1 (w k) e2 + fnl N1 (w k) e3 = 0) as S.
  { intro k. unfold fnl. rewrite <- !Rsum_plus. rewrite (Rsum_ext N1 _ (fun _ => 0)); [now apply Rsum_zero|]. intros i Hi. specialize (Z i). nra. }
  assert (forall e, Rsum K (fun k => fnl N1 (w k) e * fnl N1 (w k) e1) + Rsum K (fun k => fnl N1 (w k) e * fnl N1 (w k) e2) + Rsum K (fun k => fnl N1 (w k) e * fnl N1 (w k) e3) = 0) as Q.
  { intro e. rewrite <- !Rsum_plus. rewrite (Rsum_ext K _ (fun _ => 0)); [now apply Rsum_zero|]. intros k Hk. rewrite <- !Rmult_plus_distr_l, S. ring. }
  assert (forall u v, Rsum K (fun k => fnl N1 (w k) u * fnl N1 (w k) v) = Rsum K (fun k => fnl N1 (w k) v * fnl N1 (w k) u)) as Sym by (intros; apply Rsum_ext; intros; ring).
  split; [|split]; [apply (P e1 F1); specialize (Q e1)|apply (P e2 F2); specialize (Q e2); rewrite (Sym e2 e1), (Sym e2 e3) in Q|apply (P e3 F3); specialize (Q e3); rewrite (Sym e3 e1) in Q]; lra.
Qed.
(** the decomposition is unique *)
Theorem C94_unique a b h a' b' h' : exact G 0 t a -> coexact G t b -> harmonic G t h -> exact G 0 t a' -> coexact G t b' -> harmonic G t h' ->
  plus (plus a b) h = plus (plus a' b') h' -> a = a' /\ b = b' /\ h = h'.
Proof.
  intros A B H A' B' H' E. pose proof (exact_form a A) as Fa. pose proof (coexact_form b B) as Fb. pose proof (Logic.proj1 H) as Fh. pose proof (exact_form a' A') as Fa'. pose proof (coexact_form b' B') as Fb'. pose proof (Logic.proj1 H') as Fh'.
  apply il in Fa, Fb, Fh, Fa', Fb', Fh'; [|lia..].
  destruct (zero_sum (axpy (-1) a' a) (axpy (-1) b' b) (axpy (-1) h' h)) as (Z1 & Z2 & Z3); [now apply exact_axpy|now apply coexact_axpy|now apply harmonic_axpy|..].
  - intro i. rewrite !nth_axpyR by congruence. apply (f_equal (fun l => nth i l 0)) in E. rewrite !nth_plus in E by (rewrite ?length_plus; congruence). lra.
  - split; [|split]; (apply (nth_ext _ _ 0 0); [congruence|]; intros i _).
    + specialize (Z1 i). rewrite nth_axpyR in Z1 by congruence. lra.
    + specialize (Z2 i). rewrite nth_axpyR in Z2 by congruence. lra.
    + specialize (Z3 i). rewrite nth_axpyR in Z3 by congruence. lra.
Qed.
Lemma coexact_harmonic b : coexact G t b -> closed G 1 t b -> harmonic G t b.
Proof.
  intros X C. split; [now apply coexact_form|]. split; [exact C|]. destruct X as (g & p & v & Fg & H1 & H2 & H3). pose proof (star_form close gx gy G Sx Sy EG 2 t g p ltac:(lia) Fg H1) as Fp. cbn [Nat.sub] in Fp. pose proof (deriv_form0 close gx gy G Sx Sy EG _ p v Fp H2) as Fv.
  pose proof (star_star close gx gy G Sx Sy EG 1 (negb t) v b ltac:(lia) Fv H3) as S. cbn [Nat.eqb Nat.sub] in S. rewrite negb_involutive in S. exists (map Ropp v). split; [exact S|].
  destruct (D1_fun close gx gy G Sx Sy EG (negb t)) as (D & LD & ED). pose proof (ED v Fv) as Hv. pose proof (dd0 close gx gy G Sx Sy EG (negb t) p v _ Fp H2 Hv) as Z. rewrite Z in Hv.
  pose proof (deriv_axpy 1 (negb t) (-2) v v _ _ ltac:(lia) Fv Fv Hv Hv) as W. rewrite axpy_zeros in W by reflexivity. eexists. replace (map Ropp v) with (axpy (-2) v v); [exact W|].
  apply (nth_ext _ _ 0 0); [rewrite length_axpy, map_length; auto|]. intros i Hi. rewrite length_axpy in Hi by auto. rewrite nth_axpyR by auto. rewrite (nth_map_ Ropp v i 0 0) by lia. ring.
Qed.
Lemma xsum_plus u v i : length u = length v -> xsum gx gy t i (plus u v) = xsum gx gy t i u + xsum gx gy t i v.
Proof. intro L. unfold xsum. rewrite <- Rsum_plus. apply Rsum_ext. intros. now apply nth_plus. Qed.
Lemma ysum_plus u v i : length u = length v -> ysum gx gy t i (plus u v) = ysum gx gy t i u + ysum gx gy t i v.
Proof. intro L. unfold ysum. rewrite <- Rsum_plus. apply Rsum_ext. intros. now apply nth_plus. Qed.
Lemma zero_plus (u v : list R) : length u = length v -> (forall i, nth i u 0 = 0) -> plus u v = v.
Proof. intros L Z. apply (nth_ext _ _ 0 0); [rewrite length_plus; congruence|]. intros i _. rewrite nth_plus, Z by auto. ring. Qed.
Lemma zero_plus_r (u v : list R) : length u = length v -> (forall i, nth i v 0 = 0) -> plus u v = u.
Proof. intros L Z. apply (nth_ext _ _ 0 0); [rewrite length_plus; congruence|]. intros i _. rewrite nth_plus, Z by auto. ring. Qed.
(** closed 1-forms are a derivative plus a harmonic form *)
Lemma closed_parts w : isform G 1 t w -> closed G 1 t w -> exists a h, exact G 0 t a /\ harmonic G t h /\ length a = length h /\ w = plus a h.
Proof.
  intros Fw Cw. destruct (C94_decomposition w Fw) as (a & b & h & A & B & H & La & Lb & Lh & E). exists a, h. split; [exact A|]. split; [exact H|]. split; [congruence|].
  pose proof (exact_form a A) as Fa. pose proof (coexact_form b B) as Fb. pose proof H as (Fh & Ch & _).
  assert (closed G 1 t a) as Ca. { destruct A as (f & Ff & Hf). destruct (D1_fun close gx gy G Sx Sy EG t) as (D & _ & ED). exists (N2 gx gy 2 t). rewrite <- (dd0 close gx gy G Sx Sy EG t f a (D a) Ff Hf (ED a Fa)). now apply ED. }
  assert (b = axpy (-1) h (axpy (-1) a w)) as Eb. { assert (length (axpy (-1) a w) = length w) as X by (rewrite length_axpy; congruence). apply (nth_ext _ _ 0 0); [rewrite length_axpy; congruence|]. intros i _. rewrite !nth_axpyR by congruence. rewrite E, !nth_plus by (rewrite ?length_plus; congruence). ring. }
  assert (closed G 1 t b) as Cb. { rewrite Eb. apply closed_axpy; auto; [apply isform_axpy; auto|]. now apply closed_axpy. }
  pose proof (coexact_harmonic b B Cb) as HB. destruct (C94_orthogonal close gx gy G t Sx Sy EG a b b A B HB) as (_ & _ & O). destruct inner_product as (K & w' & O' & P). apply O' in O; auto. pose proof (P b Fb O) as Z.
  rewrite E. now rewrite (zero_plus_r a b) by (auto; congruence).
Qed.
(** there is exactly one harmonic form with given periods *)
Theorem C94_harmonic (alpha beta : R) : exists h, harmonic G t h /\ (tied gx t -> free gy t -> xsum gx gy t 0 h = alpha) /\ (free gx t -> tied gy t -> ysum gx gy t 0 h = beta) /\
  forall h', harmonic G t h' -> (tied gx t -> free gy t -> xsum gx gy t 0 h' = alpha) -> (free gx t -> tied gy t -> ysum gx gy t 0 h' = beta) -> h' = h.
Proof.
  destruct (C90_any_periods close gx gy G t Gx Gy EG alpha beta) as (w & Fw & Cw & P1 & P2). destruct (closed_parts w Fw Cw) as (a & h & A & H & L & E).
  pose proof (exact_form a A) as Fa. pose proof (Logic.proj1 (C90_exact_1 close gx gy G t Gx Gy EG a Fa) A) as (Ca & Q1 & Q2).
  assert (tied gx t -> free gy t -> xsum gx gy t 0 h = alpha) as R1 by (intros T F; specialize (P1 T F); specialize (Q1 T F); rewrite E, xsum_plus in P1 by auto; lra).
  assert (free gx t -> tied gy t -> ysum gx gy t 0 h = beta) as R2 by (intros T F; specialize (P2 T F); specialize (Q2 T F); rewrite E, ysum_plus in P2 by auto; lra).
  exists h. split; [exact H|]. split; [exact R1|]. split; [exact R2|]. intros h' H' R1' R2'. set (e := axpy (-1) h h'). assert (harmonic G t e) as He by now apply harmonic_axpy.
  pose proof (Logic.proj1 H) as Fh. pose proof (Logic.proj1 H') as Fh'. apply il in Fh, Fh'; [|lia..].
  assert (exact G 0 t e) as Xe.
  { apply (C90_exact_1 close gx gy G t Gx Gy EG e (Logic.proj1 He)). split; [exact (Logic.proj1 (proj2 He))|]. split; intros T F.
    - specialize (R1 T F). specialize (R1' T F). assert (xsum gx gy t 0 e = - xsum gx gy t 0 h + xsum gx gy t 0 h') as ->; [|lra]. unfold xsum. rewrite <- Rsum_opp, <- Rsum_plus. apply Rsum_ext. intros. unfold e. rewrite nth_axpyR by congruence. ring.
    - specialize (R2 T F). specialize (R2' T F). assert (ysum gx gy t 0 e = - ysum gx gy t 0 h + ysum gx gy t 0 h') as ->; [|lra]. unfold ysum. rewrite <- Rsum_opp, <- Rsum_plus. apply Rsum_ext. intros. unfold e. rewrite nth_axpyR by congruence. ring. }
  assert (forall i, nth i e 0 = 0) as Z.
  { destruct (closed_parts e (Logic.proj1 He) (Logic.proj1 (proj2 He))) as (a0 & h0 & A0 & H0 & _).
    assert (coexact G t (repeat 0 N1)) as C0.
    { destruct (S_fun close gx gy G Sx Sy EG 2 t ltac:(lia)) as (S2 & LS2 & ES2). destruct (D0_fun close gx gy G Sx Sy EG (negb t)) as (E0 & LE0 & EE0). destruct (S_fun close gx gy G Sx Sy EG 1 (negb t) ltac:(lia)) as (T1 & LT1 & ET1). cbn [Nat.sub] in *. rewrite negb_involutive in *.
      exists (repeat 0 (N2 gx gy 2 t)), (repeat 0 (N2 gx gy 0 (negb t))), (repeat 0 (N2 gx gy 1 (negb t))).
      assert (isform G 2 t (repeat 0 (N2 gx gy 2 t))) as F2 by (apply il; [lia|apply repeat_length]). assert (isform G 0 (negb t) (repeat 0 (N2 gx gy 0 (negb t)))) as F0 by (apply il; [lia|apply repeat_length]). assert (isform G 1 (negb t) (repeat 0 (N2 gx gy 1 (negb t)))) as F1 by (apply il; [lia|apply repeat_length]).
      split; [exact F2|]. split; [pose proof (ES2 _ F2) as X; now rewrite (lin_zeros' _ _ S2 LS2) in X|]. split; [pose proof (EE0 _ F0) as X; now rewrite (lin_zeros' _ _ E0 LE0) in X|]. pose proof (ET1 _ F1) as X; now rewrite (lin_zeros' _ _ T1 LT1) in X. }
    destruct (C94_orthogonal close gx gy G t Sx Sy EG e _ e Xe C0 He) as (_ & O & _). destruct inner_product as (K & w' & O' & P). apply O' in O; try exact (Logic.proj1 He). exact (P e (Logic.proj1 He) O). }
  apply (nth_ext _ _ 0 0); [congruence|]. intros i _. specialize (Z i). unfold e in Z. rewrite nth_axpyR in Z by congruence. lra.
Qed.
End N.
(** on the cylinder of C92 there is a harmonic primal 1-form with period 1 around it, and it is not a derivative *)
Example C94_instance : exists G h, product (fun _ _ => true) cyl_x cyl_y = Ok G /\ harmonic G true h /\ xsum cyl_x cyl_y true 0 h = 1 /\ ~ exact G 0 true h.
Proof.
  destruct cyl_good as [Gx Gy]. destruct (C46_product_exists (fun _ _ => true) cyl_x cyl_y Gx Gy) as (G & EG). assert (kd cyl_x <> Chebyshev) as Kx by discriminate. assert (kd cyl_y <> Chebyshev) as Ky by discriminate.
  destruct (C94_harmonic (fun _ _ => true) cyl_x cyl_y G true Gx Gy Kx Ky EG 1 0) as (h & H & P & _). exists G, h. split; [exact EG|]. split; [exact H|]. specialize (P (or_introl eq_refl) (or_intror eq_refl)). split; [exact P|].
  intro X. apply (C90_exact_1 (fun _ _ => true) cyl_x cyl_y G true Gx Gy EG h (Logic.proj1 H)) in X as (_ & Q & _). specialize (Q (or_introl eq_refl) (or_intror eq_refl)). lra.
Qed.
