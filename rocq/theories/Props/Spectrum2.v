(** C101: the Laplacian of 0-forms on product grids is the sum of the 1D Laplacians along the two axes, and its spectrum. *)
From Coq Require Import ZArith Reals List Lia Lra Arith Bool.
From Coq Require Import ZifyNat ZifyBool.
From Verif Require Import Model.Sym.
From Coquelicot Require Import Coquelicot.
From Verif Require Import Model.Num Model.Np Model.Spectral Model.Basis Model.Grids1 Model.Regular Model.Chebyshev Model.Common Model.Decform Model.Grid2 Model.Laplacian Spec.Trig Spec.Tiling
  Proofs.ListLemmas Proofs.RingSums Proofs.Sums Proofs.Grids1P Proofs.GridsThm Proofs.Lin Proofs.Mirror Proofs.TableLin Proofs.Arr2 Proofs.Grid2P Proofs.Grid2Ops Proofs.LaplaceP Proofs.Cohomology Proofs.Gram Proofs.InjSurj Proofs.Fourier Proofs.PeriodicBasis
  Props.Grid1 Props.Grid2 Props.Exact1 Props.Laplacian Props.Cohomology Props.Energy Props.Poisson2 Props.Spectrum.
Import ListNotations.
Local Open Scope R_scope.
Ltac Zify.zify_post_hook ::= Z.div_mod_to_equations.

(** ** the 1D operators as functions *)
Lemma N1n g t : Nd g 1 (negb t) = Nd g 0 t. Proof. exact (Nd_dual g 0 t ltac:(lia)). Qed.
Lemma N0n g t : Nd g 0 (negb t) = Nd g 1 t. Proof. exact (Nd_dual g 1 t ltac:(lia)). Qed.
Section Axis.
Variables (close : C -> C -> bool) (g : grid1) (t : bool).
Hypothesis Sg : sound close g.
Definition hs (d : nat) (s : bool) : list R -> list R := h close (kd g) (sz g) d s.
Lemma works_g : works close (kd g) (sz g).
Proof. destruct Sg as [[B _] K]. unfold works, big_enough in *. destruct (kd g); auto. Qed.
Lemma hs_lin d s : (d <= 1)%nat -> lin (Nd g d s) (Nd g (1 - d) (negb s)) (hs d s).
Proof. intro Hd. exact (h_lin close (kd g) (sz g) works_g d s Hd). Qed.
Lemma hs_get d s a : (d <= 1)%nat -> length a = Nd g d s -> hget close g d s a = Ok (hs d s a).
Proof.
  intros Hd La. destruct (h_get close (kd g) (sz g) works_g d s a Hd La) as (o & Eo & Ev). unfold hget. rewrite Eo. exact Ev.
Qed.
Lemma hs_inv d s a : (d <= 1)%nat -> length a = Nd g d s -> hs (1 - d) (negb s) (hs d s a) = a.
Proof. intros Hd La. exact (h_inv close (kd g) (sz g) works_g d s a Hd La). Qed.
Lemma hs_ok d : (d <= 1)%nat -> hok close t g d (hs d t).
Proof. intro Hd. split; [|intros a La; now apply hs_get]. pose proof (hs_lin d t Hd) as H. now rewrite (Nd_dual g d t Hd) in H. Qed.
Definition stiffness (u : list R) : list R := dv g (negb t) (hs 1 t (dv g t u)).
Definition axis (u : list R) : list R := hs 1 (negb t) (stiffness u).
Lemma lin_stiffness : lin (Nd g 0 t) (Nd g 0 t) stiffness.
Proof.
  pose proof (Logic.proj1 Sg) as Gg. pose proof (hs_lin 1 t ltac:(lia)) as H1. cbn [Nat.sub] in H1. pose proof (lin_dv g t Gg) as D1. pose proof (lin_dv g (negb t) Gg) as D2.
  rewrite N1n in D2. exact (lin_comp (A := R) _ _ _ _ _ (lin_comp (A := R) _ _ _ _ _ D1 H1) D2).
Qed.
Lemma lin_axis : lin (Nd g 0 t) (Nd g 0 t) axis.
Proof.
  pose proof (hs_lin 1 (negb t) ltac:(lia)) as H1. cbn [Nat.sub] in H1. rewrite negb_involutive, N1n in H1. exact (lin_comp (A := R) _ _ _ _ _ lin_stiffness H1).
Qed.
Lemma axis_star u : length u = Nd g 0 t -> hs 0 t (axis u) = stiffness u.
Proof.
  intro Lu. unfold axis. pose proof (lin_len _ _ _ u lin_stiffness Lu) as Ls. pose proof (hs_inv 1 (negb t) (stiffness u) ltac:(lia)) as E. cbn [Nat.sub] in E. rewrite negb_involutive in E. apply E.
  rewrite Ls. symmetry. exact (Nd_dual g 0 t ltac:(lia)).
Qed.
Variables L Ld : op1.
Hypothesis EL : laplacian (dec_of close (kd g)) = Ok (L, Ld).
Lemma axis_val u : length u = Nd g 0 t -> lap_of L Ld t u = Ok (axis u).
Proof.
  intro Lu. unfold lap_of, axis, stiffness, hs, dv. destruct t; cbn [negb]; [exact (L_val close (kd g) (sz g) works_g L Ld EL u Lu)|exact (Ld_val close (kd g) (sz g) works_g L Ld EL u Lu)].
Qed.
End Axis.

(** row i and column j of a 0-form with m rows of n numbers *)
Definition row_of (n : nat) (f : list R) (i : nat) : list R := tab n (fun j => nth (i * n + j) f 0).
Definition col_of (m n : nat) (f : list R) (j : nat) : list R := tab m (fun i => nth (i * n + j) f 0).

Lemma onrows_comp c p g g' F i j : (forall l, length l = c -> length (g l) = p) -> onrows p g' (onrows c g F) i j = onrows c (fun l => g' (g l)) F i j.
Proof. intro H. unfold onrows. f_equal. f_equal. symmetry. rewrite (list_tab 0 (g (tab c (F i)))) at 1. rewrite H by apply length_tab. reflexivity. Qed.
Lemma oncols_comp c p g g' F i j : (forall l, length l = c -> length (g l) = p) -> oncols p g' (oncols c g F) i j = oncols c (fun l => g' (g l)) F i j.
Proof. intro H. unfold oncols. f_equal. f_equal. symmetry. rewrite (list_tab 0 (g (tab c (fun i => F i j)))) at 1. rewrite H by apply length_tab. reflexivity. Qed.
Lemma onrows_fun c g g' F i j : (forall l, length l = c -> g l = g' l) -> onrows c g F i j = onrows c g' F i j.
Proof. intro H. unfold onrows. now rewrite H by apply length_tab. Qed.
Lemma oncols_fun c g g' F i j : (forall l, length l = c -> g l = g' l) -> oncols c g F i j = oncols c g' F i j.
Proof. intro H. unfold oncols. now rewrite H by apply length_tab. Qed.
Lemma onrows_plus m n g (F F' : nat -> nat -> R) i j : lin m n g -> (j < n)%nat -> onrows m g (fun i j => F i j + F' i j) i j = onrows m g F i j + onrows m g F' i j.
Proof. intros Lg Hj. rewrite (onrows_ext m g _ (fun i j => 1 * F i j + 1 * F' i j)) by (intros; ring). rewrite (onrows_comb m n) by auto. ring. Qed.
Lemma oncols_plus m n g (F F' : nat -> nat -> R) i j : lin m n g -> (i < n)%nat -> oncols m g (fun i j => F i j + F' i j) i j = oncols m g F i j + oncols m g F' i j.
Proof. intros Lg Hi. rewrite (oncols_ext m g _ (fun i j => 1 * F i j + 1 * F' i j)) by (intros; ring). rewrite (oncols_comb m n) by auto. ring. Qed.

Section Sum.
Variables (close : C -> C -> bool) (gx gy : grid1) (G : grid2) (t : bool) (Lx Lxd Ly Lyd : op1).
Hypothesis Sx : sound close gx. Hypothesis Sy : sound close gy. Hypothesis EG : product close gx gy = Ok G.
Hypothesis ELx : laplacian (dec_of close (kd gx)) = Ok (Lx, Lxd).
Hypothesis ELy : laplacian (dec_of close (kd gy)) = Ok (Ly, Lyd).
Notation mx := (Nd gx 0 t). Notation my := (Nd gy 0 t). Notation nx := (Nd gx 1 t). Notation ny := (Nd gy 1 t).
Notation ax := (axis close gx t). Notation ay := (axis close gy t).
Notation hx := (hs close gx). Notation hy := (hs close gy).
Let Gx : good gx := Logic.proj1 Sx. Let Gy : good gy := Logic.proj1 Sy.
Definition sum_of (F : nat -> nat -> R) (i j : nat) : R := onrows mx ax F i j + oncols my ay F i j.
Lemma star0 F w : star G 0 t (flat my mx F) w <-> w = flat my mx (onrows mx (hx 0 t) (oncols my (hy 0 t) F)).
Proof.
  destruct (H02_flat close gx gy Gx Gy 0 t (hx 0%nat t) (hy 0%nat t)) as (o & Eo & Ho); [lia|apply hs_lin; [exact Sx|lia]|apply hs_lin; [exact Sy|lia]|intros; apply hs_get; [exact Sx|lia|assumption]|intros; apply hs_get; [exact Sy|lia|assumption]|].
  cbn [Nat.sub] in Ho. rewrite !N1n in Ho. unfold star. rewrite (hodge_field close gx gy G Gx Gy EG). split.
  - intros (H & EH & V'). change (2 * 0)%nat with 0%nat in Eo. rewrite Eo in EH. injection EH as <-. rewrite Ho in V'. congruence.
  - intros ->. exists o. split; [exact Eo|apply Ho].
Qed.
Lemma sum_star F i j : (i < my)%nat -> (j < mx)%nat ->
  onrows mx (hx 0 t) (oncols my (hy 0 t) (sum_of F)) i j = Wf gx gy t (hx 0 t) (hx 1 t) (hy 0 t) (hy 1 t) F i j.
Proof.
  intros Hi Hj. pose proof (hs_ok close gx t Sx) as Hx. pose proof (hs_ok close gy t Sy) as Hy.
  pose proof (Logic.proj1 (Hx 0%nat ltac:(lia))) as Lx0. pose proof (Logic.proj1 (Hx 1%nat ltac:(lia))) as Lx1. pose proof (Logic.proj1 (Hy 0%nat ltac:(lia))) as Ly0. pose proof (Logic.proj1 (Hy 1%nat ltac:(lia))) as Ly1.
  pose proof (lin_axis close gx t Sx) as La. pose proof (lin_axis close gy t Sy) as Lb.
  pose proof (lin_dv gx t Gx) as Dx. pose proof (lin_dv gy t Gy) as Dy.
  assert (lin nx mx (dv gx (negb t))) as Dxd. { pose proof (lin_dv gx (negb t) Gx) as Q. now rewrite N1n, N0n in Q. }
  assert (lin ny my (dv gy (negb t))) as Dyd. { pose proof (lin_dv gy (negb t) Gy) as Q. now rewrite N1n, N0n in Q. }
  pose proof (lin_stiffness close gx t Sx) as Qx. pose proof (lin_stiffness close gy t Sy) as Qy.
  transitivity (onrows mx (hx 0%nat t) (fun i j => oncols my (hy 0%nat t) (onrows mx ax F) i j + oncols my (hy 0%nat t) (oncols my ay F) i j) i j).
  { apply onrows_ext. intros k Hk. unfold sum_of. now apply (oncols_plus my my). }
  rewrite (onrows_plus mx mx) by auto. unfold Wf. rewrite Rplus_comm. f_equal.
  - (* along the columns *)
    transitivity (onrows mx (hx 0%nat t) (oncols my (stiffness close gy t) F) i j).
    { apply onrows_ext. intros k Hk. rewrite (oncols_comp my my) by (intros; now apply (lin_len _ _ _ _ Lb)). apply oncols_fun. intros l Ll. exact (axis_star close gy t Sy l Ll). }
    rewrite (rows_cols my mx mx my) by auto. 
    transitivity (oncols ny (dv gy (negb t)) (oncols ny (hy 1%nat t) (oncols my (dv gy t) (onrows mx (hx 0%nat t) F))) i j).
    { symmetry. rewrite (oncols_comp ny ny) by (intros; now apply (lin_len _ _ _ _ Ly1)). rewrite (oncols_comp my ny) by (intros; now apply (lin_len _ _ _ _ Dy)). reflexivity. }
    apply oncols_ext. intros k Hk. unfold fy. rewrite (rows_cols ny mx mx ny) by auto. apply oncols_ext. intros k' Hk'. symmetry. now apply (rows_cols my mx mx ny).
  - (* along the rows *)
    transitivity (oncols my (hy 0%nat t) (onrows mx (stiffness close gx t) F) i j).
    { rewrite (rows_cols my mx mx my) by auto. apply oncols_ext. intros k Hk. rewrite (onrows_comp mx mx) by (intros; now apply (lin_len _ _ _ _ La)). apply onrows_fun. intros l Ll. exact (axis_star close gx t Sx l Ll). }
    rewrite <- (rows_cols my mx mx my) by auto. symmetry.
    transitivity (onrows nx (dv gx (negb t)) (onrows nx (hx 1%nat t) (onrows mx (dv gx t) (oncols my (hy 0%nat t) F))) i j).
    + apply onrows_ext. intros k Hk. unfold fx. rewrite <- (rows_cols my nx nx my) by auto. apply onrows_ext. intros k' Hk'. symmetry. now apply (rows_cols my mx nx my).
    + rewrite (onrows_comp nx nx) by (intros; now apply (lin_len _ _ _ _ Lx1)). rewrite (onrows_comp mx nx) by (intros; now apply (lin_len _ _ _ _ Dx)). reflexivity.
Qed.
Lemma lap_sum f b : isform G 0 t f -> (lap G t f b <-> b = flat my mx (sum_of (ent mx f))).
Proof.
  intro Ff. pose proof (form0_flat close gx gy G t Gx Gy EG (sum_of (ent mx f))) as Fb.
  assert (lap G t f (flat my mx (sum_of (ent mx f)))) as V.
  { apply (lap_iff close gx gy G t Sx Sy EG (hx 0 t) (hx 1 t) (hy 0 t) (hy 1 t)); try (apply hs_ok; auto); auto.
    apply star0. apply flat_ext. intros i j Hi Hj. symmetry. now apply sum_star. }
  split; [|now intros ->]. intro V'. exact (lap_fun _ _ _ _ _ V' V).
Qed.
(** the value at (i, j) is the sum of the 1D Laplacian of row i at j and of that of column j at i *)
Theorem C101_axes f : isform G 0 t f -> exists b, lap G t f b /\ isform G 0 t b /\
  forall i j, (i < my)%nat -> (j < mx)%nat -> exists r c, lap_of Lx Lxd t (row_of mx f i) = Ok r /\ lap_of Ly Lyd t (col_of my mx f j) = Ok c /\
    nth (i * mx + j) b 0 = nth j r 0 + nth i c 0.
Proof.
  intro Ff. exists (flat my mx (sum_of (ent mx f))). split; [now apply lap_sum|]. split; [apply (form0_flat close gx gy G t Gx Gy EG)|]. intros i j Hi Hj.
  exists (ax (row_of mx f i)), (ay (col_of my mx f j)). split; [apply (axis_val close gx t Sx Lx Lxd ELx); apply length_tab|]. split; [apply (axis_val close gy t Sy Ly Lyd ELy); apply length_tab|].
  rewrite nth_flat by auto. reflexivity.
Qed.
End Sum.

(** ** the spectrum when one axis is periodic *)
Lemma lf_tab m phi c (u v : nat -> R) : lf m phi -> phi (tab m (fun i => c * u i + v i)) = c * phi (tab m u) + phi (tab m v).
Proof.
  intro H. transitivity (phi (axpy c (tab m u) (tab m v))); [|apply H; apply length_tab]. f_equal. apply (nth_ext _ _ 0 0); [rewrite length_axpy; now rewrite !length_tab|].
  intros i Hi. rewrite length_tab in Hi. rewrite nth_axpyR by now rewrite !length_tab. now rewrite !nth_tab by auto.
Qed.
Lemma lf_tab_zero m phi (u : nat -> R) : lf m phi -> (forall i, (i < m)%nat -> u i = 0) -> phi (tab m u) = 0.
Proof.
  intros H Z. pose proof (lf_tab m phi 1 (fun _ => 0) (fun _ => 0) H) as E. rewrite (tab_ext m _ (fun _ => 0)) in E by (intros; ring). rewrite (tab_ext m u (fun _ => 0)) by auto. lra.
Qed.
Lemma lf_tab_scal m phi c (u : nat -> R) : lf m phi -> phi (tab m (fun i => c * u i)) = c * phi (tab m u).
Proof.
  intro H. rewrite (tab_ext m _ (fun i => c * u i + 0)) by (intros; ring). rewrite (lf_tab m phi c u (fun _ => 0) H). rewrite (lf_tab_zero m phi (fun _ => 0)) by auto. ring.
Qed.
Lemma lf_tab_trig m phi K (a b : nat -> nat -> R) x : lf m phi ->
  phi (tab m (fun i => trig K (a i) (b i) x)) = trig K (fun k => phi (tab m (fun i => a i k))) (fun k => phi (tab m (fun i => b i k))) x.
Proof.
  intro H. induction K as [|K IH].
  - unfold trig. cbn [Rsum]. rewrite (tab_ext m _ (fun i => a i 0%nat)) by (intros; ring). ring.
  - rewrite trig_S, <- IH. unfold mode.
    rewrite (tab_ext m _ (fun i => cos (INR (S K) * x) * a i (S K) + (sin (INR (S K) * x) * b i (S K) + trig K (a i) (b i) x))).
    + rewrite (lf_tab m phi _ (fun i => a i (S K)) (fun i => sin (INR (S K) * x) * b i (S K) + trig K (a i) (b i) x) H).
      rewrite (lf_tab m phi _ (fun i => b i (S K)) (fun i => trig K (a i) (b i) x) H). ring.
    + intros i Hi. rewrite trig_S. unfold mode. ring.
Qed.
Lemma trig_nonzero K a b x : trig K a b x <> 0 -> exists k, (k <= K)%nat /\ mode a b k x <> 0.
Proof.
  induction K as [|K IH]; intro H.
  - exists 0%nat. split; [lia|]. now rewrite <- trig_0.
  - destruct (Req_EM_T (mode a b (S K) x) 0) as [E|E]; [|exists (S K); auto]. rewrite trig_S, E, Rplus_0_r in H. destruct (IH H) as (k & Hk & Q). exists k. split; [lia|exact Q].
Qed.
Lemma finite_choice {T} (x0 : T) m (Q : nat -> T -> Prop) : (forall i, (i < m)%nat -> exists y, Q i y) -> exists f : nat -> T, forall i, (i < m)%nat -> Q i (f i).
Proof.
  induction m as [|m IH]; intro H; [exists (fun _ => x0); lia|]. destruct IH as [f Hf]; [intros; apply H; lia|]. destruct (H m ltac:(lia)) as [y Hy].
  exists (fun i => if Nat.eqb i m then y else f i). intros i Hi. destruct (Nat.eqb_spec i m) as [->|]; [exact Hy|apply Hf; lia].
Qed.
(** f is not zero, and its Laplacian is lam times f *)
Definition eigenform (G : grid2) (t : bool) (lam : R) (f : list R) : Prop :=
  isform G 0 t f /\ (exists i, nth i f 0 <> 0) /\ lap G t f (map (Rmult lam) f).

Section Spectrum2.
Variables (close : C -> C -> bool) (gx gy : grid1) (G : grid2) (t : bool) (Ly Lyd : op1).
Hypothesis Sx : sound close gx. Hypothesis Sy : sound close gy. Hypothesis EG : product close gx gy = Ok G.
Hypothesis Kx : kd gx = Periodic.
Hypothesis ELy : laplacian (dec_of close (kd gy)) = Ok (Ly, Lyd).
Notation mx := (Nd gx 0 t). Notation my := (Nd gy 0 t).
Notation ax := (axis close gx t). Notation ay := (axis close gy t).
Notation n := (sz gx).
(** the eigenvalues on the product are the sums of the eigenvalues along the axes *)
Theorem C101_spectrum lam : (exists f, eigenform G t lam f) <->
  exists k mu, (2 * k <= n)%nat /\ (exists u, eigenvector (lap_of Ly Lyd t) my mu u) /\ lam = - INR k ^ 2 + mu.
Proof.
  destruct (C89_exists close (kd gx)) as (Lx & Lxd & ELx). pose proof ELx as ELp. rewrite Kx in ELp. pose proof PI_RGT_0.
  assert (1 <= n)%nat as Hn. { destruct Sx as [[B _] _]. rewrite Kx in B. exact B. }
  assert (mx = n) as Em by (unfold Nd; rewrite Kx; reflexivity).
  destruct (C01_primal_cells_tile Periodic n 0 (2 * PI) Hn ltac:(lra)) as (c & Ec & _).
  pose proof (Logic.proj1 Sx) as Gx. pose proof (Logic.proj1 Sy) as Gy. pose proof (lin_axis close gx t Sx) as La. pose proof (lin_axis close gy t Sy) as Lb.
  set (K := (n / 2)%nat). set (x := fun j => xg n j + (if t then 0 else hstep n / 2)).
  assert (forall a b, (2 * K <= n)%nat -> ax (tab n (fun j => trig K a b (x j))) = tab n (fun j => trig K (fun k => - INR k ^ 2 * a k) (fun k => - INR k ^ 2 * b k) (x j))) as Ax.
  { intros a b HK. pose proof (A_exact close n Lx Lxd c Hn ELp Ec t K a b HK) as E. rewrite !(P_tab n c Hn Ec) in E. fold x in E.
    rewrite (axis_val close gx t Sx Lx Lxd ELx) in E by (rewrite length_tab; auto). now injection E. }
  pose proof (Kn n Hn) as HK. fold K in HK. split.
  - intros (f & Ff & (q & Hq) & Lf). pose proof (form0 close gx gy G t Gx Gy EG f Ff) as Ef.
    assert (length f = (my * mx)%nat) as Lenf by (rewrite Ef; apply length_flat).
    destruct (finite_choice ((fun _ => 0, fun _ => 0) : (nat -> R) * (nat -> R)) my (fun i y => row_of mx f i = tab n (fun j => trig K (fst y) (snd y) (x j)))) as (ab & Hab).
    { intros i Hi. destruct (P_onto n c Hn Ec t (row_of mx f i)) as (a & b & E); [unfold row_of; rewrite length_tab; auto|]. exists (a, b). rewrite E, (P_tab n c Hn Ec). reflexivity. }
    assert (forall i j, (i < my)%nat -> (j < mx)%nat -> ent mx f i j = trig K (fst (ab i)) (snd (ab i)) (x j)) as Fij.
    { intros i j Hi Hj. specialize (Hab i Hi). apply (f_equal (fun l => nth j l 0)) in Hab. unfold row_of in Hab. rewrite !nth_tab in Hab by lia. exact Hab. }
    apply (lap_sum close gx gy G t Sx Sy EG f _ Ff) in Lf.
    set (A := fun i k => nth i (ay (tab my (fun i => fst (ab i) k))) 0). set (B := fun i k => nth i (ay (tab my (fun i => snd (ab i) k))) 0).
    assert (forall i k, (i < my)%nat -> (k <= K)%nat -> forall j, (j < mx)%nat -> mode (A i) (B i) k (x j) = (lam + INR k ^ 2) * mode (fst (ab i)) (snd (ab i)) k (x j)) as Col.
    { intros i k Hi Hk. set (a' := fun k => A i k + -1 * ((lam + INR k ^ 2) * fst (ab i) k)). set (b' := fun k => B i k + -1 * ((lam + INR k ^ 2) * snd (ab i) k)).
      assert (disc_of c t (trig K a' b') = repeat 0 n) as Z.
      { rewrite (P_tab n c Hn Ec). fold (x). apply PeriodicBasis.tab_nth; [apply repeat_length|]. intros j Hj. rewrite nth_repeat. change (xg n j + (if t then 0 else hstep n / 2)) with (x j).
        unfold a', b'. rewrite <- trig_lin. pose proof (f_equal (fun l => nth (i * mx + j) l 0) Lf) as E. cbv beta in E. rewrite nth_flat in E by lia.
        rewrite (nth_indep _ 0 (lam * 0)), map_nth in E by (rewrite map_length, Lenf; nia). change (nth (i * mx + j) f 0) with (ent mx f i j) in E.
        unfold sum_of in E. rewrite (Fij i j Hi ltac:(lia)) in E.
        assert (onrows mx ax (ent mx f) i j = trig K (fun k => - INR k ^ 2 * fst (ab i) k) (fun k => - INR k ^ 2 * snd (ab i) k) (x j)) as E1.
        { unfold onrows. rewrite (tab_ext mx _ (fun j => trig K (fst (ab i)) (snd (ab i)) (x j))) by (intros; apply Fij; auto). rewrite Em, Ax by exact HK. now rewrite nth_tab by auto. }
        assert (oncols my ay (ent mx f) i j = trig K (A i) (B i) (x j)) as E2.
        { unfold oncols. rewrite (tab_ext my _ (fun i => trig K (fst (ab i)) (snd (ab i)) (x j))) by (intros; apply Fij; lia).
          exact (lf_tab_trig my (fun l => nth i (ay l) 0) K (fun i => fst (ab i)) (fun i => snd (ab i)) (x j) (lin_lf _ _ _ i Lb)). }
        rewrite E1, E2 in E.
        assert (trig K (fun k => (lam + INR k ^ 2) * fst (ab i) k) (fun k => (lam + INR k ^ 2) * snd (ab i) k) (x j) =
                lam * trig K (fst (ab i)) (snd (ab i)) (x j) + -1 * trig K (fun k => - INR k ^ 2 * fst (ab i) k) (fun k => - INR k ^ 2 * snd (ab i) k) (x j)) as E3.
        { rewrite trig_scal, trig_lin. apply trig_ext. intros; split; ring. }
        rewrite E3, E. ring. }
      intros j Hj. pose proof (independent close n Lx Lxd c Hn ELp Ec t K HK a' b' Z k Hk) as M. rewrite (P_tab n c Hn Ec) in M. apply (f_equal (fun l => nth j l 0)) in M. rewrite nth_tab, nth_repeat in M by lia.
      change (xg n j + (if t then 0 else hstep n / 2)) with (x j) in M. unfold mode, a', b' in *. lra. }
    assert (q < length f)%nat as Lq. { destruct (le_lt_dec (length f) q); [|assumption]. now rewrite nth_overflow in Hq. }
    assert (0 < mx)%nat as Pm by (rewrite Em; lia).
    set (i0 := (q / mx)%nat). set (j0 := (q mod mx)%nat). assert (i0 < my)%nat as Hi0. { apply Nat.div_lt_upper_bound; lia. } assert (j0 < mx)%nat as Hj0 by (apply Nat.mod_upper_bound; lia).
    assert (q = i0 * mx + j0)%nat as Eq. { unfold i0, j0. rewrite Nat.mul_comm. apply Nat.div_mod. lia. }
    assert (trig K (fst (ab i0)) (snd (ab i0)) (x j0) <> 0) as NZ. { rewrite <- (Fij i0 j0 Hi0 Hj0). unfold ent. now rewrite <- Eq. }
    destruct (trig_nonzero _ _ _ _ NZ) as (k & Hk & Mk). exists k, (lam + INR k ^ 2). split; [lia|]. split; [|ring].
    exists (tab my (fun i => mode (fst (ab i)) (snd (ab i)) k (x j0))). split; [apply length_tab|]. split; [exists i0; now rewrite nth_tab|].
    rewrite (axis_val close gy t Sy Ly Lyd ELy) by apply length_tab. f_equal. apply (nth_ext _ _ 0 0); [rewrite map_length, length_tab; apply (lin_len _ _ _ _ Lb); apply length_tab|].
    intros i Hi. rewrite (lin_len _ _ _ _ Lb) in Hi by apply length_tab. rewrite (nth_indep (map _ _) 0 ((lam + INR k ^ 2) * 0)) by (rewrite map_length, length_tab; auto). rewrite map_nth, nth_tab by auto.
    rewrite <- (Col i k Hi Hk j0 Hj0). unfold mode at 2.
    pose proof (lin_lf _ _ _ i Lb) as LF. 
    rewrite (tab_ext my _ (fun i => cos (INR k * x j0) * fst (ab i) k + sin (INR k * x j0) * snd (ab i) k)) by (intros; unfold mode; ring).
    rewrite (lf_tab my (fun l => nth i (ay l) 0) _ (fun i => fst (ab i) k) (fun i => sin (INR k * x j0) * snd (ab i) k) LF), (lf_tab_scal my (fun l => nth i (ay l) 0) _ (fun i => snd (ab i) k) LF).
    unfold A, B. ring.
  - intros (k & mu & Hk & (u & Lu & (iu & Hu) & Eu) & ->).
    destruct (Logic.proj2 (C100_spectrum close n Lx Lxd c Hn ELp Ec t (- INR k ^ 2))) as (w & Lw & (jw & Hw) & Ew); [now exists k|].
    rewrite (axis_val close gx t Sx Lx Lxd ELx) in Ew by (rewrite Lw; auto). rewrite (axis_val close gy t Sy Ly Lyd ELy) in Eu by exact Lu. injection Ew as Ew. injection Eu as Eu.
    exists (flat my mx (fun i j => nth i u 0 * nth j w 0)). pose proof (form0_flat close gx gy G t Gx Gy EG (fun i j => nth i u 0 * nth j w 0)) as Ff. split; [exact Ff|].
    assert (iu < my)%nat as Hiu. { destruct (le_lt_dec (length u) iu); [now rewrite nth_overflow in Hu|lia]. } assert (jw < mx)%nat as Hjw. { destruct (le_lt_dec (length w) jw); [now rewrite nth_overflow in Hw|lia]. }
    split. { exists (iu * mx + jw)%nat. rewrite nth_flat by auto. now apply Rmult_integral_contrapositive. }
    apply (lap_sum close gx gy G t Sx Sy EG _ _ Ff). apply (nth_ext _ _ 0 0); [now rewrite map_length, !length_flat|]. intros q Hq. rewrite map_length, length_flat in Hq.
    assert (exists i j, q = (i * mx + j)%nat /\ (i < my)%nat /\ (j < mx)%nat) as (i & j & -> & Hi & Hj).
    { exists (q / mx)%nat, (q mod mx)%nat. split; [rewrite Nat.mul_comm; apply Nat.div_mod; lia|]. split; [apply Nat.div_lt_upper_bound; lia|apply Nat.mod_upper_bound; lia]. }
    rewrite (nth_indep (map _ _) 0 ((- INR k ^ 2 + mu) * 0)) by (rewrite map_length, length_flat; nia). rewrite map_nth, !nth_flat by auto. unfold sum_of.
    rewrite (onrows_ext mx ax _ (fun i j => nth i u 0 * nth j w 0)) by (intros; now apply ent_flatR). rewrite (oncols_ext my ay _ (fun i j => nth i u 0 * nth j w 0)) by (intros; now apply ent_flatR).
    unfold onrows, oncols. rewrite (lf_tab_scal mx (fun l => nth j (ax l) 0) (nth i u 0) (fun j => nth j w 0) (lin_lf _ _ _ j La)).
    rewrite (tab_ext my _ (fun i => nth j w 0 * nth i u 0)) by (intros; ring). rewrite (lf_tab_scal my (fun l => nth i (ay l) 0) (nth j w 0) (fun i => nth i u 0) (lin_lf _ _ _ i Lb)).
    assert (tab mx (fun j => nth j w 0) = w) as -> by (rewrite Em, <- Lw; symmetry; apply list_tab). assert (tab my (fun i => nth i u 0) = u) as -> by (rewrite <- Lu; symmetry; apply list_tab).
    rewrite Ew, Eu. rewrite (nth_indep (map _ w) 0 (- INR k ^ 2 * 0)) by (rewrite map_length; lia). rewrite (nth_indep (map _ u) 0 (mu * 0)) by (rewrite map_length; lia). rewrite !map_nth. ring.
Qed.
End Spectrum2.
(** both axes periodic: the eigenvalues are - k^2 - l^2 *)
Theorem C101_torus close gx gy G t lam : sound close gx -> sound close gy -> product close gx gy = Ok G -> kd gx = Periodic -> kd gy = Periodic ->
  ((exists f, eigenform G t lam f) <-> exists k l, (2 * k <= sz gx)%nat /\ (2 * l <= sz gy)%nat /\ lam = - (INR k ^ 2 + INR l ^ 2)).
Proof.
  intros Sx Sy EG Kx Ky. destruct (C89_exists close (kd gy)) as (Ly & Lyd & ELy). pose proof (C101_spectrum close gx gy G t Ly Lyd Sx Sy EG Kx ELy lam) as Sp.
  pose proof PI_RGT_0. assert (1 <= sz gy)%nat as Hn. { destruct Sy as [[B _] _]. rewrite Ky in B. exact B. } pose proof ELy as ELp. rewrite Ky in ELp.
  destruct (C01_primal_cells_tile Periodic (sz gy) 0 (2 * PI) Hn ltac:(lra)) as (c & Ec & _).
  assert (Nd gy 0 t = sz gy) as Em by (unfold Nd; rewrite Ky; reflexivity). rewrite Em in Sp. rewrite Sp. split.
  - intros (k & mu & Hk & Hu & ->). apply (C100_spectrum close (sz gy) Ly Lyd c Hn ELp Ec t) in Hu as (l & Hl & ->). exists k, l. repeat split; auto. ring.
  - intros (k & l & Hk & Hl & ->). exists k, (- INR l ^ 2). split; [auto|]. split; [|ring]. apply (C100_spectrum close (sz gy) Ly Lyd c Hn ELp Ec t). now exists l.
Qed.
(** the hypotheses are met: on a torus of 3 x 2 points the eigenvalues are 0, -1 and -2 *)
Example C101_instance : exists gx gy G, sound (fun _ _ => true) gx /\ sound (fun _ _ => true) gy /\ product (fun _ _ => true) gx gy = Ok G /\
  (exists f, eigenform G true (-2) f) /\ (exists f, eigenform G false 0 f) /\ forall t lam, (exists f, eigenform G t lam f) -> lam = 0 \/ lam = -1 \/ lam = -2.
Proof.
  pose proof PI_RGT_0. set (gx := MkGrid1 Periodic 3 0 (2 * PI)). set (gy := MkGrid1 Periodic 2 0 (2 * PI)).
  assert (sound (fun _ _ => true) gx) as Sx by (split; [split; [cbn; lia|cbn; lra]|discriminate]). assert (sound (fun _ _ => true) gy) as Sy by (split; [split; [cbn; lia|cbn; lra]|discriminate]).
  destruct (C46_product_exists (fun _ _ => true) gx gy (Logic.proj1 Sx) (Logic.proj1 Sy)) as (G & EG). exists gx, gy, G. split; [exact Sx|]. split; [exact Sy|]. split; [exact EG|].
  pose proof (fun t lam => C101_torus _ gx gy G t lam Sx Sy EG eq_refl eq_refl) as T. cbn [sz gx gy] in T. split; [|split].
  - apply T. exists 1%nat, 1%nat. split; [lia|]. split; [lia|]. cbn. ring.
  - apply T. exists 0%nat, 0%nat. split; [lia|]. split; [lia|]. cbn. ring.
  - intros t lam E. apply T in E as (k & l & Hk & Hl & ->). assert (k = 0 \/ k = 1)%nat as [-> | ->] by lia; assert (l = 0 \/ l = 1)%nat as [-> | ->] by lia; cbn [INR]; [left|right; left|right; left|right; right]; ring.
Qed.
