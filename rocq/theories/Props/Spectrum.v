(** C100: the spectrum of the discrete Laplacians of spectral.py [laplacian] on periodic grids. *)
From Coq Require Import ZArith Reals List Lia Lra Arith Bool.
From Coq Require Import ZifyNat.
From Verif Require Import Model.Sym.
From Coquelicot Require Import Coquelicot.
From Verif Require Import Model.Num Model.Np Model.Spectral Model.Basis Model.Grids1 Model.Regular Model.Chebyshev Model.Common Model.Decform Model.Grid2 Model.Laplacian Spec.Trig Spec.Poly Spec.Resolved Spec.Tiling
  Proofs.ListLemmas Proofs.RingSums Proofs.Sums Proofs.RIntLemmas Proofs.Grids1P Proofs.GridsThm Proofs.TrigAlg Proofs.Lin Proofs.TableLin Proofs.ChebPoly Proofs.Grid2P Proofs.Fourier Proofs.Trig Proofs.Exact Proofs.Ops Proofs.Refine Proofs.PeriodicBasis Proofs.Kernels Proofs.DeprecatedP.
From Verif Require Import Props.Grid1 Props.Chebyshev Props.Lagrange Props.Decform Props.Refinement Props.Basis2 Props.Grid2 Proofs.Exact1 Props.Exact1 Props.Complete1 Proofs.LaplaceP Props.Laplacian.
Import ListNotations.
Local Open Scope R_scope.

(** ** trigonometric polynomials: derivatives and uniqueness of the coefficients *)
Lemma trig_deriv K a b x : is_derive (trig K a b) x (trig K (fun k => INR k * b k) (fun k => - INR k * a k) x).
Proof.
  unfold trig. replace (INR 0 * b 0%nat) with 0 by (cbn; ring).
  apply (is_derive_plus (K := R_AbsRing) (V := R_NormedModule) (fun _ => a 0%nat) (fun t => Rsum K (fun k => a (S k) * cos (INR (S k) * t) + b (S k) * sin (INR (S k) * t)))).
  - apply (is_derive_const (K := R_AbsRing) (V := R_NormedModule)).
  - apply (is_derive_Rsum K (fun k t => a (S k) * cos (INR (S k) * t) + b (S k) * sin (INR (S k) * t)) (fun k t => INR (S k) * b (S k) * cos (INR (S k) * t) + - INR (S k) * a (S k) * sin (INR (S k) * t))).
    intros i _. set (w := INR (S i)). auto_derive; [auto|ring].
Qed.
Lemma trig_ext K a b a' b' x : (forall k, (k <= K)%nat -> a k = a' k /\ b k = b' k) -> trig K a b x = trig K a' b' x.
Proof. intro H. unfold trig. f_equal; [apply H; lia|]. apply Rsum_ext. intros i Hi. destruct (H (S i)) as [-> ->]; [lia|reflexivity]. Qed.
Lemma trig_lin K a b a' b' s x : trig K a b x + s * trig K a' b' x = trig K (fun k => a k + s * a' k) (fun k => b k + s * b' k) x.
Proof. unfold trig. induction K as [|K IH]; cbn [Rsum]; [ring|]. lra. Qed.
Lemma trig_scal K a b s x : s * trig K a b x = trig K (fun k => s * a k) (fun k => s * b k) x.
Proof. unfold trig. rewrite Rmult_plus_distr_l, <- Rsum_scal. f_equal. apply Rsum_ext. intros; ring. Qed.
Lemma trig_single K k a b x : (k <= K)%nat -> trig K (fun j => if Nat.eqb j k then a else 0) (fun j => if Nat.eqb j k then b else 0) x = a * cos (INR k * x) + b * sin (INR k * x).
Proof.
  intro Hk. unfold trig. destruct k as [|m].
  - rewrite (Rsum_ext _ _ (fun _ => 0)) by (intros i Hi; cbn [Nat.eqb]; ring). rewrite Rsum_zero by auto. cbn [Nat.eqb INR]. rewrite Rmult_0_l, cos_0, sin_0. ring.
  - cbn [Nat.eqb]. rewrite (Rsum_single K m); [rewrite Nat.eqb_refl; ring|lia|]. intros i Hi Hne. destruct (Nat.eqb_spec i m); [lia|ring].
Qed.

Lemma bounded_search K (Q : nat -> Prop) : (forall k, {Q k} + {~ Q k}) -> (exists k, (1 <= k <= K)%nat /\ Q k) \/ (forall k, (1 <= k <= K)%nat -> ~ Q k).
Proof.
  intro Dec. induction K as [|K IH]; [right; lia|]. destruct IH as [(k & Hk & q)|N]; [left; exists k; split; [lia|auto]|].
  destruct (Dec (S K)) as [q|q]; [left; exists (S K); split; [lia|auto]|]. right. intros k Hk. destruct (Nat.eq_dec k (S K)) as [->|]; [auto|]. apply N; lia.
Qed.
(** u is not zero, and A u = lam u *)
Definition eigenvector (A : op1) (m : nat) (lam : R) (u : list R) : Prop :=
  length u = m /\ (exists i, nth i u 0 <> 0) /\ A u = Ok (map (Rmult lam) u).

Section Spectrum.
Variables (close : C -> C -> bool) (n : nat) (L Ld : op1) (c : cells1).
Hypothesis Hn : (1 <= n)%nat.
Hypothesis EL : laplacian (dec_of close Periodic) = Ok (L, Ld).
Hypothesis Ec : make_cells Periodic n 0 (2 * PI) = Ok c.
(** the operator on primal (t = true) and on dual 0-forms, and the discretisation of functions on these *)
Definition lap_of (t : bool) : op1 := if t then L else Ld.
Definition disc_of (t : bool) (f : R -> R) : list R := if t then P0 c f else P0d c f.
Notation A := lap_of.
Notation P := disc_of.
Notation hs := (hstep n).
Lemma c_default : c = periodic_default n.
Proof. pose proof Ec as E. destruct n; [lia|]. cbn [make_cells] in E. now injection E as <-. Qed.
Lemma P_len t f : length (P t f) = n.
Proof. pose proof (proj_length (MkGrid1 Periodic n 0 (2 * PI)) c 0 t f (conj eq_refl eq_refl) Hn Ec ltac:(lia)) as E. now destruct t. Qed.
Lemma P_tab t f : P t f = tab n (fun i => f (xg n i + (if t then 0 else hs / 2))).
Proof.
  unfold disc_of. rewrite c_default, pd_cells by lia. unfold P0, P0d, proj0. cbn [verts verts_dual].
  destruct t; rewrite map_tab; apply tab_ext; intros i Hi; [now rewrite Rplus_0_r|reflexivity].
Qed.
Lemma P_ext t f g : (forall x, f x = g x) -> P t f = P t g.
Proof. intro E. unfold disc_of; destruct t; unfold P0, P0d; apply map_ext; exact E. Qed.
Lemma P_scal t lam f : P t (fun x => lam * f x) = map (Rmult lam) (P t f).
Proof. unfold disc_of; destruct t; unfold P0, P0d, proj0; now rewrite map_map. Qed.
(** functions that the samples at the vertices determine *)
Definition visible (t : bool) (f : R -> R) : Prop := trig_interpolant n (fun x => f (x + (if t then 0 else hs / 2))).
Lemma h_visible t f K : trig_degree K f -> visible t f -> h close Periodic n 1 (negb t) (proj c 1 (negb t) f) = P t f.
Proof.
  intros Hf V. assert (forall x, continuous f x) as Cf by (intro; now apply (td_cont K)).
  assert (h close Periodic n 1 (negb t) (proj c 1 (negb t) f) = opHinv (proj c 1 (negb t) f)) as ->.
  { assert (spec opHinv (proj c 1 (negb t) f) = Ok (opHinv (proj c 1 (negb t) f))) as Sp by (apply spec_ok; rewrite c_default, per_len by lia; lia).
    unfold h, hget. transitivity (match spec opHinv (proj c 1 (negb t) f) with Ok v => v | Err _ => [] end); [destruct t; reflexivity|now rewrite Sp]. }
  assert (proj c 1 (negb t) f = opH (P t f)) as ->; [|apply Hinv_H; rewrite P_len; lia].
  rewrite c_default, (per_val n Hn 1 (negb t) f ltac:(lia) Cf), P_tab.
  rewrite (exact_H (tab n (fun i => f (xg n i + (if t then 0 else hs / 2)))) (fun x => f (x + (if t then 0 else hs / 2)))); rewrite ?length_tab; [|lia|exact V|apply (samples_tab n (fun x => f (x + (if t then 0 else hs / 2)))); lia].
  apply tab_ext. intros i Hi. rewrite RInt_shift by auto. destruct t; cbn [negb]; f_equal; field.
Qed.
Lemma A_visible t K f f' f'' : trig_degree K f -> (forall x : R, is_derive f x (f' x)) -> (forall x : R, is_derive f' x (f'' x)) -> visible (negb t) f' -> visible t f'' ->
  A t (P t f) = Ok (P t f'').
Proof.
  intros Tf H1 H2 V1 V2. pose proof PI_RGT_0. pose proof (td_derivative K f f' Tf H1) as Tf'. pose proof (td_derivative K f' f'' Tf' H2) as Tf''.
  pose proof (h_visible _ f' K Tf' V1) as E1. pose proof (h_visible _ f'' K Tf'' V2) as E2. rewrite negb_involutive in E1.
  destruct t; unfold lap_of, disc_of in *; cbn [negb proj] in E1, E2.
  - rewrite (L_val close Periodic n Hn L Ld EL (P0 c f) (P_len true f)). f_equal.
    rewrite (C04_stokes_primal Periodic n 0 (2 * PI) c f f' Hn ltac:(lra) Ec (fun x _ => H1 x) (fun x _ => td_cont K _ x Tf')) by (intros _; rewrite <- (td_periodic K f 0 Tf); f_equal; ring).
    rewrite E1. rewrite (C05_stokes_dual_periodic n 0 (2 * PI) c f' f'' Hn ltac:(lra) Ec); [exact E2|intro x; rewrite <- (td_periodic K f' x Tf'); f_equal; ring|exact H2|intro x; exact (td_cont K _ x Tf'')].
  - rewrite (Ld_val close Periodic n Hn L Ld EL (P0d c f) (P_len false f)). f_equal.
    rewrite (C05_stokes_dual_periodic n 0 (2 * PI) c f f' Hn ltac:(lra) Ec); [|intro x; rewrite <- (td_periodic K f x Tf); f_equal; ring|exact H1|intro x; exact (td_cont K _ x Tf')].
    rewrite E1. rewrite (C04_stokes_primal Periodic n 0 (2 * PI) c f' f'' Hn ltac:(lra) Ec (fun x _ => H2 x) (fun x _ => td_cont K _ x Tf'')) by (intros _; rewrite <- (td_periodic K f' 0 Tf'); f_equal; ring).
    exact E2.
Qed.
(** the mode K of a grid of 2K points: on primal forms the sine, on dual forms the cosine vanishes at all points *)
Lemma top_angle K : (2 * K = n)%nat -> INR K * (hs / 2) = PI / 2.
Proof. intro E. unfold hstep. rewrite <- E, mult_INR. cbn [INR]. field. apply not_0_INR. lia. Qed.
Lemma top_vertex K i : (2 * K = n)%nat -> INR K * xg n i = INR i * PI.
Proof. intro E. rewrite xg_eq by lia. rewrite <- E, mult_INR. cbn [INR]. field. apply not_0_INR. lia. Qed.
Lemma sin_nPI i : sin (INR i * PI) = 0.
Proof. apply sin_eq_0_1. exists (Z.of_nat i). now rewrite <- INR_IZR_INZ. Qed.
Definition seen (t : bool) K (a b : nat -> R) : Prop := (2 * K = n)%nat -> if t then b K = 0 else a K = 0.
Lemma visible_trig t K a b : (2 * K <= n)%nat -> seen t K a b -> visible t (trig K a b).
Proof.
  intros HK Sn. unfold visible. destruct (Nat.eq_dec (2 * K) n) as [E|E].
  2:{ apply (trig_degree_interpolant n K); [lia|]. apply td_shift, td_trig. }
  specialize (Sn E). destruct K as [|K]; [lia|]. set (s := if t then 0 else hs / 2).
  assert (trig_interpolant n (fun x => (if t then a (S K) else b (S K)) * cos (INR (S K) * x))) as T.
  { apply ti_scal. exists (fun i => if Nat.eqb i (S K) then 1 else 0), (fun _ => 0). split; [auto|]. intro x. replace (n / 2)%nat with (S K) by (rewrite <- E, Nat.mul_comm, Nat.div_mul; lia).
    unfold trig. cbn [Nat.eqb]. rewrite (Rsum_single (S K) K); [rewrite Nat.eqb_refl; ring|lia|]. intros i Hi Hne. destruct (Nat.eqb_spec i K); [lia|ring]. }
  apply (ti_ext n (fun x => trig K a b (x + s) + (if t then a (S K) else b (S K)) * cos (INR (S K) * x))).
  - intro x. unfold trig at 2. cbn [Rsum]. unfold trig. pose proof (top_angle (S K) E) as TA.
    assert (a (S K) * cos (INR (S K) * (x + s)) + b (S K) * sin (INR (S K) * (x + s)) = (if t then a (S K) else b (S K)) * cos (INR (S K) * x)) as ->; [|ring].
    unfold s. destruct t; rewrite Sn; [rewrite Rplus_0_r; ring|]. rewrite Rmult_plus_distr_l, TA, (sin_plus _ (PI / 2)), cos_PI2, sin_PI2. ring.
  - apply ti_plus; [|exact T]. apply (trig_degree_interpolant n K); [lia|]. apply td_shift, td_trig.
Qed.
(** the part of the coefficients that is seen *)
Definition seen_a (t : bool) K (a : nat -> R) (k : nat) : R := if andb (Nat.eqb (2 * K) n) (andb (negb t) (Nat.eqb k K)) then 0 else a k.
Definition seen_b (t : bool) K (b : nat -> R) (k : nat) : R := if andb (Nat.eqb (2 * K) n) (andb t (Nat.eqb k K)) then 0 else b k.
Lemma seen_seen t K a b : seen t K (seen_a t K a) (seen_b t K b).
Proof. intro E. unfold seen_a, seen_b. rewrite E, Nat.eqb_refl, Nat.eqb_refl. now destruct t. Qed.
Lemma P_seen t K a b : P t (trig K (seen_a t K a) (seen_b t K b)) = P t (trig K a b).
Proof.
  unfold seen_a, seen_b. destruct (Nat.eqb_spec (2 * K) n) as [E|_]; [|now destruct t]. rewrite !P_tab. apply tab_ext. intros i Hi. destruct K as [|K]; [lia|].
  pose proof (top_angle (S K) E) as TA. pose proof (top_vertex (S K) i E) as TV. pose proof (sin_nPI i) as SZ. unfold trig. cbn [Rsum].
  rewrite (Rsum_ext K _ (fun k => a (S k) * cos (INR (S k) * (xg n i + (if t then 0 else hs / 2))) + b (S k) * sin (INR (S k) * (xg n i + (if t then 0 else hs / 2))))).
  2:{ intros k Hk. replace (Nat.eqb (S k) (S K)) with false by (symmetry; apply Nat.eqb_neq; lia). now rewrite !andb_false_r. }
  replace (Nat.eqb 0 (S K)) with false by reflexivity. rewrite Nat.eqb_refl, !andb_false_r. 
  destruct t; cbn [andb negb]; rewrite ?Rplus_0_r, ?(Rmult_plus_distr_l _ _ (hs / 2)), TV, ?TA.
  - rewrite SZ. ring.
  - rewrite cos_plus, cos_PI2, SZ. ring.
Qed.
(** the Laplacian acts on the discretised modes like the second derivative *)
Lemma A_exact t K a b : (2 * K <= n)%nat -> A t (P t (trig K a b)) = Ok (P t (trig K (fun k => - INR k ^ 2 * a k) (fun k => - INR k ^ 2 * b k))).
Proof.
  intro HK. rewrite <- (P_seen t K a b), <- (P_seen t K (fun k => - INR k ^ 2 * a k)). pose proof (seen_seen t K a b) as Sn. set (a' := seen_a t K a) in *. set (b' := seen_b t K b) in *.
  rewrite (P_ext t (trig K (seen_a t K _) (seen_b t K _)) (trig K (fun k => INR k * (- INR k * a' k)) (fun k => - INR k * (INR k * b' k)))).
  2:{ intro x. apply trig_ext. intros k Hk. unfold a', b', seen_a, seen_b. destruct t, (Nat.eqb (2 * K) n), (Nat.eqb k K); cbn [andb negb]; split; ring. }
  apply (A_visible t K _ (trig K (fun k => INR k * b' k) (fun k => - INR k * a' k))); [apply td_trig|intro; apply trig_deriv|intro; apply trig_deriv|apply visible_trig; [lia|]|apply visible_trig; [lia|]];
    intro E; specialize (Sn E); destruct t; cbn [negb]; rewrite Sn; ring.
Qed.
(** every array is a discretisation *)
Lemma P_onto t u : length u = n -> exists a b, u = P t (trig (n / 2) a b).
Proof.
  intro Lu. destruct (interp_trig u ltac:(lia)) as (a & b & _ & E). rewrite Lu in E. set (s := if t then 0 else hs / 2).
  destruct (td_shift (n / 2) (- s) (interp u)) as (a' & b' & E'); [now exists a, b|]. exists a', b'.
  rewrite P_tab. symmetry. apply tab_nth; [exact Lu|]. intros j Hj. rewrite <- E'. cbv beta. fold s. replace (xg n j + s + - s) with (xg n j) by ring. rewrite <- Lu. apply interp_grid. lia.
Qed.
Lemma Kn : (2 * (n / 2) <= n)%nat. Proof. apply Nat.mul_div_le. lia. Qed.
Lemma P_zero t : P t (fun _ => 0) = repeat 0 n.
Proof. rewrite P_tab. apply tab_nth; [apply repeat_length|]. intros j Hj. now rewrite nth_repeat. Qed.
Lemma P_plus t f g : P t f = repeat 0 n -> P t (fun x => f x + g x) = P t g.
Proof.
  rewrite !P_tab. intro E. apply tab_ext. intros i Hi. apply (f_equal (fun l => nth i l 0)) in E. rewrite nth_tab, nth_repeat in E by auto. rewrite E. ring.
Qed.
Lemma P_factor t s f : s <> 0 -> P t (fun x => s * f x) = repeat 0 n -> P t f = repeat 0 n.
Proof.
  intros Hs. rewrite !P_tab. intro E. apply tab_nth; [apply repeat_length|]. intros i Hi. apply (f_equal (fun l => nth i l 0)) in E. rewrite nth_tab, nth_repeat in E by auto. rewrite nth_repeat. nra.
Qed.
(** the modes are independent: a combination that vanishes at all points has no visible mode *)
Definition mode (a b : nat -> R) (k : nat) (x : R) : R := a k * cos (INR k * x) + b k * sin (INR k * x).
Lemma trig_S K a b x : trig (S K) a b x = trig K a b x + mode a b (S K) x.
Proof. unfold trig, mode. cbn [Rsum]. ring. Qed.
Lemma trig_0 a b x : trig 0 a b x = mode a b 0 x.
Proof. unfold trig, mode. cbn [Rsum INR]. rewrite Rmult_0_l, cos_0, sin_0. ring. Qed.
Lemma modes_zero t K a b : (forall k, (k <= K)%nat -> P t (mode a b k) = repeat 0 n) -> P t (trig K a b) = repeat 0 n.
Proof.
  intro Z. induction K as [|K IH].
  - rewrite (P_ext t _ _ (trig_0 a b)). now apply Z.
  - rewrite (P_ext t _ _ (trig_S K a b)), P_plus by (apply IH; intros; apply Z; lia). apply Z; lia.
Qed.
Lemma A_zero t u : u = repeat 0 n -> A t u = Ok u.
Proof.
  intros ->. pose proof (A_exact t 0 (fun _ => 0) (fun _ => 0) ltac:(lia)) as E.
  assert (forall a b, (forall k, a k = 0) -> P t (trig 0 a b) = repeat 0 n) as Z. { intros a b Q. rewrite <- P_zero with (t := t). apply P_ext. intro x. rewrite trig_0. unfold mode. rewrite Q. cbn [INR]. replace (0 * x) with 0 by ring. rewrite sin_0. ring. }
  rewrite !Z in E; auto. intro; ring.
Qed.
Lemma independent t K : (2 * K <= n)%nat -> forall a b, P t (trig K a b) = repeat 0 n -> forall k, (k <= K)%nat -> P t (mode a b k) = repeat 0 n.
Proof.
  induction K as [|K IH]; intros HK a b Z k Hk.
  - replace k with 0%nat by lia. now rewrite <- (P_ext t _ _ (trig_0 a b)).
  - pose proof (A_zero t _ Z) as E. rewrite A_exact in E by auto. injection E as E. rewrite Z in E. set (s := INR (S K) ^ 2) in *.
    assert (P t (trig K (fun k => (s - INR k ^ 2) * a k) (fun k => (s - INR k ^ 2) * b k)) = repeat 0 n) as Z1.
    { rewrite <- (P_ext t (fun x => trig (S K) (fun k => - INR k ^ 2 * a k) (fun k => - INR k ^ 2 * b k) x + s * trig (S K) a b x)).
      - rewrite P_plus by exact E. rewrite P_scal, Z. apply list_eq_nth with (d := 0); [now rewrite map_length, !repeat_length|]. intros j Hj. rewrite map_length, repeat_length in Hj.
        rewrite (nth_indep _ 0 (s * 0)) by (rewrite map_length, repeat_length; lia). rewrite map_nth, !nth_repeat. ring.
      - intro x. rewrite !trig_S, Rmult_plus_distr_l, !trig_scal. transitivity (trig K (fun k => - INR k ^ 2 * a k) (fun k => - INR k ^ 2 * b k) x + 1 * trig K (fun k => s * a k) (fun k => s * b k) x).
        + unfold mode. fold s. ring.
        + rewrite trig_lin. apply trig_ext. intros; split; ring. }
    assert (forall j, (j <= K)%nat -> P t (mode a b j) = repeat 0 n) as Low.
    { intros j Hj. pose proof (IH ltac:(lia) _ _ Z1 j Hj) as Q. apply (P_factor t (s - INR j ^ 2)).
      - unfold s. assert (INR j < INR (S K)) by (apply lt_INR; lia). pose proof (pos_INR j). nra.
      - rewrite <- Q. apply P_ext. intro x. unfold mode. ring. }
    destruct (Nat.eq_dec k (S K)) as [->|Hne]; [|apply Low; lia].
    rewrite (P_ext t _ _ (trig_S K a b)), P_plus in Z; [exact Z|]. now apply modes_zero.
Qed.
(** an eigenvector only contains the mode of its eigenvalue *)
Lemma eigen_modes t lam a b : let K := (n / 2)%nat in A t (P t (trig K a b)) = Ok (map (Rmult lam) (P t (trig K a b))) ->
  forall k, (k <= K)%nat -> lam <> - INR k ^ 2 -> P t (mode a b k) = repeat 0 n.
Proof.
  intros K E k Hk Hl. rewrite (A_exact t K a b Kn) in E. injection E as E. rewrite <- P_scal in E.
  assert (P t (trig K (fun k => (- INR k ^ 2 - lam) * a k) (fun k => (- INR k ^ 2 - lam) * b k)) = repeat 0 n) as Z.
  { rewrite <- (P_ext t (fun x => trig K (fun k => - INR k ^ 2 * a k) (fun k => - INR k ^ 2 * b k) x + -1 * (lam * trig K a b x))).
    - rewrite P_tab. rewrite !P_tab in E. apply tab_nth; [apply repeat_length|]. intros i Hi. apply (f_equal (fun l => nth i l 0)) in E. rewrite !nth_tab in E by auto. set (y := xg n i + (if t then 0 else hs / 2)) in *.
      assert (trig K (fun k => - INR k ^ 2 * a k) (fun k => - INR k ^ 2 * b k) y = lam * trig K a b y) as E2 by exact E. rewrite nth_repeat, E2. ring.
    - intro x. rewrite (trig_scal K a b lam x), trig_lin. apply trig_ext. intros; split; ring. }
  apply (P_factor t (- INR k ^ 2 - lam)); [lra|]. rewrite <- (independent t K Kn _ _ Z k Hk). apply P_ext. intro x. unfold mode. ring.
Qed.
Lemma only_mode t K a b k : (k <= K)%nat -> (forall j, (j <= K)%nat -> j <> k -> P t (mode a b j) = repeat 0 n) -> P t (trig K a b) = P t (mode a b k).
Proof.
  intros Hk Z. rewrite (P_ext t (trig K a b) (fun x => trig K (fun j => if Nat.eqb j k then 0 else a j) (fun j => if Nat.eqb j k then 0 else b j) x + mode a b k x)).
  - apply P_plus, modes_zero. intros j Hj. destruct (Nat.eq_dec j k) as [->|Hne].
    + rewrite <- (P_zero t). apply P_ext. intro x. unfold mode. rewrite Nat.eqb_refl. ring.
    + rewrite <- (Z j Hj Hne). apply P_ext. intro x. unfold mode. now rewrite (proj2 (Nat.eqb_neq j k) Hne).
  - intro x. unfold mode. rewrite <- (trig_single K k (a k) (b k) x Hk).
    rewrite <- (Rmult_1_l (trig K (fun j => if Nat.eqb j k then a k else 0) _ x)), trig_lin. apply trig_ext. intros j Hj. destruct (Nat.eqb_spec j k) as [->|]; split; ring.
Qed.

(** every 0-form is a combination of the modes, on which the Laplacian acts by -k^2 *)
Theorem C100_diagonal t u : length u = n -> let K := (n / 2)%nat in exists a b,
  u = P t (trig K a b) /\ A t u = Ok (P t (trig K (fun k => - INR k ^ 2 * a k) (fun k => - INR k ^ 2 * b k))).
Proof. intros Lu K. destruct (P_onto t u Lu) as (a & b & ->). exists a, b. split; [reflexivity|]. apply A_exact, Kn. Qed.
(** the solutions of A u = - k^2 u are the discretisations of a cos(kx) + b sin(kx) *)
Theorem C100_eigenspaces t k u : (2 * k <= n)%nat -> length u = n ->
  (A t u = Ok (map (Rmult (- INR k ^ 2)) u) <-> exists a b, u = P t (fun x => a * cos (INR k * x) + b * sin (INR k * x))).
Proof.
  intros Hk Lu. set (K := (n / 2)%nat). assert (k <= K)%nat as HkK by (apply Nat.div_le_lower_bound; lia). split.
  - destruct (P_onto t u Lu) as (a & b & ->). intro E. exists (a k), (b k). apply (only_mode t K a b k HkK).
    intros j Hj Hne. apply (eigen_modes t _ a b E j Hj). intro Q. apply Hne. apply INR_eq. pose proof (pos_INR k). pose proof (pos_INR j). nra.
  - intros (a & b & ->). rewrite <- P_scal.
    rewrite (P_ext t _ (trig K (fun j => if Nat.eqb j k then a else 0) (fun j => if Nat.eqb j k then b else 0))) by (intro x; now rewrite (trig_single K k a b x HkK)).
    rewrite A_exact by exact Kn. f_equal. apply P_ext. intro x. rewrite <- (trig_single K k a b x HkK). rewrite trig_scal.
    apply trig_ext. intros j Hj. destruct (Nat.eqb_spec j k) as [->|_]; split; ring.
Qed.
(** the eigenvalues of the discrete Laplacian are those of the second derivative, as many as the grid has
    room for: 0, -1, -4, ... *)
Theorem C100_spectrum t lam : (exists u, eigenvector (A t) n lam u) <-> exists k, (2 * k <= n)%nat /\ lam = - INR k ^ 2.
Proof.
  split.
  - intros (u & Lu & (i & Hi) & E). destruct (P_onto t u Lu) as (a & b & ->). set (K := (n / 2)%nat) in *.
    destruct (Req_EM_T lam (- INR 0 ^ 2)) as [->|N0]; [exists 0%nat; split; [lia|reflexivity]|].
    destruct (bounded_search K (fun k => lam = - INR k ^ 2)) as [(k & Hk & ->)|No].
    + intro k. apply Req_EM_T.
    + exists k. split; [pose proof Kn; fold K in H; lia|reflexivity].
    + exfalso. apply Hi. rewrite (modes_zero t K a b); [apply nth_repeat|]. intros k Hk. apply (eigen_modes t lam a b E k Hk). destruct k; [exact N0|]. apply No. lia.
  - intros (k & Hk & ->). pose (x0 := if t then 0 else hs / 2). 
    exists (P t (fun x => cos (INR k * x0) * cos (INR k * x) + sin (INR k * x0) * sin (INR k * x))). split; [apply P_len|]. split.
    + exists 0%nat. rewrite P_tab, nth_tab by lia. fold x0. replace (xg n 0) with 0 by (unfold xg; cbn [INR]; ring). rewrite Rplus_0_l. pose proof (sin2_cos2 (INR k * x0)) as Q. unfold Rsqr in Q. lra.
    + apply (C100_eigenspaces t k _ Hk (P_len t _)). now exists (cos (INR k * x0)), (sin (INR k * x0)).
Qed.
End Spectrum.
(** the hypotheses are met: a periodic grid of 4 points has the eigenvalues 0, -1 and -4, and no other *)
Example C100_instance : exists L Ld c, laplacian (dec_of (fun _ _ => true) Periodic) = Ok (L, Ld) /\ make_cells Periodic 4 0 (2 * PI) = Ok c /\
  (exists u, eigenvector (lap_of L Ld true) 4 (-4) u) /\ (exists u, eigenvector (lap_of L Ld false) 4 (-4) u) /\ (exists u, eigenvector (lap_of L Ld false) 4 (-1) u) /\
  forall t lam, (exists u, eigenvector (lap_of L Ld t) 4 lam u) -> lam = 0 \/ lam = -1 \/ lam = -4.
Proof.
  destruct (C89_exists (fun _ _ => true) Periodic) as (L & Ld & EL). pose proof PI_RGT_0.
  destruct (C01_primal_cells_tile Periodic 4 0 (2 * PI) ltac:(cbn; lia) ltac:(lra)) as (c & Ec & _). exists L, Ld, c. split; [exact EL|]. split; [exact Ec|].
  pose proof (C100_spectrum _ 4 L Ld c ltac:(lia) EL Ec) as S. split; [|split; [|split]].
  - apply S. exists 2%nat. split; [lia|cbn; ring].
  - apply S. exists 2%nat. split; [lia|cbn; ring].
  - apply S. exists 1%nat. split; [lia|cbn; ring].
  - intros t lam E. apply S in E as (k & Hk & ->). destruct k as [|[|[|k]]]; [left; cbn; ring|right; left; cbn; ring|right; right; cbn; ring|lia].
Qed.
