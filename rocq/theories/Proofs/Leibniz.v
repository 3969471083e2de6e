(** The Leibniz rule of the periodic grid. *)
From Coq Require Import ZArith Reals List Lia Lra Arith.
From Coq Require Import ZifyNat.
From Verif Require Import Model.Sym.
From Coquelicot Require Import Coquelicot.
From Verif Require Import Proofs.Cheb2.
From Verif Require Import Model.Num Model.Np Model.Spectral Model.Basis Model.Grids1 Model.Regular Model.Chebyshev Model.Common Spec.Trig Proofs.ListLemmas Proofs.Sums
  Proofs.Fourier Proofs.RIntLemmas Proofs.Kernels Proofs.Trig Proofs.Ops Proofs.Exact Proofs.BasisP Proofs.Grids1P Proofs.GridsThm Proofs.PeriodicBasis Proofs.TrigAlg Proofs.Lin Proofs.TableLin Proofs.Refine.
Import ListNotations.
Local Open Scope R_scope.
Ltac Zify.zify_post_hook ::= Z.div_mod_to_equations.

Section Leibniz.
Variable N : nat.
Hypothesis HN : (0 < N)%nat.
Notation M := (N + N)%nat.
Notation h := (hstep N).
Notation K := (N / 2)%nat.
Lemma ti_split u : trig_interpolant N u -> exists u0 al, trig_degree ((N - 1) / 2) u0 /\ (Nat.even N = false -> al = 0) /\ forall t, u t = u0 t + al * cos (INR K * t).
Proof.
  intros (a & b & Hb & E). destruct (Nat.even N) eqn:Ev.
  - apply Nat.even_spec in Ev as [q Hq]. exists (trig ((N - 1) / 2) a b), (a K). split; [now exists a, b|]. split; [discriminate|]. intro t. rewrite E. unfold trig.
    replace K with (S ((N - 1) / 2)) by lia. cbn [Rsum]. replace (S ((N - 1) / 2)) with K by lia. rewrite (Hb eq_refl). ring.
  - assert (K = (N - 1) / 2)%nat as EK. { destruct (Nat.Even_or_Odd N) as [[q Hq]|[q Hq]]; [|lia]. assert (Nat.even N = true) by (apply Nat.even_spec; now exists q). congruence. }
    exists u, 0. split; [|split; [auto|intro; ring]]. exists a, b. rewrite <- EK. exact E.
Qed.
Lemma ti_prod u v : trig_interpolant N u -> trig_interpolant N v -> exists P c, trig_degree (N - 1) P /\ forall t, u t * v t = P t + c * cos (INR N * t).
Proof.
  intros Hu Hv. destruct (ti_split u Hu) as (u0 & al & Du & Zu & Eu). destruct (ti_split v Hv) as (v0 & be & Dv & Zv & Ev).
  destruct (Nat.even N) eqn:EN.
  - apply Nat.even_spec in EN as [q Hq].
    exists (fun t => (u0 t * v0 t + (be * (u0 t * cos (INR K * t + 0)) + al * (v0 t * cos (INR K * t + 0)))) + al * be / 2), (al * be / 2). split.
    + apply (td_plus (N - 1) (fun t => u0 t * v0 t + (be * (u0 t * cos (INR K * t + 0)) + al * (v0 t * cos (INR K * t + 0)))) (fun _ => al * be / 2)); [|apply td_const].
      apply (td_plus (N - 1) (fun t => u0 t * v0 t) (fun t => be * (u0 t * cos (INR K * t + 0)) + al * (v0 t * cos (INR K * t + 0)))).
      * apply (td_mono ((N - 1) / 2 + (N - 1) / 2)); [lia|]. now apply td_mult.
      * apply (td_plus (N - 1) (fun t => be * (u0 t * cos (INR K * t + 0))) (fun t => al * (v0 t * cos (INR K * t + 0)))).
        -- apply (td_scal (N - 1) be (fun t => u0 t * cos (INR K * t + 0))). apply (td_mono ((N - 1) / 2 + K)); [lia|]. apply (td_mult _ _ u0 (fun t => cos (INR K * t + 0))); auto. now apply td_cos_nat.
        -- apply (td_scal (N - 1) al (fun t => v0 t * cos (INR K * t + 0))). apply (td_mono ((N - 1) / 2 + K)); [lia|]. apply (td_mult _ _ v0 (fun t => cos (INR K * t + 0))); auto. now apply td_cos_nat.
    + intro t. rewrite Eu, Ev, Rplus_0_r. assert (cos (INR N * t) = 2 * cos (INR K * t) * cos (INR K * t) - 1) as ->.
      { replace (INR N * t) with (2 * (INR K * t)); [apply cos_2a_cos|]. assert (INR N = INR (2 * K)) as EI by (f_equal; lia). rewrite mult_INR in EI. change (INR 2) with 2 in EI. rewrite EI. ring. }
      field.
  - specialize (Zu eq_refl). specialize (Zv eq_refl). subst al be. exists (fun t => u0 t * v0 t), 0. split.
    + apply (td_mono ((N - 1) / 2 + (N - 1) / 2)); [lia|]. now apply td_mult.
    + intro t. rewrite Eu, Ev. ring.
Qed.
Lemma ti_plus u v : trig_interpolant N u -> trig_interpolant N v -> trig_interpolant N (fun t => u t + v t).
Proof.
  intros (a & b & Hb & E) (a' & b' & Hb' & E'). exists (fun k => a k + a' k), (fun k => b k + b' k). split.
  - intro Ev. rewrite Hb, Hb' by auto. ring.
  - intro x. rewrite E, E'. unfold trig.
    assert (Rsum K (fun k => (a (S k) + a' (S k)) * cos (INR (S k) * x) + (b (S k) + b' (S k)) * sin (INR (S k) * x)) =
      Rsum K (fun k => a (S k) * cos (INR (S k) * x) + b (S k) * sin (INR (S k) * x)) + Rsum K (fun k => a' (S k) * cos (INR (S k) * x) + b' (S k) * sin (INR (S k) * x))) as ->.
    { rewrite <- Rsum_plus. apply Rsum_ext. intros. ring. } ring.
Qed.
Lemma ti_nyq c : Nat.even N = true -> trig_interpolant N (fun t => c * cos (INR K * t)).
Proof.
  intro Ev. pose proof Ev as Ev'. apply Nat.even_spec in Ev' as [q Hq]. exists (fun k => if Nat.eqb k K then c else 0), (fun _ => 0). split; [auto|]. intro x. unfold trig.
  assert (Nat.eqb 0 K = false) as -> by (apply Nat.eqb_neq; lia). rewrite (Rsum_single K (K - 1)).
  - replace (S (K - 1)) with K by lia. rewrite Nat.eqb_refl. ring.
  - lia.
  - intros i Hi Hn. destruct (Nat.eqb_spec (S i) K); [lia|]. ring.
Qed.
Lemma K_half : Nat.even N = true -> INR K * (h / 2) = PI / 2.
Proof. intro Ev. pose proof (xg_nyq_half N HN Ev) as X. rewrite <- INR_IZR_INZ in X. lra. Qed.
Lemma ti_ext u v : (forall t, u t = v t) -> trig_interpolant N v -> trig_interpolant N u.
Proof. intros E (a & b & Hb & E'). exists a, b. split; auto. intro. now rewrite E, E'. Qed.
Lemma ti_deriv B : trig_interpolant N B -> exists B', (forall t, is_derive B t (B' t)) /\ trig_degree K B' /\
  trig_interpolant N (fun t => B' (t + h / 2)) /\ trig_interpolant N (fun t => B' (t - h / 2)).
Proof.
  intro HB. destruct (ti_split B HB) as (b0 & al & D0 & Z & E). destruct (td_deriv _ _ D0) as (b0' & D0' & Hd).
  exists (fun t => b0' t + al * (- INR K * sin (INR K * t))).
  assert (forall t, is_derive B t (b0' t + al * (- INR K * sin (INR K * t)))) as DB.
  { intro t. apply (is_derive_ext (fun t => b0 t + al * cos (INR K * t))); [intro; now rewrite E|].
    apply (is_derive_plus b0 (fun t => al * cos (INR K * t))); [apply Hd|]. auto_derive; [auto|]. ring. }
  split; [exact DB|]. split.
  - apply (td_plus K b0' (fun t => al * (- INR K * sin (INR K * t)))); [apply (td_mono ((N - 1) / 2)); [lia|auto]|].
    apply (td_ext K _ (fun t => (al * - INR K) * sin (INR K * t + 0))); [intro t; rewrite Rplus_0_r; ring|]. apply (td_scal K _ (fun t => sin (INR K * t + 0))). apply td_sin_nat. lia.
  - assert (forall s, s = h / 2 \/ s = - (h / 2) -> trig_interpolant N (fun t => b0' (t + s) + al * (- INR K * sin (INR K * (t + s))))) as G.
    { intros s Hs. apply (ti_plus (fun t => b0' (t + s)) (fun t => al * (- INR K * sin (INR K * (t + s))))).
      - apply (trig_degree_interpolant N ((N - 1) / 2)); [lia|]. now apply td_shift.
      - destruct (Nat.even N) eqn:Ev.
        + pose proof (K_half Ev) as KH. destruct Hs as [->| ->].
          * apply (ti_ext _ (fun t => (al * - INR K) * cos (INR K * t))); [|now apply ti_nyq]. intro t. rewrite Rmult_plus_distr_l, KH, sin_plus, cos_PI2, sin_PI2. ring.
          * apply (ti_ext _ (fun t => (al * INR K) * cos (INR K * t))); [|now apply ti_nyq]. intro t. rewrite Rmult_plus_distr_l. replace (INR K * - (h / 2)) with (- (PI / 2)) by lra. rewrite sin_plus, cos_neg, sin_neg, cos_PI2, sin_PI2. ring.
        + rewrite Z by auto. apply (ti_ext _ (fun _ => 0)); [intro; ring|]. apply (trig_degree_interpolant N 0); [lia|]. apply td_const. }
    split; [apply G; auto|]. apply (ti_ext _ (fun t => b0' (t + - (h / 2)) + al * (- INR K * sin (INR K * (t + - (h / 2)))))); [|apply G; auto]. reflexivity.
Qed.
Definition nxt (i : nat) : nat := if Nat.eqb (i + 1) N then 0%nat else (i + 1)%nat.
Definition prv (i : nat) : nat := if Nat.eqb i 0 then (N - 1)%nat else (i - 1)%nat.
Lemma nth_D0 (f : list R) i : length f = N -> (i < N)%nat -> nth i (D0_periodic f) 0 = nth (nxt i) f 0 - nth i f 0.
Proof.
  intros L Hi. unfold D0_periodic, vsub. rewrite nth_zipw with (dx := 0) (dy := 0) by (rewrite ?length_roll; lia). rewrite nth_roll_m1 by lia. unfold nxt. now rewrite L.
Qed.
Lemma len_D0 (f : list R) : length (D0_periodic f) = length f.
Proof. unfold D0_periodic, vsub. rewrite length_zipw, length_roll. apply Nat.min_id. Qed.
Lemma nth_D0d (f : list R) i : length f = N -> (i < N)%nat -> nth i (D0d_periodic f) 0 = nth i f 0 - nth (prv i) f 0.
Proof.
  intros L Hi. unfold D0d_periodic. rewrite nth_roll_1 by (rewrite len_D0; lia). rewrite len_D0, L. fold (prv i). rewrite nth_D0; auto; unfold nxt, prv.
  - destruct (Nat.eqb_spec i 0) as [->|]; [rewrite (proj2 (Nat.eqb_eq _ _)) by lia; reflexivity|]. destruct (Nat.eqb_spec (i - 1 + 1) N); [lia|]. now replace (i - 1 + 1)%nat with i by lia.
  - destruct (Nat.eqb_spec i 0); lia.
Qed.
Lemma len_D0d (f : list R) : length (D0d_periodic f) = length f.
Proof. unfold D0d_periodic. now rewrite length_roll, len_D0. Qed.
Lemma interp_period f t z : length f = N -> interp f (t + 2 * IZR z * PI) = interp f t.
Proof. intro L. unfold interp. apply Rsum_ext. intros m _. f_equal. replace (t + 2 * IZR z * PI - xg (length f) m) with (t - xg (length f) m + 2 * IZR z * PI) by ring. apply alphaS_period. Qed.
Lemma interp_nxt f i : length f = N -> (i < N)%nat -> interp f (xg N i + h) = nth (nxt i) f 0.
Proof.
  intros L Hi. rewrite <- xg_S. unfold nxt. destruct (Nat.eqb_spec (i + 1) N) as [E|E].
  - replace (S i) with N by lia. rewrite xg_n by auto. replace (2 * PI) with (0 + 2 * IZR 1 * PI) by (simpl; ring). rewrite interp_period by auto. replace (interp f 0) with (interp f (xg (length f) 0)) by (now rewrite xg_0). apply interp_grid. lia.
  - replace (i + 1)%nat with (S i) by lia. rewrite <- L. apply interp_grid. lia.
Qed.
Lemma interp_prv f i : length f = N -> (i < N)%nat -> interp f (xg N i - h) = nth (prv i) f 0.
Proof.
  intros L Hi. unfold prv. destruct (Nat.eqb_spec i 0) as [->|E].
  - pose proof (xg_S N (N - 1)) as X. replace (S (N - 1)) with N in X by lia. rewrite xg_n in X by auto. rewrite <- (interp_period f (xg N 0 - h) 1) by auto. rewrite xg_0.
    replace (0 - h + 2 * 1 * PI) with (xg N (N - 1)) by lra. rewrite <- L. apply interp_grid. lia.
  - pose proof (xg_S N (i - 1)) as X. replace (S (i - 1)) with i in X by lia. replace (xg N i - h) with (xg N (i - 1)) by lra. rewrite <- L. apply interp_grid. lia.
Qed.
(** the histopolant of the differences is the derivative of the interpolant *)
Lemma histo_of f (q : R -> R) : length f = N -> trig_interpolant N q -> (forall j, (j < N)%nat -> nth j f 0 = RInt q (xg N j - h / 2) (xg N j + h / 2)) -> forall t, histo f t = q t.
Proof.
  intros L Hq Hf t. rewrite histo_interp by lia. set (v := tab N (fun j => q (xg N j))).
  assert (opHinv f = v) as ->.
  { replace f with (tab N (fun j => RInt q (xg N j - h / 2) (xg N j + h / 2))) by (apply tab_nth; auto; intros; now rewrite Hf).
    pose proof (exact_Hinv v q) as X. unfold v in *. rewrite length_tab in X. apply X; auto. now apply samples_tab. }
  symmetry. apply interp_unique; unfold v; rewrite ?length_tab; auto. now apply samples_tab.
Qed.
Lemma histo_D0 b B' : length b = N -> (forall t, is_derive (interp b) t (B' t)) -> (forall t, continuous B' t) -> trig_interpolant N (fun t => B' (t + h / 2)) ->
  forall t, histo (D0_periodic b) (t - h / 2) = B' t.
Proof.
  intros L Hd Hc Hi t. rewrite (histo_of (D0_periodic b) (fun t => B' (t + h / 2))); auto.
  - f_equal. ring.
  - now rewrite len_D0.
  - intros j Hj. rewrite nth_D0 by auto. rewrite RInt_shift by auto. symmetry. apply is_RInt_unique.
    replace (xg N j - h / 2 + h / 2) with (xg N j) by ring. replace (xg N j + h / 2 + h / 2) with (xg N j + h) by field.
    rewrite <- (interp_nxt b j) by auto. rewrite <- (interp_grid b j) by lia. rewrite L. now apply is_RInt_der.
Qed.
Lemma histo_D0d b B' : length b = N -> (forall t, is_derive (interp b) t (B' t)) -> (forall t, continuous B' t) -> trig_interpolant N (fun t => B' (t - h / 2)) ->
  forall t, histo (D0d_periodic b) t = B' (t - h / 2).
Proof.
  intros L Hd Hc Hi t. rewrite (histo_of (D0d_periodic b) (fun t => B' (t - h / 2))); auto.
  - now rewrite len_D0d.
  - intros j Hj. rewrite nth_D0d by auto. rewrite (RInt_shift B' (- (h / 2))) by auto. symmetry. apply is_RInt_unique.
    replace (xg N j - h / 2 + - (h / 2)) with (xg N j - h) by field. replace (xg N j + h / 2 + - (h / 2)) with (xg N j) by field.
    rewrite <- (interp_prv b j) by auto. rewrite <- (interp_grid b j) by lia. rewrite L. now apply is_RInt_der.
Qed.
Lemma sin_N_M j c : sin (INR N * (xg M j - IZR c * (h / 2))) = 0.
Proof.
  replace (INR N * (xg M j - IZR c * (h / 2))) with (IZR (Z.of_nat j - c) * PI); [apply sin_IZR_PI|].
  unfold xg. rewrite (hM N HN). unfold hstep. rewrite minus_IZR, <- INR_IZR_INZ. field. now apply INR_neq0.
Qed.
Lemma cos_N_shift t : cos (INR N * (t + h)) = cos (INR N * t).
Proof. replace (INR N * (t + h)) with (INR N * t + 2 * IZR 1 * PI); [apply cos_period_Z|]. unfold hstep. simpl (IZR 1). field. now apply INR_neq0. Qed.
(** product rule on the refined grid: s = c*h/2 *)
Lemma leib a b A' B' (c : Z) : length a = N -> length b = N -> (forall t, is_derive (interp a) t (A' t)) -> (forall t, is_derive (interp b) t (B' t)) ->
  exists P K', (2 * K' < M)%nat /\ trig_degree K' P /\
  (forall j, P (xg M j) = let t := xg M j - IZR c * (h / 2) in interp a t * B' t + interp b t * A' t) /\
  (forall x, RInt P (x + IZR c * (h / 2)) (x + IZR c * (h / 2) + h) = interp a (x + h) * interp b (x + h) - interp a x * interp b x).
Proof.
  intros La Lb Da Db. destruct (ti_prod (interp a) (interp b)) as (P0 & k & HP & EP); [rewrite <- La; apply interp_trig; lia|rewrite <- Lb; apply interp_trig; lia|].
  destruct (td_deriv _ _ HP) as (P' & HP' & DP). exists (fun t => P' (t - IZR c * (h / 2))), (N - 1)%nat. split; [lia|]. split; [apply (td_shift (N - 1) (- (IZR c * (h / 2)))); auto|]. split.
  - intro j. cbv zeta. set (t := xg M j - IZR c * (h / 2)).
    assert (is_derive (fun t => interp a t * interp b t) t (interp a t * B' t + interp b t * A' t)) as D1.
    { pose proof (is_derive_mult (interp a) (interp b) t (A' t) (B' t) (Da t) (Db t) Rmult_comm) as X. replace (interp a t * B' t + interp b t * A' t) with (plus (mult (A' t) (interp b t)) (mult (interp a t) (B' t))) by (unfold plus, mult; simpl; ring). exact X. }
    assert (is_derive (fun t => interp a t * interp b t) t (P' t + k * (- INR N * sin (INR N * t)))) as D2.
    { apply (is_derive_ext (fun t => P0 t + k * cos (INR N * t))); [intro; now rewrite EP|]. apply (is_derive_plus P0 (fun t => k * cos (INR N * t))); [apply DP|]. auto_derive; [auto|ring]. }
    pose proof (is_derive_unique _ _ _ D1) as E1. pose proof (is_derive_unique _ _ _ D2) as E2. rewrite E1 in E2.
    assert (sin (INR N * t) = 0) as Es by apply sin_N_M. rewrite Es in E2. rewrite E2. ring.
  - intro x. assert (forall t, continuous P' t) as Cc by (intro; now apply (td_cont (N - 1))).
    rewrite (RInt_shift P' (- (IZR c * (h / 2)))) by auto. rewrite !EP. rewrite cos_N_shift.
    replace (x + IZR c * (h / 2) + - (IZR c * (h / 2))) with x by ring. replace (x + IZR c * (h / 2) + h + - (IZR c * (h / 2))) with (x + h) by ring.
    assert (RInt P' x (x + h) = P0 (x + h) - P0 x) as -> by (apply is_RInt_unique; now apply is_RInt_der).
    match goal with |- ?l = ?r => change (@eq R l r) end. ring.
Qed.
End Leibniz.
