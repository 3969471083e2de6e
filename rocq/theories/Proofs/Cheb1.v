(** The Hodge stars H0d_cheb and H1_cheb, and the interpolations S_cheb, S_cheb_pinv. *)
From Coq Require Import ZArith Reals List Lia Lra Arith.
From Coq Require Import ZifyNat.
From Coquelicot Require Import Coquelicot.
From Verif Require Import Model.Num Model.Np Model.Spectral Model.Basis Model.Grids1 Model.Regular Model.Chebyshev Spec.Trig Spec.CInt Proofs.ListLemmas Proofs.Sums
  Proofs.Fourier Proofs.RIntLemmas Proofs.Kernels Proofs.Trig Proofs.Ops Proofs.Exact Proofs.BasisP Proofs.Grids1P Proofs.GridsThm Proofs.RingSums Proofs.Mirror Proofs.Symm Proofs.RegularP Proofs.PeriodicBasis Proofs.RegularBasis
  Proofs.Lin Proofs.TableLin Proofs.LinAlg Proofs.FourierK.
Import ListNotations.
Local Open Scope R_scope.
Ltac Zify.zify_post_hook ::= Z.div_mod_to_equations.

Lemma nth_cplxv l i : nth i (cplxv l) (RtoC 0) = RtoC (nth i l 0).
Proof. apply (map_nth RtoC). Qed.
Lemma nth_realv l i : nth i (realv l) 0 = Re (nth i l (RtoC 0)).
Proof. apply (map_nth Re l (RtoC 0)). Qed.
Lemma of_coeffs_diag (x : list C) (D : Z -> C) t : (0 < length x)%nat ->
  of_coeffs (vmul (F x) (map D (freq (length x)))) t = Csum (length x) (fun m => Cmult (nth m x (RtoC 0)) (kernC (length x) D (t - xg (length x) m))).
Proof.
  intro H. rewrite vmul_F_diag by auto. set (N := length x) in *. unfold of_coeffs. rewrite length_tab.
  rewrite (Csum_ext _ _ (fun i => Csum N (fun m => Cmult (nth m x (RtoC 0)) (Cmult (D (fz N i)) (cis (IZR (fz N i) * (t - xg N m))))))).
  2:{ intros i Hi. change (cos _, sin _) with (cis (IZR (fz N i) * t)). rewrite nth_tab by lia. rewrite nth_F by (fold N; lia). fold N.
      rewrite <- !Csum_scal_r. apply Csum_ext. intros m Hm.
      rewrite <- !Cmult_assoc. f_equal. rewrite Cmult_comm, <- Cmult_assoc. f_equal.
      rewrite <- cis_plus. f_equal. ring. }
  rewrite Csum_swap, <- Csum_scal. apply Csum_ext. intros m Hm.
  rewrite Csum_scal. unfold kernC. ring.
Qed.
Lemma Re_of_coeffs_S v s t : (0 < length v)%nat -> Re (of_coeffs (fourier_S (F (cplxv v)) s) t) = interp v (t + s).
Proof.
  intro H. unfold fourier_S, S_diag. rewrite length_F. rewrite of_coeffs_diag by now rewrite length_cplxv.
  rewrite Re_Csum, length_cplxv. unfold interp. apply Rsum_ext. intros m Hm. rewrite nth_cplxv, Re_mult_RtoC, kern_S. do 2 f_equal. ring.
Qed.
Lemma fourier_S_0 x : (0 < length x)%nat -> fourier_S x 0 = x.
Proof.
  intro H. unfold fourier_S, S_diag. rewrite map_freq_tab by auto. apply list_eq_nth with (d := RtoC 0); unfold vmul.
  - rewrite length_zipw, length_tab. lia.
  - rewrite length_zipw, length_tab. intros i Hi. rewrite nth_zipw with (dx := RtoC 0) (dy := RtoC 0) by (rewrite ?length_tab; lia).
    rewrite nth_tab by lia. rewrite Rmult_0_r, cis_0. apply Cmult_1_r.
Qed.
Lemma Re_of_coeffs v t : (0 < length v)%nat -> Re (of_coeffs (F (cplxv v)) t) = interp v t.
Proof. intro H. rewrite <- (fourier_S_0 (F (cplxv v))) by (rewrite length_F, length_cplxv; auto). rewrite Re_of_coeffs_S by auto. f_equal. ring. Qed.
(** the imaginary part comes from the Nyquist coefficient *)
Lemma Im_kern_S N s x : (0 < N)%nat -> Nat.even N = true -> Im (kernC N (fun n => cis (IZR n * s)) x) = - / INR N * sin (INR (N / 2) * (x + s)).
Proof.
  intros HN Ev. unfold kernC. rewrite Im_mult_RtoC, Im_Csum.
  rewrite (Rsum_ext _ _ (fun i => (if Z.eqb (Z.abs (fz N i)) (Z.of_nat (N / 2)) then 0 else sin (IZR (fz N i) * (x + s))) + (if Nat.eqb i 0 then sin (IZR (fz N i) * (x + s)) else 0))).
  2:{ intros i Hi. rewrite <- cis_plus. unfold cis; simpl. replace (IZR (fz N i) * s + IZR (fz N i) * x) with (IZR (fz N i) * (x + s)) by ring.
      destruct (Z.eqb_spec (Z.abs (fz N i)) (Z.of_nat (N / 2))) as [E|E]; destruct (Nat.eqb_spec i 0) as [E'|E']; try ring.
      - exfalso. unfold fz in E. apply Nat.even_spec in Ev. destruct Ev as [r Er]. lia.
      - exfalso. unfold fz in E. lia. }
  rewrite Rsum_plus. rewrite (Rsum_Z_odd N (fun n => if Z.eqb (Z.abs n) (Z.of_nat (N / 2)) then 0 else sin (IZR n * (x + s)))).
  2:{ intro n. rewrite Z.abs_opp. destruct (Z.eqb _ _); [ring|]. rewrite opp_IZR, <- sin_neg. f_equal. ring. }
  2:{ intros _. rewrite Z.abs_opp, Z.abs_eq by lia. now rewrite Z.eqb_refl. }
  rewrite (Rsum_single N 0%nat) by (first [assumption | intros i Hi Hne; destruct (Nat.eqb_spec i 0); first [lia|reflexivity]]). cbn [Nat.eqb].
  unfold fz. replace (Z.of_nat 0 - Z.of_nat (N / 2))%Z with (- Z.of_nat (N / 2))%Z by lia. rewrite opp_IZR, <- INR_IZR_INZ.
  replace (- INR (N / 2) * (x + s)) with (- (INR (N / 2) * (x + s))) by ring. rewrite sin_neg. ring.
Qed.
Lemma of_coeffs_real v s t : (0 < length v)%nat -> Nat.even (length v) = true -> Rsum (length v) (fun m => nth m v 0 * (-1) ^ m) = 0 ->
  of_coeffs (fourier_S (F (cplxv v)) s) t = RtoC (interp v (t + s)).
Proof.
  intros H Ev Ny. apply injective_projections; [now apply Re_of_coeffs_S|]. change (Im (of_coeffs (fourier_S (F (cplxv v)) s) t) = 0).
  unfold fourier_S, S_diag. rewrite length_F. rewrite of_coeffs_diag by now rewrite length_cplxv.
  rewrite Im_Csum, length_cplxv. set (N := length v) in *.
  rewrite (Rsum_ext _ _ (fun m => - / INR N * sin (INR (N / 2) * (t + s)) * (nth m v 0 * (-1) ^ m))).
  - rewrite Rsum_scal, Ny. ring.
  - intros m Hm. rewrite nth_cplxv, Im_mult_RtoC, Im_kern_S by auto.
    replace (INR (N / 2) * (t - xg N m + s)) with (INR (N / 2) * (t + s) - INR m * PI).
    + rewrite sin_minus, cos_PI_nat. replace (sin (INR m * PI)) with 0 by (rewrite INR_IZR_INZ, sin_IZR_PI; reflexivity). ring.
    + unfold xg. pose proof (xg_nyq_half N H Ev) as X. rewrite <- INR_IZR_INZ in X. transitivity (INR (N / 2) * (t + s) - INR m * (INR (N / 2) * hstep N)); [now rewrite X|ring].
Qed.
Lemma mirror1_nyq (f : list R) : Rsum (2 * length f) (fun m => nth m (mirror1 1 f) 0 * (-1) ^ m) = 0.
Proof.
  rewrite Rsum_mirror1. apply Rsum_zero_ext. intros i Hi. rewrite !pow_m1_Z.
  replace (Nat.even (2 * length f - 1 - i)) with (negb (Nat.even i)).
  - destruct (Nat.even i); cbn [negb]; ring.
  - destruct (Nat.even i) eqn:E; symmetry; cbn [negb].
    + apply Nat.even_spec in E as [r ->]. destruct (Nat.even _) eqn:E2; [apply Nat.even_spec in E2 as [q E2]; lia|auto].
    + apply Nat.even_spec. assert (Nat.odd i = true) as Od by (unfold Nat.odd; now rewrite E). apply Nat.odd_spec in Od as [r ->]. exists (length f - 1 - r)%nat. lia.
Qed.

Lemma RInt_odd (g : R -> R) a b : (forall t, continuous g t) -> (forall t, g (- t) = - g t) -> RInt g (- b) (- a) = - RInt g a b.
Proof.
  intros Co Od. pose proof (RInt_comp_lin (V := R_CompleteNormedModule) g (-1) 0 b a (ex_RInt_cont_all g _ _ Co)) as E.
  replace (-1 * b + 0) with (- b) in E by ring. replace (-1 * a + 0) with (- a) in E by ring. rewrite <- E.
  rewrite (RInt_ext _ g).
  - symmetry. exact (opp_RInt_swap (V := R_CompleteNormedModule) g a b (ex_RInt_cont_all g a b Co)).
  - intros t _. unfold scal; simpl; unfold mult; simpl. replace (-1 * t + 0) with (- t) by ring. rewrite Od. ring.
Qed.
Section Cheb.
Variable n : nat.
Hypothesis Hn : (2 <= n)%nat.
Let N := (2 * (n - 1))%nat.
Let HN : (0 < N)%nat. Proof. unfold N. lia. Qed.
Notation h := (hstep N).

(** the array whose first half is H0d_cheb f *)
Definition cell_sin (g : R -> R) (a b : R) : R := RInt (fun t => g t * sin t) a b.
Lemma RInt_Re f a b v : is_CRInt f a b v -> RInt (fun t => Re (f t)) a b = Re v.
Proof. intros [H _]. now apply is_RInt_unique. Qed.
Definition zK (f : list R) (j : nat) : R := cell_sin (fun t => interp (mirror1 1 f) (t - h / 2)) (xg N j) (xg N j + h).
Lemma H0d_z f : length f = (n - 1)%nat -> Finv (fourier_K (fourier_S (F (cplxv (mirror1 1 f))) (- h / 2)) 0 h) = cplxv (tab N (zK f)).
Proof.
  intro L. pose proof (len_m1 n 1 f L) as Lm. fold N in Lm.
  set (y := fourier_S (F (cplxv (mirror1 1 f))) (- h / 2)). assert (length y = N) as Ly by (unfold y, fourier_S, S_diag, vmul; rewrite length_zipw, map_length, length_freq; rewrite ?length_F, ?length_cplxv, ?Lm; lia).
  apply list_eq_nth with (d := RtoC 0); [rewrite length_Finv, length_fourier_K, length_cplxv, length_tab; auto|].
  rewrite length_Finv, length_fourier_K, Ly. intros j Hj. rewrite nth_cplxv, nth_tab by auto.
  pose proof (K_integral y 0 h j ltac:(lia)) as [K1 K2]. rewrite Ly, Rplus_0_r in K1, K2.
  assert (forall t, of_coeffs y t = RtoC (interp (mirror1 1 f) (t - h / 2))) as Er.
  { intro t. unfold y. rewrite of_coeffs_real.
    - do 2 f_equal. field.
    - rewrite Lm; auto.
    - rewrite Lm. unfold N. apply Nat.even_spec. now exists (n - 1)%nat.
    - rewrite Lm. unfold N. rewrite <- L. apply mirror1_nyq. }
  apply injective_projections.
  - apply (is_RInt_unique (V := R_CompleteNormedModule)) in K1. change (Re (nth j (Finv (fourier_K y 0 h)) (RtoC 0)) = zK f j). rewrite <- K1. unfold zK, cell_sin. apply RInt_ext. intros t _. rewrite Er. cbn. ring.
  - apply (is_RInt_unique (V := R_CompleteNormedModule)) in K2. change (Im (nth j (Finv (fourier_K y 0 h)) (RtoC 0)) = 0). rewrite <- K2.
    rewrite (RInt_ext _ (fun _ => 0)); [|intros t _; rewrite Er; cbn; ring]. rewrite RInt_const. apply Rmult_0_r.
Qed.
Lemma with_hN (f : list C) k : length f = N -> with_h f k = k h.
Proof. intro L. rewrite (with_h_ok _ _ (N - 1)) by lia. now rewrite L. Qed.
Lemma H0d_val f : length f = (n - 1)%nat -> H0d_cheb f = Ok (tab (n - 1) (zK f)).
Proof.
  intro L. pose proof (len_m1 n 1 f L) as Lm. fold N in Lm. unfold H0d_cheb.
  rewrite with_hN by (now rewrite length_cplxv). rewrite H0d_z by auto. cbn [bind]. f_equal.
  unfold unmirror1. rewrite length_cplxv, length_tab. replace (N / 2)%nat with (n - 1)%nat by (unfold N; lia).
  unfold cplxv. rewrite firstn_map, firstn_tab by (unfold N; lia). apply realv_cplxv.
Qed.
Lemma zK_odd f j : length f = (n - 1)%nat -> (j < N)%nat -> zK f (N - 1 - j) = - zK f j.
Proof.
  intros L Hj. unfold zK, cell_sin. set (g := fun t => interp (mirror1 1 f) (t - h / 2) * sin t).
  assert (forall t, g (- t) = - g t) as Od.
  { intro t. unfold g. rewrite sin_neg. rewrite !(interp_conv1 n) by auto. fold N. pose proof (conv_even1 n Hn (alphaS N) (alphaS_even N) (alphaS_period N) 1 f t ltac:(ring) L) as E. fold N in E. rewrite E. ring. }
  assert (forall t, g (t + 2 * PI) = g t) as Pe.
  { intro t. unfold g. rewrite !(interp_conv1 n) by auto. fold N. replace (t + 2 * PI - h / 2) with (t - h / 2 + 2 * PI) by ring. rewrite (conv_period n _ (alphaS_period N)). f_equal. replace (t + 2 * PI) with (t + 2 * INR 1 * PI) by (cbn; ring). apply sin_period. }
  assert (forall t, continuous g t) as Co.
  { intro t. apply (continuous_mult (fun t => interp (mirror1 1 f) (t - h / 2)) sin); [|apply continuous_derivable; auto_derive; auto].
    apply (continuous_comp (fun t => t - h / 2) (interp (mirror1 1 f))); [apply continuous_derivable; auto_derive; auto|apply interp_cont]. }
  assert (xg N (N - 1 - j) = 2 * PI - xg N j - h) as ->.
  { replace (N - 1 - j)%nat with (N - S j)%nat by lia. unfold N at 2. fold N. rewrite (xg_ref n Hn) by (fold N; lia). fold N. rewrite xg_S. ring. }
  replace (2 * PI - xg N j - h + h) with (2 * PI - xg N j) by ring.
  transitivity (RInt g (- (xg N j + h) + 2 * PI) (- xg N j + 2 * PI)); [f_equal; ring|].
  rewrite <- (RInt_shift g (2 * PI)) by auto. rewrite (RInt_ext _ g) by (intros; apply Pe).
  apply RInt_odd; auto.
Qed.
Notation k := (n - 1)%nat.
Lemma cheb_kh : INR k * h = PI.
Proof. pose proof (hstep_N n Hn) as E. fold N in E. rewrite E. field. apply not_0_INR. lia. Qed.
Lemma cheb_inner m : (1 <= m <= N)%nat -> I_entry (fz (N + 2) m) 0 h <> RtoC 0.
Proof.
  intros Hm E. assert (in_freq N (fz (N + 2) m)) as If by (unfold in_freq, fz; lia).
  pose proof (wH_neq0 N _ HN If) as W. unfold wH in W. rewrite I_entry_eq in E. pose proof (hstep_pos N HN).
  set (q := fz (N + 2) m) in *. destruct (Z.eqb_spec q 0) as [Eq|Eq].
  - apply (f_equal fst) in E. unfold RtoC in E; cbn [fst] in E. lra.
  - apply (f_equal snd) in E. unfold RtoC in E; cbn [snd] in E. rewrite Rmult_0_r, cos_0 in E. replace (IZR q * h) with (2 * (IZR q * (h / 2))) in E by field. rewrite cos_2a_sin in E.
    apply W. assert (IZR q <> 0) by (now apply not_0_IZR). set (s := sin (IZR q * (h / 2))) in *.
    assert (s * s = 0) as S2 by (replace (s * s) with (- (1 - 2 * s * s - 1) / IZR q * IZR q / 2) by (field; auto); rewrite E; field).
    apply Rmult_integral in S2. destruct S2 as [-> | ->]; field; auto.
Qed.
Lemma cheb_fz : fz (N + 2) 0 = (- Z.of_nat (k + 1))%Z /\ fz (N + 2) N = (Z.of_nat (k - 1))%Z /\ fz (N + 2) 1 = (- Z.of_nat k)%Z /\ fz (N + 2) (N + 1) = Z.of_nat k.
Proof. unfold fz, N. repeat split; lia. Qed.
(** the four entries that fourier_K_inv compares; c = cos(h/2), s = sin(h/2) *)
Lemma cheb_I1 : I_entry (fz (N + 2) 1) 0 h = (0, - (2 / INR k)) /\ I_entry (fz (N + 2) (N + 1)) 0 h = (0, 2 / INR k).
Proof.
  destruct cheb_fz as (_ & _ & -> & ->). assert (INR k <> 0) by (apply not_0_INR; lia). pose proof cheb_kh as K. rewrite !I_entry_eq.
  destruct (Z.eqb_spec (- Z.of_nat k) 0); [lia|]. destruct (Z.eqb_spec (Z.of_nat k) 0); [lia|]. rewrite opp_IZR, <- !INR_IZR_INZ, !Rmult_0_r, sin_0, cos_0.
  replace (- INR k * h) with (- (INR k * h)) by ring. rewrite K, sin_neg, cos_neg, sin_PI, cos_PI. split; apply injective_projections; cbn [fst snd]; field; auto.
Qed.
Lemma cheb_I0 : I_entry (fz (N + 2) 0) 0 h = (- sin h / INR (k + 1), - (1 + cos h) / INR (k + 1)).
Proof.
  destruct cheb_fz as (-> & _). assert (INR (k + 1) <> 0) by (apply not_0_INR; lia). pose proof cheb_kh as K. rewrite I_entry_eq.
  destruct (Z.eqb_spec (- Z.of_nat (k + 1)) 0); [lia|]. rewrite opp_IZR, <- !INR_IZR_INZ, !Rmult_0_r, sin_0, cos_0.
  replace (- INR (k + 1) * h) with (- (h + PI)) by (rewrite plus_INR; cbn [INR]; rewrite <- K; ring). rewrite sin_neg, cos_neg, neg_sin, neg_cos.
  apply injective_projections; cbn [fst snd]; field; auto.
Qed.
Lemma cheb_IN : (2 <= k)%nat -> I_entry (fz (N + 2) N) 0 h = (sin h / INR (k - 1), (1 + cos h) / INR (k - 1)).
Proof.
  intro K2. destruct cheb_fz as (_ & -> & _). assert (INR (k - 1) <> 0) by (apply not_0_INR; lia). pose proof cheb_kh as K. rewrite I_entry_eq.
  destruct (Z.eqb_spec (Z.of_nat (k - 1)) 0); [lia|]. rewrite <- !INR_IZR_INZ, !Rmult_0_r, sin_0, cos_0.
  replace (INR (k - 1) * h) with (PI - h) by (rewrite minus_INR by lia; cbn [INR]; rewrite <- K; ring). rewrite sin_PI_x. rewrite (Rtrigo_facts.cos_pi_minus h).
  apply injective_projections; cbn [fst snd]; field; auto.
Qed.
Lemma cheb_k1 : k = 1%nat -> h = PI. Proof. intro E. pose proof cheb_kh as K. rewrite E in K. cbn [INR] in K. lra. Qed.
Lemma cheb_IN1 : k = 1%nat -> I_entry (fz (N + 2) N) 0 h = RtoC PI.
Proof. intro K1. destruct cheb_fz as (_ & -> & _). rewrite K1. rewrite (cheb_k1 K1). cbn. now rewrite Rminus_0_r. Qed.
Lemma cheb_h2 : (2 <= k)%nat -> 0 < h <= PI / 2.
Proof.
  intro K2. split; [now apply hstep_pos|]. pose proof cheb_kh as K. pose proof PI_RGT_0. assert (2 <= INR k) by (apply (le_INR 2); lia).
  pose proof (hstep_pos N HN). assert (2 * h <= INR k * h) by (apply Rmult_le_compat_r; lra). lra.
Qed.
Lemma cheb_regular f : length f = N -> regularK f 0 h.
Proof.
  intro L. unfold regularK. rewrite L. assert (Nat.even N = true) as -> by (apply Nat.even_spec; now exists k). destruct cheb_I1 as [-> ->].
  assert (0 < INR k) by (apply lt_0_INR; lia). assert (0 < 2 / INR k) by (apply Rdiv_lt_0_compat; lra). split; [|intro E; apply (f_equal snd) in E; cbn in E; lra].
  rewrite cheb_I0. destruct (Nat.eq_dec k 1) as [K1|K1].
  - rewrite cheb_IN1, (cheb_k1 K1), sin_PI, cos_PI by auto. intro E. apply (f_equal fst) in E. cbn [fst] in E. cbn in E. pose proof PI_RGT_0. lra.
  - rewrite cheb_IN by lia. destruct (cheb_h2 ltac:(lia)) as [H1 H2]. pose proof PI_RGT_0. assert (0 < sin h) by (apply sin_gt_0; lra).
    assert (0 < sin h / INR (k - 1)) by (apply Rdiv_lt_0_compat; [auto|apply lt_0_INR; lia]).
    assert (0 < sin h / INR (k + 1)) by (apply Rdiv_lt_0_compat; [auto|apply lt_0_INR; lia]). intro E. apply (f_equal fst) in E. cbn [fst] in E. lra.
Qed.
Lemma cplxv_zK_mirror f : length f = k -> cplxv (mirror1 (-1) (tab k (zK f))) = cplxv (tab N (zK f)).
Proof.
  intro L. f_equal. apply list_eq_nth with (d := 0); [rewrite length_mirror1, !length_tab; reflexivity|].
  rewrite length_mirror1, length_tab. intros i Hi. rewrite nth_mirror1 by (now rewrite length_tab). rewrite length_tab, (nth_tab N) by auto.
  destruct (Nat.ltb_spec i k); [now rewrite nth_tab|]. rewrite nth_tab by lia. cbn [nmul NumR]. replace (2 * k - 1 - i)%nat with (N - 1 - i)%nat by reflexivity.
  rewrite zK_odd by (auto; unfold N; lia). ring.
Qed.
Theorem H1_H0d close f : kguard close N 0 h = false -> length f = k -> bind (H0d_cheb f) (H1_cheb close) = Ok f.
Proof.
  intros G L. rewrite H0d_val by auto. cbn [bind]. unfold H1_cheb. rewrite cplxv_zK_mirror by auto. rewrite with_hN by (now rewrite length_cplxv, length_tab).
  rewrite <- H0d_z by auto. rewrite F_Finv. pose proof (len_m1 n 1 f L) as Lm. fold N in Lm.
  set (y := fourier_S (F (cplxv (mirror1 1 f))) (- h / 2)). assert (length y = N) as Ly by (unfold y, fourier_S, S_diag, vmul; rewrite length_zipw, map_length, length_freq; rewrite ?length_F, ?length_cplxv, ?Lm; lia).
  rewrite K_inv_K.
  - cbn [bind]. unfold y. unfold fourier_S at 1. fold y. rewrite Ly. unfold y, fourier_S. rewrite length_F, length_cplxv, Lm.
    assert (vmul (vmul (F (cplxv (mirror1 1 f))) (S_diag N (- h / 2))) (S_diag N (h / 2)) = F (cplxv (mirror1 1 f))) as ->.
    { assert (forall c, length (S_diag N c) = N) as LS by (intro; unfold S_diag; rewrite map_length; now apply length_freq).
      set (X := F (cplxv (mirror1 1 f))). assert (length X = N) as LX by (unfold X; now rewrite length_F, length_cplxv).
      apply list_eq_nth with (d := RtoC 0); unfold vmul; rewrite !length_zipw, !LS, LX; [lia|].
      intros i Hi. rewrite nth_zipw with (dx := RtoC 0) (dy := RtoC 0) by (rewrite ?length_zipw, ?LS, ?LX; lia).
      rewrite nth_zipw with (dx := RtoC 0) (dy := RtoC 0) by (rewrite ?LS, ?LX; lia). unfold S_diag.
      rewrite !nth_map_ with (d' := 0%Z) by (rewrite length_freq; lia). cbn [nmul NumC]. rewrite <- Cmult_assoc, <- cis_plus.
      replace (_ * (- h / 2) + _ * (h / 2)) with 0 by field. rewrite cis_0. apply Cmult_1_r. }
    rewrite Finv_F. unfold cplxv, unmirror1. rewrite map_length, firstn_map, Lm. f_equal. fold (cplxv (firstn (N / 2) (mirror1 1 f))). rewrite realv_cplxv.
    pose proof (unmirror1_mirror1 1 f) as U. unfold unmirror1 in U. now rewrite Lm in U.
  - lia.
  - rewrite Ly. apply cheb_inner.
  - now rewrite Ly.
  - now apply cheb_regular.
Qed.
Theorem H0d_H1 close f : kguard close N 0 h = false -> length f = k -> bind (H1_cheb close f) H0d_cheb = Ok f.
Proof.
  intros G L. destruct (rlin_H1_cheb close k ltac:(lia) G) as (g1 & L1 & E1). destruct (rlin_H0d_cheb k ltac:(lia)) as (g0 & L0 & E0).
  rewrite E1 by auto. cbn [bind]. rewrite E0 by exact (lin_len _ _ _ _ L1 L). f_equal.
  apply (inv_swap_R k g0 g1); auto.
  - intros f' L'. exact (lin_len _ _ _ _ L1 L').
  - intros f' L'. pose proof (H1_H0d close f' G L') as H. rewrite E0 in H by auto. cbn [bind] in H. rewrite E1 in H by exact (lin_len _ _ _ _ L0 L'). now injection H.
Qed.
End Cheb.
