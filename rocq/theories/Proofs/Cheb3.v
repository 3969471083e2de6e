(** H1d_cheb: the dual-edge Hodge star. *)
From Coq Require Import ZArith Reals List Lia Lra Arith.
From Coq Require Import ZifyNat.
From Coquelicot Require Import Coquelicot.
From Verif Require Import Model.Num Model.Np Model.Spectral Model.Basis Model.Grids1 Model.Regular Model.Chebyshev Spec.Trig Spec.CInt Spec.Poly Proofs.ListLemmas Proofs.Sums
  Proofs.Fourier Proofs.RIntLemmas Proofs.Kernels Proofs.Trig Proofs.Ops Proofs.Exact Proofs.BasisP Proofs.Grids1P Proofs.GridsThm Proofs.RingSums Proofs.Mirror Proofs.Symm Proofs.RegularP Proofs.PeriodicBasis Proofs.RegularBasis
  Proofs.Lin Proofs.TableLin Proofs.LinAlg Proofs.FourierK Proofs.Cheb1 Proofs.ChebPoly Proofs.TrigAlg Proofs.Cheb2.
Import ListNotations.
Local Open Scope R_scope.
Ltac Zify.zify_post_hook ::= Z.div_mod_to_equations.

(** shifting samples of a low-degree trigonometric polynomial *)
Lemma shift_exact v p K s : (2 * K < length v)%nat -> Nat.even (length v) = true -> trig_degree K p -> samples v p ->
  T_space s (cplxv v) = cplxv (tab (length v) (fun j => p (xg (length v) j + s))).
Proof.
  intros HK Ev Hp Hs. unfold T_space. assert (vmul (F (cplxv v)) (S_diag (length (cplxv v)) s) = fourier_S (F (cplxv v)) s) as -> by (unfold fourier_S; now rewrite length_F).
  assert (length (fourier_S (F (cplxv v)) s) = length v) as Ls.
  { unfold fourier_S, S_diag, vmul. rewrite length_zipw, map_length, length_freq; rewrite ?length_F, ?length_cplxv; lia. }
  apply list_eq_nth with (d := RtoC 0); [now rewrite length_Finv, length_cplxv, length_tab|]. rewrite length_Finv, Ls. intros j Hj.
  rewrite nth_Finv by lia. rewrite nth_cplxv, nth_tab by auto.
  transitivity (of_coeffs (fourier_S (F (cplxv v)) s) (xg (length v) j)); [unfold of_coeffs; rewrite Ls; reflexivity|].
  rewrite of_coeffs_real; auto; [|lia|].
  - f_equal. symmetry. now apply (samples_interp v p K).
  - rewrite (Rsum_ext _ _ (fun m => p (xg (length v) m) * (-1) ^ m)); [apply (nyq_trig _ K); auto; lia|]. intros m Hm. f_equal. rewrite Hs by auto. f_equal. symmetry. apply xg_eq. lia.
Qed.
Lemma I_space_opI a b f : (0 < length f)%nat -> I_space a b f = opI f a b.
Proof. intro H. rewrite opI_fm by auto. unfold I_space, I_diag. now apply (vmul_F_fm f (dI a b)). Qed.
Lemma refl_xg N m : (0 < N)%nat -> (m < N)%nat -> exists q : Z, xg N ((N - m) mod N) = - xg N m + 2 * IZR q * PI.
Proof.
  intros HN Hm. destruct (Nat.eq_dec m 0) as [->|Hm0].
  - exists 0%Z. rewrite Nat.sub_0_r, Nat.mod_same by lia. rewrite xg_0. ring.
  - exists 1%Z. rewrite Nat.mod_small by lia. unfold xg. rewrite minus_INR by lia. unfold hstep. field. apply not_0_INR. lia.
Qed.
Lemma interp_odd v x : (0 < length v)%nat -> (forall j, (j < length v)%nat -> nth ((length v - j) mod length v) v 0 = - nth j v 0) -> interp v (- x) = - interp v x.
Proof.
  intros HN Ho. unfold interp. set (N := length v) in *. rewrite Rsum_refl0. rewrite <- Rsum_opp. apply Rsum_ext. intros m Hm. rewrite Ho by auto.
  destruct (refl_xg N m HN Hm) as (q & ->). replace (- x - (- xg N m + 2 * IZR q * PI)) with (- (x - xg N m) + 2 * IZR (- q) * PI) by (rewrite opp_IZR; ring).
  rewrite alphaS_period, alphaS_even. ring.
Qed.
Lemma odd_low N g : (0 < N)%nat -> Nat.even N = true -> trig_interpolant N g -> (forall t, g (- t) = - g t) -> trig_degree (N / 2 - 1) g.
Proof.
  intros HN Ev (a & b & Hb & E) Od. specialize (Hb Ev). exists (fun _ => 0), b. intro t. replace (g t) with ((g t - g (- t)) / 2) by (rewrite Od; field). rewrite !E. unfold trig.
  assert (0 < N / 2)%nat by (apply Nat.even_spec in Ev; destruct Ev; lia).
  transitivity (/ 2 * Rsum (N / 2) (fun k => 2 * (b (S k) * sin (INR (S k) * t)))).
  - rewrite (Rsum_ext _ (fun k => 2 * (b (S k) * sin (INR (S k) * t))) (fun k => (a (S k) * cos (INR (S k) * t) + b (S k) * sin (INR (S k) * t)) - (a (S k) * cos (INR (S k) * - t) + b (S k) * sin (INR (S k) * - t)))).
    + rewrite Rsum_minus. field.
    + intros m _. replace (INR (S m) * - t) with (- (INR (S m) * t)) by ring. rewrite cos_neg, sin_neg. ring.
  - rewrite Rsum_scal. replace (N / 2)%nat with (S (N / 2 - 1)) at 1 by lia. cbn [Rsum]. replace (S (N / 2 - 1)) with (N / 2)%nat by lia. rewrite Hb.
    rewrite (Rsum_ext (N / 2 - 1) (fun k => 0 * _ + _) (fun k => b (S k) * sin (INR (S k) * t))) by (intros; ring). field.
Qed.

Section Cheb3.
Variable n : nat.
Hypothesis Hn : (2 <= n)%nat.
Let N := (2 * (n - 1))%nat.
Notation h := (hstep N).
Notation k := (n - 1)%nat.
Let HN : (0 < N)%nat. Proof. unfold N; lia. Qed.
Let Ev : Nat.even N = true. Proof. apply Nat.even_spec. now exists k. Qed.
Let kh : INR k * h = PI. Proof. exact (cheb_kh n Hn). Qed.
Let N2 : (N / 2)%nat = k. Proof. unfold N; lia. Qed.

(** the endpoint function *)
Definition Ef (t : R) : R := INR k ^ 2 * alphaS N t + / 2 * cos (INR k * t).
Definition Gf (t : R) : R := - / 2 * cos (INR k * t) * (1 + cos t).
Lemma INR_N : INR N = 2 * INR k. Proof. unfold N. rewrite mult_INR. cbn [INR]. ring. Qed.
Lemma alphaS_sin t : alphaS N t * sin t = sin (INR k * t) * (1 + cos t) / INR N.
Proof.
  assert (INR N <> 0) as N0 by now apply INR_neq0.
  assert (sin t = 2 * sin (t / 2) * cos (t / 2)) as Es by (rewrite <- sin_2a; f_equal; field).
  assert (1 + cos t = 2 * cos (t / 2) * cos (t / 2)) as Ec by (replace t with (2 * (t / 2)) at 1 by field; rewrite cos_2a_cos; ring).
  destruct (Req_dec (sin (t / 2)) 0) as [E|E].
  - rewrite Es, E. destruct (sin_0_Z _ E) as (q & Eq). assert (sin (INR k * t) = 0) as ->; [|field; auto].
    replace (INR k * t) with (IZR (2 * Z.of_nat k * q) * PI); [apply sin_IZR_PI|]. replace t with (2 * (t / 2)) by field. rewrite Eq, !mult_IZR, <- INR_IZR_INZ. ring.
  - pose proof (alpha0_some N t HN (or_intror E)) as A. unfold alpha0 in A. rewrite Ev in A.
    destruct (Req_EM_T t 0) as [->|T0]; [exfalso; apply E; replace (0 / 2) with 0 by field; apply sin_0|].
    destruct (Req_EM_T (sin (t / 2)) 0); [contradiction|].
    replace (INR N * t / 2) with (INR k * t) in A by (rewrite INR_N; field).
    destruct (Req_EM_T (cos (t / 2)) 0) as [C0|C0].
    + injection A as A. rewrite <- A, Ec, C0. field. auto.
    + injection A as A. rewrite <- A, Es, Ec. unfold tan. field. auto.
Qed.
Lemma Gf_deriv t : is_derive Gf t (Ef t * sin t).
Proof.
  unfold Gf, Ef. assert ((INR k ^ 2 * alphaS N t + / 2 * cos (INR k * t)) * sin t = / 2 * INR k * sin (INR k * t) * (1 + cos t) + / 2 * cos (INR k * t) * sin t) as ->.
  { rewrite Rmult_plus_distr_r. rewrite Rmult_assoc, alphaS_sin, INR_N. field. apply not_0_INR. lia. }
  set (w := INR k). auto_derive; [auto|]. ring.
Qed.
Lemma Ef_cosp : cosp k Ef.
Proof.
  apply (cosp_plus k (fun t => INR k ^ 2 * alphaS N t) (fun t => / 2 * cos (INR k * t))); apply cosp_scal; [|apply cosp_cos; lia].
  apply even_cosp; [|apply alphaS_even]. pose proof (interp_trig (unit_vec N 0)) as T. assert (length (unit_vec N 0) = N) as Lu by apply length_tab. rewrite Lu in T. destruct (T HN) as (a & b & _ & E). rewrite N2 in E.
  exists a, b. intro x. rewrite <- E. unfold interp. rewrite Lu, unit_sum by auto. rewrite xg_0. f_equal. ring.
Qed.
Lemma Ef_cont t : continuous Ef t. Proof. apply (cosp_cont k), Ef_cosp. Qed.
Lemma Es_cont t : continuous (fun t => Ef t * sin t) t. Proof. apply gs_cont. apply Ef_cont. Qed.
Lemma RInt_Ef a b : cell_sin Ef a b = Gf b - Gf a.
Proof. unfold cell_sin. apply is_RInt_unique. apply is_RInt_der; [apply Gf_deriv|apply Es_cont]. Qed.
Lemma RInt_Ef' a b : cell_sin (fun t => Ef (PI - t)) a b = Gf (PI - a) - Gf (PI - b).
Proof.
  unfold cell_sin. replace (Gf (PI - a) - Gf (PI - b)) with (- Gf (PI - b) - - Gf (PI - a)) by ring. apply is_RInt_unique. apply (is_RInt_der (fun t => - Gf (PI - t))).
  - intro t. replace (Ef (PI - t) * sin t) with (- (-1 * (Ef (PI - t) * sin (PI - t)))) by (rewrite sin_PI_x; ring).
    apply (is_derive_opp (fun t => Gf (PI - t))). apply (is_derive_comp Gf (fun t => PI - t)); [apply Gf_deriv|]. auto_derive; [auto|ring].
  - intro t. apply (gs_cont (fun t => Ef (PI - t))). intro. apply (cosp_cont k). now apply cosp_refl, Ef_cosp.
Qed.
Lemma cos_k_half j : cos (INR k * (xg N j + h / 2)) = 0.
Proof.
  replace (INR k * (xg N j + h / 2)) with (INR j * PI + PI / 2) by (unfold xg; rewrite <- kh; field).
  rewrite cos_plus, cos_PI2, INR_IZR_INZ, sin_IZR_PI. ring.
Qed.
Lemma Gf_dual i : (i <= n)%nat -> Gf (tdual n i) = if Nat.eqb i 0 then -1 else 0.
Proof.
  intro H. unfold Gf, tdual. fold N. destruct (Nat.eqb i 0); [rewrite Rmult_0_r, cos_0; field|]. destruct (Nat.eqb i n); [rewrite cos_PI; ring|]. rewrite cos_k_half. ring.
Qed.
Lemma Gf_dual' i : (i <= n)%nat -> Gf (PI - tdual n i) = if Nat.eqb i n then -1 else 0.
Proof.
  intro H. unfold Gf, tdual. fold N. destruct (Nat.eqb_spec i 0) as [->|].
  - destruct (Nat.eqb_spec 0 n); [lia|]. rewrite Rminus_0_r, cos_PI. ring.
  - destruct (Nat.eqb i n); [replace (PI - PI) with 0 by ring; rewrite Rmult_0_r, cos_0; field|].
    replace (INR k * (PI - (xg N (i - 1) + h / 2))) with (INR k * PI - INR k * (xg N (i - 1) + h / 2)) by ring. rewrite cos_minus, cos_k_half.
    rewrite (INR_IZR_INZ k), sin_IZR_PI. ring.
Qed.
Lemma Ef_vert i : (i < n)%nat -> Ef (xg N i) = nth i (half_edge_base n) 0.
Proof.
  intro Hi. unfold Ef, half_edge_base. rewrite nth_tab by auto. replace (xg N i) with (xg N i - xg N 0) at 1 by (rewrite xg_0; ring). rewrite alphaS_card by (unfold N; lia).
  replace (INR k * xg N i) with (INR i * PI) by (unfold xg; rewrite <- kh; ring). rewrite cos_PI_nat, pow_m1_Z. rewrite minus_INR by lia. change (INR 1) with 1.
  unfold Nat.odd. destruct (Nat.eqb i 0), (Nat.even i); cbn [negb]; field.
Qed.
Lemma Ef_vert' i : (i < n)%nat -> Ef (PI - xg N i) = nth i (rev (half_edge_base n)) 0.
Proof.
  intro Hi. assert (length (half_edge_base n) = n) as L by apply length_tab. rewrite rev_nth by (rewrite L; auto). rewrite L. rewrite <- Ef_vert by lia. f_equal.
  pose proof (xg_mid n Hn) as X. fold N in X. rewrite <- X. unfold xg. replace (INR (n - S i)) with (INR k - INR i) by (rewrite <- minus_INR by lia; f_equal; lia). ring.
Qed.

(** the interior *)
Variable f : list R.
Hypothesis Lf : length f = n.
Definition f0 : list R := mirror0 (-1) (matC f).
Lemma L_matC : length (matC f) = n.
Proof. unfold matC. rewrite !app_length, length_inner. cbn [length]. lia. Qed.
Lemma nth_matC i : (i < n)%nat -> nth i (matC f) 0 = if (Nat.eqb i 0 || Nat.eqb i (n - 1))%bool then 0 else nth i f 0.
Proof.
  intro Hi. unfold matC. rewrite nth_app_. cbn [length]. destruct (Nat.ltb_spec i 1).
  - replace i with 0%nat by lia. reflexivity.
  - rewrite nth_app_, length_inner, Lf. destruct (Nat.eqb_spec i 0); [lia|]. destruct (Nat.ltb_spec (i - 1) (n - 2)).
    + destruct (Nat.eqb_spec i k); [lia|]. cbn [orb]. rewrite nth_inner by lia. f_equal. lia.
    + destruct (Nat.eqb_spec i k); [|lia]. cbn [orb]. replace (i - 1 - (n - 2))%nat with 0%nat by lia. reflexivity.
Qed.
Lemma L_f0 : length f0 = N. Proof. apply (len_m0 n Hn). apply L_matC. Qed.
Lemma nth_f0 i : (i < n)%nat -> nth i f0 0 = if (Nat.eqb i 0 || Nat.eqb i (n - 1))%bool then 0 else nth i f 0.
Proof.
  intro Hi. unfold f0. destruct (Nat.eq_dec i N) as [->|Hne].
  - unfold N in Hi. lia.
  - rewrite nth_mirror0 by (rewrite L_matC; unfold N in Hne; lia). rewrite L_matC. destruct (Nat.ltb_spec i n); [|lia]. now apply nth_matC.
Qed.
Lemma f0_odd j : (j < N)%nat -> nth ((N - j) mod N) f0 0 = - nth j f0 0.
Proof.
  intro Hj. destruct (Nat.eq_dec j 0) as [->|Hj0].
  - rewrite Nat.sub_0_r, Nat.mod_same by lia. rewrite nth_f0 by lia. cbn [Nat.eqb orb]. ring.
  - rewrite Nat.mod_small by lia. destruct (Nat.eq_dec j k) as [->|Hjk].
    + replace (N - k)%nat with k by (unfold N; lia). rewrite nth_f0 by lia. rewrite Nat.eqb_refl, Bool.orb_true_r. ring.
    + unfold f0. rewrite !nth_mirror0 by (rewrite L_matC; unfold N in *; lia). rewrite L_matC.
      destruct (Nat.ltb_spec (N - j) n), (Nat.ltb_spec j n); cbn [nmul NumR]; try (unfold N in *; lia).
      * replace (2 * n - 2 - j)%nat with (N - j)%nat by (unfold N; lia). ring.
      * replace (2 * n - 2 - (N - j))%nat with j by (unfold N in *; lia). ring.
Qed.
Definition uu : list R := opHinv f0.
Lemma L_uu : length uu = N. Proof. unfold uu. rewrite length_opHinv; rewrite L_f0; auto. Qed.
Lemma Cuu : I_space_inv (- h / 2) (h / 2) (cplxv f0) = cplxv uu.
Proof.
  pose proof (I_space_inv_fm (cplxv f0)) as E. rewrite length_cplxv, L_f0 in E. cbv zeta in E. rewrite E by auto. pose proof (fm_dHi_real f0) as E'. rewrite L_f0 in E'. now apply E'.
Qed.
Lemma uu_odd j : (j < N)%nat -> nth ((N - j) mod N) uu 0 = - nth j uu 0.
Proof.
  intro Hj. pose proof (fm_sym0 (dHi N) (cplxv f0) (Copp (RtoC 1)) (evenD_dHi N)) as S. rewrite length_cplxv, L_f0 in S.
  pose proof (fm_dHi_real f0) as E'. rewrite L_f0 in E'. rewrite E' in S by auto. fold uu in S.
  assert (forall r, Cmult (Copp (RtoC 1)) (RtoC r) = RtoC (- r)) as Om by (intro; rewrite RtoC_opp; ring).
  specialize (S (fun j Hj => eq_trans (nth_cplxv _ _) (eq_trans (f_equal RtoC (f0_odd j Hj)) (eq_trans (eq_sym (Om _)) (f_equal (Cmult (Copp (RtoC 1))) (eq_sym (nth_cplxv _ _)))))) j Hj).
  rewrite !nth_cplxv, Om in S. apply RtoC_inj in S. exact S.
Qed.
Definition Bf (t : R) : R := interp uu t.
Lemma Bf_odd t : Bf (- t) = - Bf t.
Proof. unfold Bf. apply interp_odd; rewrite L_uu; auto. apply uu_odd. Qed.
Lemma Bf_cont t : continuous Bf t. Proof. apply interp_cont. Qed.
Lemma Bf_low : trig_degree (k - 1) Bf.
Proof. rewrite <- N2. apply odd_low; auto; [|apply Bf_odd]. pose proof (interp_trig uu) as T. rewrite L_uu in T. now apply T. Qed.
Lemma Bf_cell j : (j < N)%nat -> RInt Bf (xg N j - h / 2) (xg N j + h / 2) = nth j f0 0.
Proof.
  intro Hj. pose proof (H_Hinv f0) as E. rewrite L_f0 in E. rewrite <- (E HN). fold uu. rewrite nth_opH by (now rewrite L_uu). rewrite L_uu. reflexivity.
Qed.
Lemma Bf_samples : samples uu Bf. Proof. apply interp_samples. Qed.
Lemma Qf_ex : exists q, cosp (k - 2) q /\ forall t, Bf t = sin t * q t.
Proof. destruct (odd_sin (k - 1) Bf Bf_low Bf_odd) as (q & Hq & E). exists q. split; [|exact E]. now replace (k - 2)%nat with (k - 1 - 1)%nat by lia. Qed.

Lemma sin_half j : sin (xg N j + h / 2) <> 0.
Proof.
  intro E. destruct (sin_0_Z _ E) as (q & Eq). pose proof (hstep_pos N HN) as Hp. assert (h <> 0) by lra.
  assert (xg N j + h / 2 = (IZR q * INR k) * h) as E2 by (rewrite Rmult_assoc, kh; exact Eq). unfold xg in E2.
  assert (INR j + / 2 = IZR q * INR k) as E3 by (apply (Rmult_eq_reg_r h); auto; rewrite <- E2; field).
  assert (IZR (2 * Z.of_nat j + 1) = IZR (2 * q * Z.of_nat k)) as E4 by (rewrite plus_IZR, !mult_IZR, <- !INR_IZR_INZ; lra).
  apply eq_IZR in E4. assert (Z.even (2 * Z.of_nat j + 1) = Z.even (2 * (q * Z.of_nat k))) as E5 by (f_equal; lia).
  rewrite Z.even_add, !Z.even_mul in E5. cbn in E5. discriminate.
Qed.
Lemma cplxv_f0 : mirror0 (RtoC (-1)) (matC (cplxv f)) = cplxv f0.
Proof.
  unfold f0. rewrite cplxv_mirror0. f_equal. unfold matC, cplxv. rewrite !map_app. cbn [map]. f_equal. f_equal. unfold inner.
  clear. destruct f as [|a l]; [reflexivity|]. cbn [map tl]. clear a. induction l as [|b l IH]; [reflexivity|]. cbn [map removelast]. destruct l; [reflexivity|]. cbn [map] in *. now rewrite IH.
Qed.
Lemma firstn_cplxv m l : firstn m (cplxv l) = cplxv (firstn m l). Proof. apply firstn_map. Qed.
Lemma unm_tab (g : nat -> R) : unmirror0 (cplxv (tab N g)) = cplxv (tab n g).
Proof. unfold unmirror0. rewrite length_cplxv, length_tab, N2, firstn_cplxv, firstn_tab by (unfold N; lia). now replace (k + 1)%nat with n by lia. Qed.
(* the midpoint part *)
Lemma mid_val q : cosp (k - 2) q -> (forall t, Bf t = sin t * q t) -> H1d_cheb_midpoints h (cplxv f) = cplxv (tab n (fun j => q (xg N j))).
Proof.
  intros Hq Eq. unfold H1d_cheb_midpoints. rewrite cplxv_f0, Cuu.
  pose proof (shift_exact uu Bf (k - 1) (h / 2)) as Sh. rewrite L_uu in Sh. rewrite Sh by (auto using Bf_low, Bf_samples; unfold N; lia).
  rewrite length_cplxv, length_tab.
  assert (vdiv (cplxv (tab N (fun j => Bf (xg N j + h / 2)))) (cplxv (Omega_d N)) = cplxv (tab N (fun j => q (xg N j + h / 2)))) as ->.
  { unfold Omega_d, vdiv, cplxv. rewrite !map_tab, zipw_tab. apply tab_ext. intros j Hj. rewrite Eq. replace ((INR j + / 2) * h) with (xg N j + h / 2) by (unfold xg; field).
    pose proof (sin_half j). rewrite <- RtoC_div by auto. f_equal. field. auto. }
  pose proof (shift_exact (tab N (fun j => q (xg N j + h / 2))) (fun t => q (t + h / 2)) (k - 2) (- h / 2)) as S2. rewrite length_tab in S2. rewrite S2.
  - rewrite unm_tab. f_equal. apply tab_ext. intros j Hj. f_equal. field.
  - unfold N; lia.
  - auto.
  - apply (td_shift (k - 2) (h / 2)). now apply cosp_degree.
  - intros j. rewrite length_tab. intro Hj. rewrite nth_tab by auto. rewrite <- xg_eq by auto. reflexivity.
Qed.
Definition aa0 : R := nth 0 f 0 - RInt Bf 0 (h / 2).
Definition bbk : R := nth k f 0 - RInt Bf (PI - h / 2) PI.
Lemma end_val : H1d_cheb_endpoints h (cplxv f) = cplxv (tab n (fun j => aa0 * Ef (xg N j) + bbk * Ef (PI - xg N j))).
Proof.
  unfold H1d_cheb_endpoints. rewrite cplxv_f0, Cuu, !I_space_opI by (now rewrite length_cplxv, L_uu).
  assert (forall a b, opI (cplxv uu) a b = cplxv (tab N (fun j => RInt Bf (xg N j + a) (xg N j + b)))) as EI.
  { intros a b. pose proof (exact_I uu (k - 1) Bf a b) as X. rewrite L_uu in X. apply X; auto using Bf_low, Bf_samples. unfold N; lia. }
  rewrite !EI, !unm_tab. set (A := vsub _ _). set (B := vsub _ _).
  assert (length A = n) as LA by (unfold A, vsub; rewrite length_zipw, !length_cplxv, length_tab; lia).
  assert (length B = n) as LB by (unfold B, vsub; rewrite length_zipw, !length_cplxv, length_tab; lia).
  unfold matB, matB1. rewrite LA, LB.
  assert (hd (RtoC 0) A = RtoC aa0) as ->.
  { rewrite nth_hd. unfold A, vsub. rewrite nth_zipw with (dx := RtoC 0) (dy := RtoC 0) by (rewrite ?length_cplxv, ?length_tab; lia). rewrite !nth_cplxv, nth_tab by lia. cbn [nsub NumC]. rewrite <- RtoC_minus. f_equal. unfold aa0.
    f_equal. rewrite xg_0. apply RInt_Rplus0; ring. }
  assert (last B (RtoC 0) = RtoC bbk) as ->.
  { rewrite nth_last, LB. unfold B, vsub. rewrite nth_zipw with (dx := RtoC 0) (dy := RtoC 0) by (rewrite ?length_cplxv, ?length_tab; lia). rewrite !nth_cplxv, nth_tab by lia. cbn [nsub NumC]. rewrite <- RtoC_minus. f_equal. unfold bbk.
    f_equal. pose proof (xg_mid n Hn) as X. fold N in X. rewrite X. apply RInt_Rplus0; field. }
  assert (length (half_edge_base n) = n) as LH by apply length_tab.
  apply list_eq_nth with (d := RtoC 0); unfold vadd.
  - rewrite length_zipw, !map_length, rev_length, LH, length_cplxv, length_tab. lia.
  - rewrite length_zipw, !map_length, rev_length, LH. intros j Hj. assert (j < n)%nat as Hj' by lia.
    rewrite nth_zipw with (dx := RtoC 0) (dy := RtoC 0) by (rewrite map_length, ?rev_length, LH; lia). rewrite !nth_map_ with (d' := 0) by (rewrite ?rev_length, LH; lia).
    rewrite nth_cplxv, nth_tab by auto. rewrite <- Ef_vert, <- Ef_vert' by auto. cbn [nadd NumC]. rewrite <- !RtoC_mult, <- RtoC_plus. f_equal. ring.
Qed.
Definition Wf (q : R -> R) (t : R) : R := q t + aa0 * Ef t + bbk * Ef (PI - t).
Lemma Wf_cosp q : cosp (k - 2) q -> cosp k (Wf q).
Proof.
  intro Hq. apply (cosp_plus k (fun t => q t + aa0 * Ef t) (fun t => bbk * Ef (PI - t))).
  - apply cosp_plus; [apply (cosp_mono (k - 2)); [lia|auto]|]. apply cosp_scal, Ef_cosp.
  - apply cosp_scal. apply (cosp_refl k Ef), Ef_cosp.
Qed.
Lemma H1d_val q : cosp (k - 2) q -> (forall t, Bf t = sin t * q t) -> H1d_cheb f = Ok (tab n (fun j => Wf q (xg N j))).
Proof.
  intros Hq Eq. transitivity (Ok (realv (vadd (H1d_cheb_midpoints (PI / INR k) (cplxv f)) (H1d_cheb_endpoints (PI / INR k) (cplxv f))))).
  - unfold H1d_cheb. rewrite Lf. destruct n as [|[|m]]; [lia|lia|reflexivity].
  - pose proof (hstep_N n Hn) as E. fold N in E. rewrite <- E. rewrite (mid_val q) by auto. rewrite end_val. f_equal.
    unfold vadd, cplxv. rewrite !map_tab, zipw_tab. unfold realv. rewrite map_tab. apply tab_ext. intros j _. cbn [nadd NumC]. rewrite <- RtoC_plus, Re_RtoC. unfold Wf. ring.
Qed.
(** the function reconstructed from the dual edges: its sine-weighted integrals over the dual edges are f *)
Lemma Wf_cells q i : cosp (k - 2) q -> (forall t, Bf t = sin t * q t) -> (i < n)%nat -> cell_sin (Wf q) (tdual n i) (tdual n (S i)) = nth i f 0.
Proof.
  intros Hq Eq Hi. unfold cell_sin. set (a := tdual n i). set (b := tdual n (S i)).
  transitivity (RInt (fun t => Bf t + (aa0 * (Ef t * sin t) + bbk * (Ef (PI - t) * sin t))) a b).
  { apply RInt_ext. intros t _. change (Wf q t * sin t = Bf t + (aa0 * (Ef t * sin t) + bbk * (Ef (PI - t) * sin t))). unfold Wf. rewrite Eq. ring. }
  assert (forall t, continuous (fun t => Ef (PI - t) * sin t) t) as C2 by (intro t; apply (gs_cont (fun t => Ef (PI - t))); intro; apply (cosp_cont k), (cosp_refl k Ef), Ef_cosp).
  assert (forall (c : R) (g : R -> R) (t : R), continuous g t -> continuous (fun t => c * g t) t) as Cs by (intros c g t H; apply (continuous_scal_r c g t H)).
  rewrite (RInt_plus_R Bf (fun t => aa0 * (Ef t * sin t) + bbk * (Ef (PI - t) * sin t))).
  2:{ apply ex_RInt_cont_all. apply Bf_cont. }
  2:{ apply ex_RInt_cont_all. intro t. apply (continuous_plus (fun t => aa0 * (Ef t * sin t)) (fun t => bbk * (Ef (PI - t) * sin t))); [apply (Cs aa0 (fun t => Ef t * sin t)), Es_cont|apply (Cs bbk (fun t => Ef (PI - t) * sin t)), C2]. }
  rewrite (RInt_plus_R (fun t => aa0 * (Ef t * sin t)) (fun t => bbk * (Ef (PI - t) * sin t))).
  2:{ apply ex_RInt_cont_all. intro t. apply (Cs aa0 (fun t => Ef t * sin t)), Es_cont. }
  2:{ apply ex_RInt_cont_all. intro t. apply (Cs bbk (fun t => Ef (PI - t) * sin t)), C2. }
  rewrite (RInt_scal_R (fun t => Ef t * sin t)) by (apply ex_RInt_cont_all, Es_cont). rewrite (RInt_scal_R (fun t => Ef (PI - t) * sin t)) by (apply ex_RInt_cont_all, C2).
  fold (cell_sin Ef a b). fold (cell_sin (fun t => Ef (PI - t)) a b). rewrite RInt_Ef, RInt_Ef'. unfold a, b. rewrite !Gf_dual, !Gf_dual' by lia.
  change (Nat.eqb (S i) 0) with false. cbv iota. destruct (Nat.eqb_spec i n); [lia|].
  unfold tdual. fold N. change (Nat.eqb (S i) 0) with false. cbv iota. replace (S i - 1)%nat with i by lia.
  pose proof (xg_mid n Hn) as Xm. fold N in Xm.
  assert (forall j, (1 <= j)%nat -> xg N (j - 1) + h / 2 = xg N j - h / 2) as Xs by (intros j Hj; replace j with (S (j - 1)) at 2 by lia; rewrite xg_S; field).
  destruct (Nat.eqb_spec i 0) as [->|Hi0].
  - destruct (Nat.eqb_spec 1 n); [lia|]. rewrite xg_0, Rplus_0_l. unfold aa0. ring.
  - destruct (Nat.eqb_spec (S i) n) as [Sn|Sn].
    + destruct (Nat.eqb_spec i n); [lia|]. rewrite Xs by lia. replace i with k by lia. rewrite Xm. unfold bbk. ring.
    + destruct (Nat.eqb_spec i n); [lia|]. rewrite Xs by lia. rewrite Bf_cell by (unfold N; lia). rewrite nth_f0 by lia. destruct (Nat.eqb_spec i 0); [lia|]. destruct (Nat.eqb_spec i k); [lia|]. cbn [orb]. ring.
Qed.
End Cheb3.

Section Cheb3b.
Variable n : nat.
Hypothesis Hn : (2 <= n)%nat.
Let N := (2 * (n - 1))%nat.
Notation h := (hstep N).
Notation k := (n - 1)%nat.
Lemma cosp_g0 W f : cosp k W -> length f = n -> (forall j, (j < n)%nat -> nth j f 0 = W (xg N j)) -> forall t, W t = g0 f t.
Proof.
  intros HW L Hf t. destruct (cosp_poly _ _ HW) as (P & HP & E). rewrite E. apply (poly_g0 n Hn); auto. intros j Hj. fold N. rewrite <- E. auto.
Qed.
Theorem H0_H1d f : length f = n -> bind (H1d_cheb f) H0_cheb = Ok f.
Proof.
  intro L. destruct (Qf_ex n Hn f L) as (q & Hq & Eq). rewrite (H1d_val n Hn f L q) by auto. cbn [bind]. fold N.
  set (v := tab n (fun j => Wf n f q (xg N j))). assert (length v = n) as Lv by apply length_tab.
  rewrite (H0_val n Hn) by auto. f_equal. apply tab_nth; auto. intros i Hi. rewrite <- (Wf_cells n Hn f L q) by auto. unfold cell_sin. apply RInt_ext. intros t _. f_equal. symmetry.
  apply (cosp_g0 (Wf n f q) v); auto; [now apply Wf_cosp|]. intros j Hj. unfold v. rewrite nth_tab by auto. reflexivity.
Qed.
Theorem H1d_H0 f : length f = n -> bind (H0_cheb f) H1d_cheb = Ok f.
Proof.
  intro L. destruct (rlin_H1d_cheb n Hn) as (g1 & L1 & E1). destruct (rlin_H0_cheb n Hn) as (g0 & L0 & E0).
  rewrite E0 by auto. cbn [bind]. rewrite E1 by exact (lin_len _ _ _ _ L0 L). f_equal.
  apply (inv_swap_R n g1 g0); auto.
  - intros f' L'. exact (lin_len _ _ _ _ L0 L').
  - intros f' L'. pose proof (H0_H1d f' L') as H. rewrite E1 in H by auto. cbn [bind] in H. rewrite E0 in H by exact (lin_len _ _ _ _ L1 L'). now injection H.
Qed.
End Cheb3b.
