(** The deprecated Chebyshev Hodge stars. *)
From Coq Require Import ZArith Reals List Lia Lra Arith.
From Coq Require Import ZifyNat.
From Coquelicot Require Import Coquelicot.
From Verif Require Import Model.Num Model.Np Model.Spectral Model.Basis Model.Grids1 Model.Regular Model.Chebyshev Model.Deprecated Spec.Trig Spec.CInt Spec.Poly Proofs.ListLemmas Proofs.Sums
  Proofs.Fourier Proofs.RIntLemmas Proofs.Kernels Proofs.Trig Proofs.Ops Proofs.Exact Proofs.BasisP Proofs.Grids1P Proofs.GridsThm Proofs.RingSums Proofs.Mirror Proofs.Symm Proofs.RegularP Proofs.PeriodicBasis Proofs.RegularBasis
  Proofs.Lin Proofs.TableLin Proofs.LinAlg Proofs.FourierK Proofs.Cheb1 Proofs.ChebPoly Proofs.TrigAlg Proofs.Cheb2 Proofs.Cheb3 Proofs.ChebBasis Props.Fold.
Import ListNotations.
Local Open Scope R_scope.
Ltac Zify.zify_post_hook ::= Z.div_mod_to_equations.

(** closure of the interpolants *)
Lemma ti_ext N f g : (forall t, f t = g t) -> trig_interpolant N f -> trig_interpolant N g.
Proof. intros E (a & b & H & K). exists a, b. split; auto. intro. now rewrite <- E. Qed.
Lemma ti_plus N f g : trig_interpolant N f -> trig_interpolant N g -> trig_interpolant N (fun t => f t + g t).
Proof.
  intros (a & b & H & K) (a' & b' & H' & K'). exists (fun i => a i + a' i), (fun i => b i + b' i). split; [intro E; rewrite H, H' by auto; ring|].
  intro x. rewrite K, K'. unfold trig. transitivity (a 0%nat + a' 0%nat + (Rsum (N / 2) (fun k => a (S k) * cos (INR (S k) * x) + b (S k) * sin (INR (S k) * x)) + Rsum (N / 2) (fun k => a' (S k) * cos (INR (S k) * x) + b' (S k) * sin (INR (S k) * x)))); [ring|].
  rewrite <- Rsum_plus. f_equal. apply Rsum_ext. intros. ring.
Qed.
Lemma ti_scal N c f : trig_interpolant N f -> trig_interpolant N (fun t => c * f t).
Proof.
  intros (a & b & H & K). exists (fun i => c * a i), (fun i => c * b i). split; [intro E; rewrite H by auto; ring|].
  intro x. rewrite K. unfold trig. rewrite Rmult_plus_distr_l, <- Rsum_scal. f_equal. apply Rsum_ext. intros. ring.
Qed.
Lemma ti_zero N : trig_interpolant N (fun _ => 0).
Proof. exists (fun _ => 0), (fun _ => 0). split; auto. intro x. unfold trig. rewrite (Rsum_ext _ _ (fun _ => 0)) by (intros; ring). rewrite Rsum_zero. ring. Qed.
Lemma ti_Rsum N n (f : nat -> R -> R) : (forall i, (i < n)%nat -> trig_interpolant N (f i)) -> trig_interpolant N (fun t => Rsum n (fun i => f i t)).
Proof.
  induction n as [|n IH]; intro H; cbn [Rsum]; [apply ti_zero|]. apply ti_plus; [apply IH; intros; apply H; lia|apply H; lia].
Qed.

Section D1.
Variable n : nat.
Hypothesis Hn : (2 <= n)%nat.
Let N := (2 * (n - 1))%nat.
Notation h := (hstep N).
Notation k := (n - 1)%nat.
Let HN : (0 < N)%nat. Proof. unfold N; lia. Qed.
Let Ev : Nat.even N = true. Proof. apply Nat.even_spec. now exists k. Qed.
Let kh : INR k * h = PI. Proof. exact (cheb_kh n Hn). Qed.
Let N2 : (N / 2)%nat = k. Proof. unfold N; lia. Qed.

(** a cosine polynomial of degree k - 1 in t times sin t, sampled at the dual points t = s + h/2 *)
Lemma ti_sin l : (l <= k)%nat -> trig_interpolant N (fun s => sin (INR l * (s + h / 2))).
Proof.
  intro Hl. destruct (Nat.eq_dec l k) as [->|Hne].
  - apply (ti_ext _ (fun s => cos (INR k * s))); [|apply (cosp_interpolant N k); [unfold N; lia|apply cosp_cos; lia]].
    intro s. replace (INR k * (s + h / 2)) with (INR k * s + INR k * h / 2) by field. rewrite kh, sin_plus, sin_PI2, cos_PI2. ring.
  - apply (trig_degree_interpolant N l); [unfold N; lia|]. apply (td_ext _ _ (fun s => sin (INR l * s + INR l * (h / 2)))); [intro; f_equal; ring|]. apply td_sin_nat. lia.
Qed.
Lemma ti_cosp_sin q : cosp (k - 1) q -> trig_interpolant N (fun s => q (s + h / 2) * sin (s + h / 2)).
Proof.
  intros [a Hq]. apply (ti_ext _ (fun s => a 0%nat * sin (INR 1 * (s + h / 2)) + Rsum (k - 1) (fun m => a (S m) * / 2 * sin (INR (S (S m)) * (s + h / 2)) + (a (S m) * - / 2) * sin (INR m * (s + h / 2))))).
  - intro s. rewrite Hq, Rmult_plus_distr_r. f_equal; [cbn [INR]; now rewrite Rmult_1_l|]. rewrite Rmult_comm, <- Rsum_scal. apply Rsum_ext. intros m _. set (t := s + h / 2).
    replace (INR (S (S m)) * t) with (INR (S m) * t + t) by (rewrite (S_INR (S m)); ring). replace (INR m * t) with (INR (S m) * t - t) by (rewrite (S_INR m); ring).
    rewrite sin_plus, sin_minus. field.
  - apply ti_plus; [apply ti_scal, ti_sin; lia|]. apply ti_Rsum. intros m Hm. apply ti_plus; apply ti_scal, ti_sin; lia.
Qed.
Definition ww (f : list R) : list R := tab N (fun j => nth j (mirror1 1 f) 0 * sin (xg N j + h / 2)).
Lemma ww_interp f s : length f = k -> interp (ww f) s = g1 n f (s + h / 2) * sin (s + h / 2).
Proof.
  intro L. symmetry. assert (length (ww f) = N) as Lw by (unfold ww; apply length_tab).
  apply (interp_unique (ww f) (fun s => g1 n f (s + h / 2) * sin (s + h / 2))); [lia| |].
  - rewrite Lw. apply ti_cosp_sin. now apply g1_cosp.
  - intros j. rewrite Lw. intro Hj. unfold ww. rewrite nth_tab by auto. rewrite <- xg_eq by lia. f_equal. unfold g1. fold N. replace (xg N j + h / 2 - h / 2) with (xg N j) by ring.
    pose proof (interp_samples (mirror1 1 f)) as S. pose proof (len_m1 n 1 f L) as Lm. fold N in Lm. unfold samples in S. rewrite Lm in S. rewrite (S j Hj). f_equal. symmetry. apply xg_eq. lia.
Qed.
Lemma opH_ww f : length f = k -> opH (ww f) = tab N (zK n f).
Proof.
  intro L. assert (length (ww f) = N) as Lw by (unfold ww; apply length_tab). apply (list_eq_nth 0); [rewrite length_opH, length_tab; lia|]. rewrite length_opH, Lw by lia. intros j Hj.
  rewrite nth_opH, Lw, nth_tab by lia. unfold zK, cell_sin. fold N.
  rewrite (RInt_ext _ (fun s => (fun t => interp (mirror1 1 f) (t - h / 2) * sin t) (s + h / 2))) by (intros s _; rewrite ww_interp by auto; reflexivity).
  rewrite (RInt_shift (fun t => interp (mirror1 1 f) (t - h / 2) * sin t) (h / 2)).
  - f_equal; field.
  - intro t. apply (continuous_mult (fun t => interp (mirror1 1 f) (t - h / 2)) sin); [|apply continuous_derivable; auto_derive; auto].
    apply (continuous_comp (fun t => t - h / 2) (interp (mirror1 1 f))); [apply continuous_derivable; auto_derive; auto|apply interp_cont].
Qed.
Lemma ww_model f : length f = k -> vmul (cplxv (mirror1 1 f)) (cplxv (Omega_d N)) = cplxv (ww f).
Proof.
  intro L. pose proof (len_m1 n 1 f L) as Lm. fold N in Lm. apply list_eq_nth with (d := RtoC 0); unfold vmul; rewrite length_zipw, !length_cplxv; unfold Omega_d, ww; rewrite !length_tab, Lm; [lia|].
  intros j Hj. rewrite nth_zipw with (dx := RtoC 0) (dy := RtoC 0) by (rewrite length_cplxv, ?length_tab; lia). rewrite !nth_cplxv, !nth_tab by lia. cbn [nmul NumC]. rewrite <- RtoC_mult. do 3 f_equal. unfold xg. field.
Qed.
Lemma dep_H0d_val f : length f = k -> dep_H0d_cheb f = Ok (tab k (zK n f)).
Proof.
  intro L. pose proof (len_m1 n 1 f L) as Lm. fold N in Lm. unfold dep_H0d_cheb. rewrite (with_hN n Hn) by (now rewrite length_cplxv). fold N. rewrite length_cplxv, Lm, ww_model by auto.
  assert (length (ww f) = N) as Lw by (unfold ww; apply length_tab). pose proof (I_space_fm (cplxv (ww f))) as E. rewrite length_cplxv, Lw in E. cbv zeta in E. rewrite E by auto. pose proof (fm_dH_real (ww f)) as E'. rewrite Lw in E'. rewrite E' by auto.
  rewrite opH_ww by auto. cbn [bind]. f_equal. unfold unmirror1. rewrite length_cplxv, length_tab. rewrite N2.
  unfold cplxv. rewrite firstn_map, firstn_tab by (unfold N; lia). apply realv_cplxv.
Qed.
Lemma dep_H0d_same f : length f = k -> dep_H0d_cheb f = H0d_cheb f.
Proof. intro L. rewrite (H0d_val n Hn) by auto. now apply dep_H0d_val. Qed.
Lemma sin_half' j : sin (xg N j + h / 2) <> 0.
Proof. exact (sin_half n Hn (repeat 0 n) (repeat_length _ _) j). Qed.
Lemma dep_H1_H0d f : length f = k -> bind (dep_H0d_cheb f) dep_H1_cheb = Ok f.
Proof.
  intro L. pose proof (len_m1 n 1 f L) as Lm. fold N in Lm. rewrite dep_H0d_val by auto. cbn [bind]. unfold dep_H1_cheb. rewrite (cplxv_zK_mirror n Hn) by auto. fold N.
  rewrite (with_hN n Hn) by (now rewrite length_cplxv, length_tab). fold N. rewrite <- opH_ww by auto.
  assert (length (ww f) = N) as Lw by (unfold ww; apply length_tab). assert (length (opH (ww f)) = N) as Lo by (rewrite length_opH; lia).
  pose proof (I_space_inv_fm (cplxv (opH (ww f)))) as E. rewrite length_cplxv, Lo in E. cbv zeta in E. rewrite E by auto. pose proof (fm_dHi_real (opH (ww f))) as E'. rewrite Lo in E'. rewrite E' by auto.
  rewrite Hinv_H by lia. rewrite length_cplxv, Lo.
  assert (vdiv (cplxv (ww f)) (cplxv (Omega_d N)) = cplxv (mirror1 1 f)) as ->.
  { apply list_eq_nth with (d := RtoC 0); unfold vdiv; rewrite length_zipw, !length_cplxv; unfold Omega_d, ww; rewrite !length_tab, ?Lm; [lia|].
    intros j Hj. rewrite nth_zipw with (dx := RtoC 0) (dy := RtoC 0) by (rewrite length_cplxv, ?length_tab; lia). rewrite !nth_cplxv, !nth_tab by lia.
    replace ((INR j + / 2) * h) with (xg N j + h / 2) by (unfold xg; field). pose proof (sin_half' j) as S. rewrite <- RtoC_div by auto. apply f_equal. field. auto. }
  cbn [bind]. f_equal. unfold cplxv, unmirror1. rewrite map_length, firstn_map, Lm. fold (cplxv (firstn (N / 2) (mirror1 1 f))). rewrite realv_cplxv.
  pose proof (unmirror1_mirror1 1 f) as U. unfold unmirror1 in U. now rewrite Lm in U.
Qed.
(** the deprecated star agrees with the current one whenever the guard of the current one does not raise *)
Lemma dep_H1_same close f : kguard close N 0 h = false -> length f = k -> dep_H1_cheb f = H1_cheb close f.
Proof.
  intros G L. destruct (rlin_H1_cheb close k ltac:(lia) G) as (g1 & L1 & E1). pose proof (H0d_H1 n Hn close f G L) as E. rewrite E1 in * by auto. cbn [bind] in E.
  assert (length (g1 f) = k) as Lg by exact (lin_len _ _ _ _ L1 L). rewrite <- dep_H0d_same in E by auto. pose proof (dep_H1_H0d (g1 f) Lg) as E2. rewrite E in E2. exact E2.
Qed.
End D1.

(** ** complex trigonometric interpolants *)
Lemma ct_ext N f g : (forall t, f t = g t) -> ctrig_interpolant N f -> ctrig_interpolant N g.
Proof. intros E (c & H). exists c. intro. now rewrite <- E. Qed.
Lemma ct_plus N f g : ctrig_interpolant N f -> ctrig_interpolant N g -> ctrig_interpolant N (fun t => Cplus (f t) (g t)).
Proof.
  intros (c & H) (c' & H'). exists (fun i => Cplus (c i) (c' i)). intro x. rewrite H, H', <- Csum_plus. apply Csum_ext. intros. ring.
Qed.
Lemma ct_scal N s f : ctrig_interpolant N f -> ctrig_interpolant N (fun t => Cmult s (f t)).
Proof. intros (c & H). exists (fun i => Cmult s (c i)). intro x. rewrite H, <- Csum_scal. apply Csum_ext. intros. ring. Qed.
Lemma ct_zero N : ctrig_interpolant N (fun _ => RtoC 0).
Proof. exists (fun _ => RtoC 0). intro x. rewrite Csum_zero_ext; [reflexivity|]. intros. ring. Qed.
Lemma ct_Csum N n (f : nat -> R -> C) : (forall i, (i < n)%nat -> ctrig_interpolant N (f i)) -> ctrig_interpolant N (fun t => Csum n (fun i => f i t)).
Proof. induction n as [|n IH]; intro H; cbn [Csum]; [apply ct_zero|]. apply ct_plus; [apply IH; intros; apply H; lia|apply H; lia]. Qed.
Lemma ct_cis N z : (- Z.of_nat (N / 2) <= z < Z.of_nat N - Z.of_nat (N / 2))%Z -> ctrig_interpolant N (fun t => cis (IZR z * t)).
Proof.
  intro Hz. exists (fun i => if Nat.eqb i (Z.to_nat (z + Z.of_nat (N / 2))) then RtoC 1 else RtoC 0). intro x. set (p := Z.to_nat (z + Z.of_nat (N / 2))).
  rewrite (Csum_single N p); [|lia|intros i Hi Hne; destruct (Nat.eqb_spec i p); [lia|ring]]. rewrite Nat.eqb_refl. rewrite Cmult_1_l. unfold cis. replace (Z.of_nat p - Z.of_nat (N / 2))%Z with z by (unfold p; lia). reflexivity.
Qed.
Definition isin (t : R) : C := RtoC (sin t).
Lemma cis_sin z t : Cmult (cis (IZR z * t)) (isin t) = Cplus (Cmult (0, - / 2) (cis (IZR (z + 1) * t))) (Cmult (0, / 2) (cis (IZR (z - 1) * t))).
Proof.
  rewrite plus_IZR, minus_IZR. unfold cis, isin, RtoC, Cmult, Cplus. cbn [fst snd]. replace ((IZR z + 1) * t) with (IZR z * t + t) by ring. replace ((IZR z - 1) * t) with (IZR z * t - t) by ring.
  rewrite cos_plus, cos_minus, sin_plus, sin_minus. apply injective_projections; cbn [fst snd]; field.
Qed.
(** multiplying by the sine raises the degree by one *)
Lemma tpC_sin v M w : (0 < length v)%nat -> (length v + 2 <= M)%nat -> length w = M -> (forall j, (j < M)%nat -> nth j w (RtoC 0) = Cmult (tpC v (xg M j)) (isin (xg M j))) -> forall t, tpC w t = Cmult (tpC v t) (isin t).
Proof.
  intros Lv HM Lw H t. symmetry. apply (ctrig_coeffs w (fun t => Cmult (tpC v t) (isin t))); [lia| |].
  - rewrite Lw. set (N := length v) in *.
    apply (ct_ext _ (fun t => Csum N (fun i => Cmult (Cmult (RtoC (/ INR N)) (nth i (F v) (RtoC 0))) (Cplus (Cmult (0, - / 2) (cis (IZR (fz N i + 1) * t))) (Cmult (0, / 2) (cis (IZR (fz N i - 1) * t))))))).
    + intro x. unfold tpC. fold N. rewrite <- Cmult_assoc, <- Csum_scal_r, <- Csum_scal. apply Csum_ext. intros i Hi. rewrite <- cis_sin. ring.
    + apply ct_Csum. intros i Hi. apply ct_scal, ct_plus; apply ct_scal, ct_cis; unfold fz; lia.
  - intros j. rewrite Lw. intro Hj. rewrite H by auto. rewrite xg_eq by lia. reflexivity.
Qed.
Lemma length_I_space a b x : (0 < length x)%nat -> length (I_space a b x) = length x.
Proof. intro L. unfold I_space, I_diag, vmul. rewrite length_Finv, length_zipw, map_length, length_F, length_freq; lia. Qed.
(** I_space integrates the interpolant *)
Lemma tpC_I a b x t : (0 < length x)%nat -> is_CRInt (tpC x) (t + a) (t + b) (tpC (I_space a b x) t).
Proof.
  intro L. unfold tpC at 2. rewrite length_I_space by auto. unfold I_space. rewrite F_Finv. unfold I_diag. rewrite (vmul_F_diag x (fun n => I_entry n a b)) by auto. unfold tpC.
  apply is_CRInt_scal. apply is_CRInt_Csum. intros i Hi. rewrite nth_tab by auto. rewrite <- Cmult_assoc. apply is_CRInt_scal. apply is_CRInt_cis.
Qed.
Lemma tpC_at x j : (j < length x)%nat -> nth j x (RtoC 0) = tpC x (xg (length x) j).
Proof. intro Hj. rewrite xg_eq by lia. now apply tpC_samples. Qed.
Lemma Re_tpC v t : (0 < length v)%nat -> Re (tpC (cplxv v) t) = interp v t.
Proof. intro L. rewrite <- Re_of_coeffs by auto. unfold tpC, of_coeffs. now rewrite length_F. Qed.
Lemma Re_isin c t : Re (Cmult c (isin t)) = Re c * sin t.
Proof. destruct c as [x y]. unfold isin, RtoC, Cmult, Re. cbn [fst snd]. ring. Qed.

Section D2.
Variable n : nat.
Hypothesis Hn : (2 <= n)%nat.
Let N := (2 * (n - 1))%nat.
Notation h := (hstep N).
Notation k := (n - 1)%nat.
Let HN : (0 < N)%nat. Proof. unfold N; lia. Qed.
Variable f : list R.
Hypothesis Lf : length f = n.
Notation v := (cplxv (mirror0 1 f)).
Lemma L_v : length v = N.
Proof. rewrite length_cplxv. exact (len_m0 n Hn 1 f Lf). Qed.
(** the values of the interpolant of the mirrored array, multiplied by the sine, on a finer grid *)
Definition fine_sin (m : nat) : list C := vmul (E_space m v) (cplxv (Omega (length (E_space m v)))).
Lemma L_fine m : length (fine_sin m) = (N + 2 * m)%nat.
Proof. unfold fine_sin, vmul, Omega. rewrite length_zipw, length_cplxv, length_tab, length_E_space, L_v. lia. Qed.
Lemma fine_tpC m t : (1 <= m)%nat -> tpC (fine_sin m) t = Cmult (tpC v t) (isin t).
Proof.
  intro Hm. apply (tpC_sin v (N + 2 * m)); [rewrite L_v; exact HN|rewrite L_v; lia|apply L_fine|]. intros j Hj. unfold fine_sin, vmul. rewrite length_E_space, L_v.
  rewrite nth_zipw with (dx := RtoC 0) (dy := RtoC 0) by (rewrite ?length_cplxv, ?length_E_space, ?L_v; unfold Omega; rewrite ?length_tab; lia). rewrite nth_E_space by (rewrite L_v; auto). rewrite L_v, nth_cplxv. unfold Omega. rewrite nth_tab by auto. reflexivity.
Qed.
(** the integral of f times the sine over [t + a, t + b] *)
Lemma fine_I m a b t : (1 <= m)%nat -> Re (tpC (I_space a b (fine_sin m)) t) = cell_sin (g0 f) (t + a) (t + b).
Proof.
  intro Hm. pose proof (tpC_I a b (fine_sin m) t ltac:(rewrite L_fine; lia)) as K. rewrite <- (RInt_Re _ _ _ _ K). unfold cell_sin. apply RInt_ext. intros x _. rewrite fine_tpC, Re_isin by auto.
  rewrite Re_tpC by (rewrite <- length_cplxv, L_v; exact HN). reflexivity.
Qed.
Lemma map_removelast {A B} (g : A -> B) l : map g (removelast l) = removelast (map g l).
Proof. induction l as [|x [|y l] IH]; [reflexivity|reflexivity|]. change (removelast (x :: y :: l)) with (x :: removelast (y :: l)). cbn [map] in *. now rewrite IH. Qed.
Lemma map_inner' {A B} (g : A -> B) l : map g (inner l) = inner (map g l).
Proof. unfold inner. rewrite map_removelast. destruct l; reflexivity. Qed.
Lemma map_evens' {A B} (g : A -> B) (l : list A) : map g (evens l) = evens (map g l).
Proof. induction l as [|a|a b l IH] using list_ind2; [reflexivity|reflexivity|]. cbn [evens map]. now rewrite IH. Qed.
Lemma map_odds' {A B} (g : A -> B) (l : list A) : map g (odds l) = odds (map g l).
Proof. unfold odds. rewrite map_evens'. destruct l; reflexivity. Qed.
Lemma realv_vadd' x y : realv (vadd x y) = vadd (realv x) (realv y).
Proof. revert y. induction x as [|a x IH]; intros [|b y]; try reflexivity. unfold vadd, realv in *. cbn [zipw map]. f_equal. apply IH. Qed.
Lemma length_realv' x : length (realv x) = length x.
Proof. apply map_length. Qed.
Lemma realv_matA (a : list C) m : length a = (2 * m)%nat -> (1 <= m)%nat -> bind (matA a) (fun y => Ok (realv y)) = matA (realv a).
Proof.
  intros L Hm. destruct a as [|a0 a']; [cbn in L; lia|]. set (a := a0 :: a') in *. change (realv a) with (Re a0 :: realv a') at 1. unfold matA. unfold a at 1. change (Re a0 :: realv a') with (realv a).
  assert (length (inner a) = (2 * (m - 1))%nat) as Li by (rewrite length_inner; lia). assert (length (evens (inner a)) = (m - 1)%nat) as Le by (rewrite length_evens; lia). assert (length (odds (inner a)) = (m - 1)%nat) as Lo by (rewrite length_odds; lia).
  assert (inner (realv a) = realv (inner a)) as Ei by (symmetry; apply map_inner').
  assert (evens (realv (inner a)) = realv (evens (inner a))) as Ee by (symmetry; apply map_evens').
  assert (odds (realv (inner a)) = realv (odds (inner a))) as Eo by (symmetry; apply map_odds').
  rewrite Ei, Ee, Eo. unfold badd. rewrite !length_realv', Le, Lo, Nat.eqb_refl. cbn [bind]. f_equal. cbn [app]. unfold realv at 1. cbn [map]. f_equal. rewrite map_app. f_equal; [apply realv_vadd'|].
  cbn [realv map]. f_equal. unfold nzero, NumC, NumR. clear. unfold a. generalize a0. induction a' as [|b a' IH]; intro c; [reflexivity|]. cbn [last realv map] in *. destruct a'; [reflexivity|]. apply (IH b).
Qed.
Lemma cellS a b c : cell_sin (g0 f) a b + cell_sin (g0 f) b c = cell_sin (g0 f) a c.
Proof. unfold cell_sin. apply RInt_Chasles_cont. intro t. apply gs_cont. intro. apply g0_cont. Qed.
Lemma tdual_last : tdual n n = PI.
Proof. unfold tdual. destruct (Nat.eqb_spec n 0); [lia|]. now rewrite Nat.eqb_refl. Qed.
Lemma k_h : INR k * h = PI.
Proof. unfold hstep, N. rewrite mult_INR. change (INR 2) with 2. field. apply not_0_INR. lia. Qed.
Lemma h_dep : PI / INR k = h.
Proof. unfold hstep, N. rewrite mult_INR. change (INR 2) with 2. field. apply not_0_INR. lia. Qed.
Lemma xg_fine j : xg (N + 2 * k) j = INR j * (h / 2).
Proof. unfold xg, hstep. replace (N + 2 * k)%nat with (2 * N)%nat by (unfold N; lia). rewrite mult_INR. change (INR 2) with 2. field. apply not_0_INR. lia. Qed.
Lemma INR_2m1 j : (1 <= j)%nat -> INR (2 * j - 1) = 2 * INR j - 1.
Proof. intro H. rewrite minus_INR by lia. rewrite mult_INR. cbn [INR]. ring. Qed.
Lemma INR_2 j : INR (2 * j) = 2 * INR j.
Proof. rewrite mult_INR. cbn [INR]. ring. Qed.
Lemma tdual_0 : tdual n 0 = 0.
Proof. reflexivity. Qed.
Lemma dep_H0_val : dep_H0_cheb f = Ok (tab n (fun i => cell_sin (g0 f) (tdual n i) (tdual n (S i)))).
Proof.
  transitivity (bind (matA (unmirror1 (I_space 0 (PI / INR k / 2) (fine_sin k)))) (fun f => Ok (realv f))).
  { unfold dep_H0_cheb. rewrite Lf. destruct n as [|[|n']]; [lia|lia|reflexivity]. }
  rewrite h_dep.
  set (z := I_space 0 (h / 2) (fine_sin k)). assert (length z = (N + 2 * k)%nat) as Lz by (unfold z; rewrite length_I_space; rewrite L_fine; lia).
  assert (length (unmirror1 z) = (2 * k)%nat) as Lu by (unfold unmirror1; rewrite firstn_length, Lz; unfold N; lia).
  rewrite (realv_matA (unmirror1 z) k) by lia. destruct (C86_matA (realv (unmirror1 z)) k) as (y & -> & -> & _); [rewrite length_realv'; lia|lia|].
  f_equal. replace (k + 1)%nat with n by lia. apply tab_ext. intros i Hi.
  assert (forall j, (j < 2 * k)%nat -> nth j (realv (unmirror1 z)) 0 = cell_sin (g0 f) (INR j * (h / 2)) (INR (S j) * (h / 2))) as Ez.
  { intros j Hj. change 0 with (Re (RtoC 0)). unfold realv. rewrite map_nth. unfold unmirror1. rewrite nth_firstn_ by (rewrite Lz; unfold N; lia). rewrite tpC_at by (rewrite Lz; unfold N; lia). unfold z at 1. rewrite fine_I by lia. rewrite Lz, xg_fine. f_equal; [ring|]. rewrite S_INR. ring. }
  destruct (Nat.eqb_spec i 0) as [->|Hi0].
  - rewrite Ez by lia. unfold tdual at 1. cbn [Nat.eqb]. rewrite tdual_midS by lia. fold N. rewrite xg_0. f_equal; cbn [INR]; ring.
  - destruct (Nat.eqb_spec i k) as [->|Hik].
    + rewrite Ez by lia. replace (S k) with n by lia. rewrite tdual_last. rewrite tdual_mid by lia. replace (S (2 * k - 1)) with (2 * k)%nat by lia. unfold xg. f_equal; [rewrite INR_2m1 by lia; fold N; field|]. rewrite INR_2, <- k_h. field.
    + rewrite !Ez by lia. replace (S (2 * i - 1)) with (2 * i)%nat by lia. rewrite cellS. rewrite tdual_mid, tdual_midS by lia. fold N. unfold xg. rewrite S_INR. f_equal; [rewrite INR_2m1 by lia|rewrite INR_2]; field.
Qed.
Lemma dep_H0_same : dep_H0_cheb f = H0_cheb f.
Proof. rewrite (H0_val n Hn) by exact Lf. apply dep_H0_val. Qed.
(** the alternate formulation: two half cells *)
Lemma alternate_half a b : exists u, E_space_inv 1 (I_space a b (fine_sin 1)) = Ok u /\ length u = N /\ forall j, (j < N)%nat -> Re (nth j u (RtoC 0)) = cell_sin (g0 f) (xg N j + a) (xg N j + b).
Proof.
  assert (length (I_space a b (fine_sin 1)) = (N + 2)%nat) as L by (rewrite length_I_space; rewrite L_fine; lia).
  destruct (E_space_inv_ok 1 (I_space a b (fine_sin 1)) ltac:(lia) ltac:(rewrite L; unfold N; lia)) as (u & Eu & Lu & Hu). exists u. rewrite L in *. replace (N + 2 - 2 * 1)%nat with N in * by lia. split; [exact Eu|]. split; [exact Lu|].
  intros j Hj. rewrite Hu by auto. rewrite fine_I by lia. reflexivity.
Qed.
Lemma dep_H0_alternate_val : dep_H0_cheb_alternate f = Ok (tab n (fun i => cell_sin (g0 f) (tdual n i) (tdual n (S i)))).
Proof.
  unfold dep_H0_cheb_alternate. rewrite (with_hN n Hn) by (apply L_v). fold N. rewrite Lf. change (vmul (E_space 1 v) (cplxv (Omega (length (E_space 1 v))))) with (fine_sin 1).
  destruct (alternate_half (- h / 2) 0) as (l & -> & Ll & Hl). destruct (alternate_half 0 (h / 2)) as (r & -> & Lr & Hr). cbn [bind]. unfold set0. rewrite Ll, Lr.
  destruct (Nat.ltb_spec 0 N); [|lia]. destruct (Nat.ltb_spec k N); [|unfold N in *; lia]. cbn [bind]. f_equal. unfold unmirror0. set (l' := tab N _). set (r' := tab N _).
  assert (length (vadd l' r') = N) as Lv by (unfold vadd, l', r'; rewrite length_zipw, !length_tab; lia). rewrite Lv.
  apply (list_eq_nth 0). { rewrite length_realv', firstn_length, Lv, length_tab. unfold N. lia. }
  rewrite length_realv', firstn_length, Lv. intros i Hi. rewrite nth_tab by (unfold N in Hi; lia).
  change 0 with (Re (RtoC 0)) at 1. unfold realv. rewrite map_nth. rewrite nth_firstn_ by lia. unfold vadd. rewrite nth_zipw with (dx := RtoC 0) (dy := RtoC 0) by (unfold l', r'; rewrite ?length_tab; lia).
  unfold l', r'. rewrite !nth_tab by lia. change (nadd (?a : C) (?b : C)) with (Cplus a b).
  assert (forall a b, Re (Cplus a b) = Re a + Re b) as -> by (intros [] []; reflexivity).
  destruct (Nat.eqb_spec i 0) as [->|Hi0].
  - destruct (Nat.eqb_spec 0 k); [lia|]. rewrite Hr by lia. unfold tdual at 1. cbn [Nat.eqb]. rewrite tdual_midS by lia. fold N. rewrite xg_0. rewrite !Rplus_0_l. reflexivity.
  - rewrite Hl by lia. rewrite tdual_mid by (unfold N in Hi; lia). fold N. destruct (Nat.eqb_spec i k) as [->|Hik].
    + replace (S k) with n by lia. rewrite tdual_last. change (Re (RtoC 0)) with 0. rewrite Rplus_0_r. f_equal; [field|]. rewrite Rplus_0_r. unfold xg. apply k_h.
    + rewrite Hr by lia. rewrite tdual_midS by (unfold N in Hi; lia). fold N. rewrite Rplus_0_r. rewrite cellS. f_equal. field.
Qed.
Lemma dep_H0_alternate_same : dep_H0_cheb_alternate f = H0_cheb f.
Proof. rewrite (H0_val n Hn) by exact Lf. apply dep_H0_alternate_val. Qed.
Lemma dep_mid_eq h0 x : dep_H1d_midpoints h0 x = H1d_cheb_midpoints h0 x.
Proof. unfold dep_H1d_midpoints, H1d_cheb_midpoints. reflexivity. Qed.
Lemma dep_end_eq h0 x : dep_H1d_endpoints h0 x = H1d_cheb_endpoints h0 x.
Proof. unfold dep_H1d_endpoints, H1d_cheb_endpoints. reflexivity. Qed.
(** the deprecated dual star returns a complex array whose imaginary parts vanish *)
Lemma dep_H1d_same : exists g, H1d_cheb f = Ok g /\ dep_H1d_cheb f = Ok (cplxv g).
Proof.
  destruct (Qf_ex n Hn f Lf) as (q & Hq & Eq). exists (tab n (fun j => Wf n f q (xg N j))). split; [apply (H1d_val n Hn f Lf q); auto|].
  transitivity (Ok (vadd (H1d_cheb_midpoints (PI / INR k) (cplxv f)) (H1d_cheb_endpoints (PI / INR k) (cplxv f)))).
  - rewrite <- dep_mid_eq, <- dep_end_eq. unfold dep_H1d_cheb. rewrite Lf. destruct n as [|[|m]]; [lia|lia|reflexivity].
  - rewrite h_dep. unfold N. rewrite (mid_val n Hn f Lf q) by auto. rewrite (end_val n Hn f Lf). f_equal.
    unfold vadd, cplxv. rewrite !map_tab, zipw_tab. apply tab_ext. intros j _. cbn [nadd NumC]. rewrite <- RtoC_plus. f_equal. unfold Wf. ring.
Qed.
End D2.
