(** C84: shifting and integrating by arbitrary amounts, and their inverses (spectral.py, the fourier_* and *_space functions). *)
From Coq Require Import ZArith Reals List Lia Lra Arith.
From Coq Require Import ZifyNat.
From Coquelicot Require Import Coquelicot.
From Verif Require Import Model.Num Model.Np Model.Spectral Spec.Trig Spec.CInt Proofs.ListLemmas Proofs.Sums Proofs.Fourier Proofs.Kernels Proofs.Trig Proofs.Ops
  Proofs.FourierK Props.Spectral Props.FourierK.
Import ListNotations.
Local Open Scope R_scope.
Ltac Zify.zify_post_hook ::= Z.div_mod_to_equations.

Lemma xj_xg N j : 2 * PI * INR j / INR N = xg N j.
Proof. unfold xg, hstep, Rdiv. ring. Qed.
Lemma vmul_diag_tab (x : list C) (D : Z -> C) : (0 < length x)%nat -> vmul x (map D (freq (length x))) = tab (length x) (fun i => Cmult (nth i x (RtoC 0)) (D (fz (length x) i))).
Proof.
  intro HN. rewrite map_freq_tab by auto. rewrite (list_tab (RtoC 0) x) at 1. unfold vmul. rewrite zipw_tab. reflexivity.
Qed.
Lemma vdiv_diag_tab (x : list C) (D : Z -> C) : (0 < length x)%nat -> vdiv x (map D (freq (length x))) = tab (length x) (fun i => Cmult (nth i x (RtoC 0)) (Cinv (D (fz (length x) i)))).
Proof.
  intro HN. rewrite map_freq_tab by auto. rewrite (list_tab (RtoC 0) x) at 1. unfold vdiv. rewrite zipw_tab. reflexivity.
Qed.
Lemma of_coeffs_diag (x : list C) (D : Z -> C) (t : R) : (0 < length x)%nat ->
  of_coeffs (tab (length x) (fun i => Cmult (nth i x (RtoC 0)) (D (fz (length x) i)))) t =
  Cmult (RtoC (/ INR (length x))) (Csum (length x) (fun i => Cmult (nth i x (RtoC 0)) (Cmult (D (fz (length x) i)) (cis (IZR (fz (length x) i) * t))))).
Proof.
  intro HN. unfold of_coeffs. rewrite length_tab. f_equal. apply Csum_ext. intros i Hi. rewrite nth_tab by auto. unfold cis, fz. ring.
Qed.
Lemma cis_eq u v : cis u = cis v <-> exists k : Z, u - v = 2 * PI * IZR k.
Proof.
  split.
  - intro E. assert (cos u = cos v) as E1 by exact (f_equal fst E). assert (sin u = sin v) as E2 by exact (f_equal snd E).
    assert (sin ((u - v) / 2) = 0) as Z.
    { pose proof (form2 u v) as F2. pose proof (form4 u v) as F4. rewrite E1 in F2. rewrite E2 in F4.
      pose proof (sin2_cos2 ((u + v) / 2)) as P. unfold Rsqr in P. nra. }
    apply sin_eq_0_0 in Z as [k Ek]. exists k. lra.
  - intros [k Ek]. replace u with (v + 2 * IZR k * PI) by lra. unfold cis. f_equal; [apply cos_period_Z|apply sin_period_Z].
Qed.
Lemma Cdiv_mul (u d : C) : d <> RtoC 0 -> Cmult (Cdiv u d) d = u.
Proof. intro H. field. exact H. Qed.
Lemma I_entry_zero n a b : I_entry n a b = RtoC 0 <-> (if Z.eqb n 0 then a = b else exists k : Z, IZR n * (b - a) = 2 * PI * IZR k).
Proof.
  unfold I_entry. destruct (Z.eqb_spec n 0) as [->|Hn].
  - split; intro E; [apply (f_equal fst) in E; cbn in E; lra|subst; unfold RtoC; f_equal; lra].
  - assert (IZR n <> 0) by (intro; apply Hn; now apply eq_IZR). assert (Cmult Ci (RtoC (IZR n)) <> RtoC 0) as D0.
    { intro E. apply (f_equal snd) in E. cbn in E. lra. }
    replace (IZR n * (b - a)) with (IZR n * b - IZR n * a) by ring. rewrite <- cis_eq.
    split; intro E.
    + assert (Cminus (cis (IZR n * b)) (cis (IZR n * a)) = RtoC 0) as Z.
      { rewrite <- (Cdiv_mul (Cminus (cis (IZR n * b)) (cis (IZR n * a))) (Cmult Ci (RtoC (IZR n)))) by exact D0.
        rewrite E. ring. }
      replace (cis (IZR n * b)) with (Cplus (Cminus (cis (IZR n * b)) (cis (IZR n * a))) (cis (IZR n * a))) by ring. rewrite Z. ring.
    + rewrite E. unfold Cdiv. ring.
Qed.

(** The points of the periodic grid with N points *)
Definition pt (N j : nat) : R := 2 * PI * INR j / INR N.

(** Fourier coefficients y stand for the trigonometric polynomial of_coeffs y, whose samples are Finv y; an array f
    of samples has the coefficients F f.  fourier_S and fourier_T shift it by any amount, S_space, T_space do so from
    samples to samples *)
Theorem C84_shift (y : list C) (s : R) (j : nat) : (j < length y)%nat -> let N := length y in
  nth j (Finv y) (RtoC 0) = of_coeffs y (pt N j) /\
  (forall t, of_coeffs (fourier_S y s) t = of_coeffs y (t + s)) /\
  (forall t, of_coeffs (fourier_T y s) t = of_coeffs y (t + s)) /\
  (forall t, of_coeffs (fourier_S_inv y s) t = of_coeffs y (t - s)) /\
  length (fourier_S y s) = N /\ length (fourier_T y s) = N /\ length (fourier_S_inv y s) = N.
Proof.
  intros Hj N. assert (0 < N)%nat as HN by (unfold N; lia).
  assert (forall s t, of_coeffs (vmul y (S_diag (length y) s)) t = of_coeffs y (t + s)) as A.
  { intros r t. unfold S_diag. rewrite (vmul_diag_tab y (fun n => cis (IZR n * r))) by auto. rewrite (of_coeffs_diag y (fun n => cis (IZR n * r))) by auto.
    unfold of_coeffs. f_equal. apply Csum_ext. intros i Hi. f_equal. fold (fz (length y) i). change (Cmult (cis (IZR (fz (length y) i) * r)) (cis (IZR (fz (length y) i) * t)) = cis (IZR (fz (length y) i) * (t + r))).
    rewrite <- cis_plus. f_equal. ring. }
  assert (forall s, length (vmul y (S_diag (length y) s)) = N) as B by (intro r; unfold vmul, S_diag; rewrite length_zipw, map_length, length_freq by auto; apply Nat.min_id).
  split; [|split; [|split; [|split; [|split; [|split]]]]]; try apply A; try apply B.
  - unfold pt. rewrite xj_xg. unfold N. rewrite nth_Finv by auto. reflexivity.
Qed.
Lemma len_S_diag N s : (0 < N)%nat -> length (S_diag N s) = N.
Proof. intro. unfold S_diag. rewrite map_length. now apply length_freq. Qed.
Theorem C84_shift_samples (f : list C) (s : R) (j : nat) : (j < length f)%nat -> let N := length f in let q := of_coeffs (F f) in
  ctrig_interpolant N q /\ csamples f q /\ (forall q', ctrig_interpolant N q' -> csamples f q' -> forall t, q' t = q t) /\
  nth j (S_space s f) (RtoC 0) = q (pt N j + s) /\ nth j (T_space s f) (RtoC 0) = q (pt N j + s) /\
  nth j (S_space_inv s f) (RtoC 0) = q (pt N j - s) /\ nth j (T_space_inv s f) (RtoC 0) = q (pt N j - s) /\
  S_space s f = method_in_fourier_space (fun y => fourier_S y s) f /\
  length (S_space s f) = N /\ length (T_space s f) = N /\ length (S_space_inv s f) = N /\ length (T_space_inv s f) = N.
Proof.
  intros Hj N q. assert (0 < N)%nat as HN by (unfold N; lia).
  assert (forall s, nth j (Finv (vmul (F f) (S_diag (length f) s))) (RtoC 0) = q (pt N j + s)) as A.
  { intro r. assert (j < length (fourier_S (F f) r))%nat as L by (unfold fourier_S, vmul; rewrite length_zipw, length_F, len_S_diag by auto; rewrite Nat.min_id; auto).
    pose proof (C84_shift (F f) r j ltac:(rewrite length_F; auto)) as (_ & E & _ & _ & L1 & _).
    destruct (C84_shift (fourier_S (F f) r) 0 j L) as (E2 & _). unfold fourier_S in E2 at 1. rewrite length_F in E2. etransitivity; [exact E2|].
    rewrite E, L1, length_F. reflexivity. }
  assert (forall s, vdiv (F f) (S_diag (length f) s) = vmul (F f) (S_diag (length f) (- s))) as V.
  { intro r. unfold S_diag. rewrite <- (length_F f). rewrite vdiv_diag_tab, vmul_diag_tab by (rewrite length_F; auto). apply tab_ext. intros i Hi. f_equal.
    assert (cis (IZR (fz (length (F f)) i) * r) <> RtoC 0) as NZ.
    { intro E. pose proof (sin2_cos2 (IZR (fz (length (F f)) i) * r)) as P. unfold Rsqr in P. pose proof (f_equal fst E). pose proof (f_equal snd E). cbn in *. nra. }
    assert (Cmult (cis (IZR (fz (length (F f)) i) * r)) (cis (IZR (fz (length (F f)) i) * - r)) = RtoC 1) as P1.
    { rewrite <- cis_plus. replace (IZR (fz (length (F f)) i) * r + IZR (fz (length (F f)) i) * - r) with 0 by ring. unfold cis. rewrite cos_0, sin_0. reflexivity. }
    replace (cis (IZR (fz (length (F f)) i) * - r)) with (Cdiv (Cmult (cis (IZR (fz (length (F f)) i) * r)) (cis (IZR (fz (length (F f)) i) * - r))) (cis (IZR (fz (length (F f)) i) * r))) by (field; auto).
    rewrite P1. field. auto. }
  assert (forall s, length (Finv (vmul (F f) (S_diag (length f) s))) = N) as B by (intro r; unfold vmul; rewrite length_Finv, length_zipw, length_F, len_S_diag by auto; apply Nat.min_id).
  assert (csamples f q) as CS.
  { intros i Hi. destruct (C84_shift (F f) 0 i ltac:(rewrite length_F; auto)) as (E & _). rewrite Finv_F, length_F in E. exact E. }
  unfold S_space, T_space, S_space_inv, T_space_inv, method_in_fourier_space, fourier_S. rewrite !V.
  split; [|split; [exact CS|split]].
  - exists (fun i => Cmult (RtoC (/ INR N)) (nth i (F f) (RtoC 0))). intro x. unfold q, of_coeffs. rewrite length_F. fold N. rewrite <- Csum_scal. apply Csum_ext. intros. ring.
  - intros q' [c Hc] Hs t.
    assert (f = Finv (tab N (fun i => Cmult (RtoC (INR N)) (c i)))) as Ef.
    { apply (nth_ext _ _ (RtoC 0) (RtoC 0)); [now rewrite length_Finv, length_tab|]. intros i Hi. rewrite Hs, Hc by auto. rewrite nth_Finv by (rewrite length_tab; auto). rewrite length_tab.
      fold N. rewrite <- Csum_scal. apply Csum_ext. intros k Hk. rewrite nth_tab by auto. rewrite xj_xg. unfold cis, fz. assert (RtoC (INR N) <> RtoC 0) by (intro E0; apply RtoC_inj in E0; revert E0; apply INR_neq0; auto).
      rewrite RtoC_inv by (apply INR_neq0; auto). field; auto. }
    unfold q, of_coeffs. rewrite length_F. fold N. rewrite Ef, F_Finv. rewrite Hc. rewrite <- Csum_scal. apply Csum_ext. intros k Hk. rewrite nth_tab by auto.
    assert (RtoC (INR N) <> RtoC 0) by (intro E0; apply RtoC_inj in E0; revert E0; apply INR_neq0; auto). rewrite RtoC_inv by (apply INR_neq0; auto). field; auto.
  - rewrite !A, !B, length_F. repeat (split; [reflexivity|]). split; reflexivity.
Qed.
Lemma vmul_fm_S s f : (0 < length f)%nat -> S_space s f = fm (dS s) f.
Proof. intro HN. unfold S_space, S_diag. now apply (vmul_F_fm f (dS s)). Qed.
Lemma vdiv_fm_S s f : (0 < length f)%nat -> S_space_inv s f = fm (dS (- s)) f.
Proof.
  intro HN. unfold S_space_inv, S_diag. change (fun n => cis (IZR n * s)) with (dS s). rewrite (vdiv_F_fm f (dS s)) by auto. apply fm_ext. intros n _.
  assert (dS s n <> RtoC 0) as NZ.
  { unfold dS. intro E. pose proof (sin2_cos2 (IZR n * s)) as P. unfold Rsqr in P. pose proof (f_equal fst E). pose proof (f_equal snd E). cbn in *. nra. }
  assert (Cmult (dS s n) (dS (- s) n) = RtoC 1) as P1 by (rewrite dS_mult; replace (s + - s) with 0 by ring; apply dS_0).
  rewrite <- (Cdiv_mul (dS (- s) n) (dS s n)) by auto. replace (Cmult (Cdiv (dS (- s) n) (dS s n)) (dS s n)) with (Cdiv (Cmult (dS s n) (dS (- s) n)) (dS s n)) by (unfold Cdiv; ring). rewrite P1. unfold Cdiv. ring.
Qed.
Lemma fm_dS_add s r f : fm (dS s) (fm (dS r) f) = fm (dS (s + r)) f.
Proof. rewrite fm_fm. apply fm_ext. intros. rewrite dS_mult. f_equal. ring. Qed.
Lemma fm_dS_0 f : fm (dS 0) f = f.
Proof. transitivity (fm (fun _ => RtoC 1) f); [apply fm_ext; intros; apply dS_0|apply fm_1]. Qed.
Lemma S_diag_dS N s : S_diag N s = map (dS s) (freq N).
Proof. reflexivity. Qed.
Lemma len_vmul_S f s : (0 < length f)%nat -> length (vmul f (S_diag (length f) s)) = length f.
Proof. intro. unfold vmul. rewrite length_zipw, len_S_diag by auto. apply Nat.min_id. Qed.
Lemma fourier_S_add f s r : (0 < length f)%nat -> fourier_S (fourier_S f s) r = fourier_S f (s + r).
Proof.
  intro HN. unfold fourier_S at 1. unfold fourier_S at 2. rewrite (len_vmul_S f s) by auto. unfold fourier_S. rewrite !S_diag_dS.
  rewrite (vmul_diag_tab f (dS s)), (vmul_diag_tab f (dS (s + r))) by auto.
  set (w := tab _ (fun i => Cmult (nth i f (RtoC 0)) (dS s (fz (length f) i)))). assert (length w = length f) as Lw by (unfold w; now rewrite length_tab). rewrite <- Lw at 1. rewrite (vmul_diag_tab w (dS r)) by lia. rewrite Lw. apply tab_ext. intros i Hi.
  unfold w. rewrite nth_tab by auto. rewrite <- dS_mult. ring.
Qed.
Lemma fourier_S_0 f : (0 < length f)%nat -> fourier_S f 0 = f.
Proof.
  intro HN. unfold fourier_S. rewrite S_diag_dS, (vmul_diag_tab f (dS 0)) by auto. etransitivity; [|symmetry; exact (list_tab (RtoC 0) f)]. apply tab_ext. intros. rewrite dS_0. ring.
Qed.
Lemma fourier_S_inv_S f s : fourier_S_inv f s = fourier_S f (- s).
Proof. reflexivity. Qed.
Lemma S_space_round f s : (0 < length f)%nat -> S_space_inv s (S_space s f) = f /\ S_space s (S_space_inv s f) = f.
Proof.
  intro HN. rewrite (vmul_fm_S s f), (vdiv_fm_S s f) by auto. rewrite vmul_fm_S, vdiv_fm_S by (rewrite length_fm; auto). rewrite !fm_dS_add.
  replace (- s + s) with 0 by ring. replace (s + - s) with 0 by ring. split; apply fm_dS_0.
Qed.
Lemma T_space_S s f : T_space s f = S_space s f. Proof. reflexivity. Qed.
Lemma T_space_inv_S s f : T_space_inv s f = S_space_inv s f. Proof. reflexivity. Qed.
(** Shifts compose, a shift by 0 is the identity, and the inverses are inverses.  No coefficient is lost, even for even N
    (unlike S and Sinv, which keep only the real parts: C11) *)
Theorem C84_shift_group (f : list C) (s r : R) : (0 < length f)%nat ->
  S_space s (S_space r f) = S_space (s + r) f /\ S_space 0 f = f /\
  S_space_inv s (S_space s f) = f /\ S_space s (S_space_inv s f) = f /\
  T_space_inv s (T_space s f) = f /\ T_space s (T_space_inv s f) = f /\
  fourier_S_inv (fourier_S f s) s = f /\ fourier_S (fourier_S_inv f s) s = f.
Proof.
  intro HN. destruct (S_space_round f s HN) as [R1 R2]. split; [|split; [|split; [exact R1|split; [exact R2|split; [|split; [|split]]]]]].
  - rewrite (vmul_fm_S r f), (vmul_fm_S (s + r) f), vmul_fm_S by (rewrite ?length_fm; auto). apply fm_dS_add.
  - rewrite vmul_fm_S by auto. apply fm_dS_0.
  - now rewrite T_space_S, T_space_inv_S.
  - now rewrite T_space_inv_S, T_space_S.
  - rewrite fourier_S_inv_S, fourier_S_add by auto. replace (s + - s) with 0 by ring. now apply fourier_S_0.
  - rewrite fourier_S_inv_S, fourier_S_add by auto. replace (- s + s) with 0 by ring. now apply fourier_S_0.
Qed.

(** Integration over [t + a, t + b] for every a, b: fourier_I on coefficients, I_space and I on samples *)
Theorem C84_integrate (y : list C) (a b : R) : (0 < length y)%nat ->
  length (fourier_I y a b) = length y /\
  (forall t, is_CRInt (of_coeffs y) (t + a) (t + b) (of_coeffs (fourier_I y a b) t)) /\
  Finv (fourier_I y a b) = I_space a b (Finv y) /\ Finv (fourier_I y a b) = opI (Finv y) a b /\
  Finv (fourier_I y a b) = method_in_fourier_space (fun x => fourier_I x a b) (Finv y).
Proof.
  intro HN. assert (length (fourier_I y a b) = length y) as L by (unfold fourier_I, vmul, I_diag; rewrite length_zipw, map_length, length_freq by auto; apply Nat.min_id).
  split; [exact L|]. split; [|split; [|split]].
  - intro t. unfold fourier_I, I_diag. rewrite (vmul_diag_tab y (fun n => I_entry n a b)) by auto. rewrite (of_coeffs_diag y (fun n => I_entry n a b)) by auto.
    apply (is_CRInt_ext (fun u => Cmult (RtoC (/ INR (length y))) (Csum (length y) (fun i => Cmult (nth i y (RtoC 0)) (cis (IZR (fz (length y) i) * u)))))); [reflexivity|].
    apply is_CRInt_scal. apply is_CRInt_Csum. intros i Hi. apply is_CRInt_scal. apply is_CRInt_cis.
  - unfold I_space, fourier_I. now rewrite F_Finv, length_Finv.
  - rewrite opI_fm by (now rewrite length_Finv). rewrite <- vmul_F_fm by (now rewrite length_Finv). now rewrite F_Finv, length_Finv.
  - unfold method_in_fourier_space. now rewrite F_Finv.
Qed.

(** Integration over a window of width b - a loses no information exactly when no oscillation exp(1j*n*t) of the grid
    has a whole number of periods in the window; then the inverses invert *)
Definition no_whole_period (N : nat) (w : R) : Prop :=
  w <> 0 /\ forall n k : Z, n <> 0%Z -> (- Z.of_nat (N / 2) <= n <= Z.of_nat ((N - 1) / 2))%Z -> IZR n * w <> 2 * PI * IZR k.
Lemma no_whole_period_spec N a b : (0 < N)%nat -> (no_whole_period N (b - a) <-> forall n, in_freq N n -> I_entry n a b <> RtoC 0).
Proof.
  intro HN. split.
  - intros [W O] n Hn E. apply (I_entry_zero n a b) in E. destruct (Z.eqb_spec n 0) as [->|Hz]; [lra|]. destruct E as [k Ek]. apply (O n k); auto. unfold in_freq in Hn. lia.
  - intro A. split.
    + intro W. apply (A 0%Z); [unfold in_freq; lia|]. apply I_entry_zero. cbn. lra.
    + intros n k Hn Hr E. apply (A n); [unfold in_freq; lia|]. apply I_entry_zero. destruct (Z.eqb_spec n 0); [contradiction|]. now exists k.
Qed.
Theorem C84_integration_inverse (f : list C) (a b : R) : (0 < length f)%nat -> no_whole_period (length f) (b - a) ->
  fourier_I_inv (fourier_I f a b) a b = f /\ fourier_I (fourier_I_inv f a b) a b = f /\
  opIinv (opI f a b) a b = f /\ opI (opIinv f a b) a b = f /\
  I_space_inv a b (I_space a b f) = f /\ I_space a b (I_space_inv a b f) = f.
Proof.
  intros HN W. assert (forall n, in_freq (length f) n -> I_entry n a b <> RtoC 0) as NZ by now apply no_whole_period_spec.
  assert (forall D E : Z -> C, (forall n, in_freq (length f) n -> Cmult (D n) (E n) = RtoC 1) -> forall w, w = tab (length f) (fun i => Cmult (nth i f (RtoC 0)) (D (fz (length f) i))) ->
     tab (length f) (fun i => Cmult (nth i w (RtoC 0)) (E (fz (length f) i))) = f) as V.
  { intros D E DE w ->. etransitivity; [|symmetry; exact (list_tab (RtoC 0) f)]. apply tab_ext. intros i Hi. rewrite nth_tab by auto. replace (Cmult (Cmult (nth i f (RtoC 0)) (D (fz (length f) i))) (E (fz (length f) i))) with (Cmult (nth i f (RtoC 0)) (Cmult (D (fz (length f) i)) (E (fz (length f) i)))) by ring.
    rewrite DE by now apply fz_in. ring. }
  assert (forall n, in_freq (length f) n -> Cmult (I_entry n a b) (Cinv (I_entry n a b)) = RtoC 1) as M1 by (intros n Hn; apply Cinv_r; auto).
  assert (forall n, in_freq (length f) n -> Cmult (Cinv (I_entry n a b)) (I_entry n a b) = RtoC 1) as M2 by (intros n Hn; apply Cinv_l; auto).
  split; [|split; [|split; [now apply Iinv_I|split; [now apply I_Iinv|]]]].
  - unfold fourier_I_inv, fourier_I, I_diag. rewrite (vmul_diag_tab f (fun n => I_entry n a b)) by auto. set (w := tab _ _). assert (length w = length f) as Lw by (unfold w; now rewrite length_tab).
    rewrite (vdiv_diag_tab w (fun n => I_entry n a b)) by lia. rewrite Lw. apply (V _ (fun n => Cinv (I_entry n a b)) M1 w). reflexivity.
  - unfold fourier_I_inv, fourier_I, I_diag. rewrite (vdiv_diag_tab f (fun n => I_entry n a b)) by auto. set (w := tab _ _). assert (length w = length f) as Lw by (unfold w; now rewrite length_tab).
    rewrite (vmul_diag_tab w (fun n => I_entry n a b)) by lia. rewrite Lw. apply (V (fun n => Cinv (I_entry n a b)) (fun n => I_entry n a b) M2 w). reflexivity.
  - unfold I_space_inv, I_space, I_diag. change (fun n => I_entry n a b) with (dI a b). rewrite (vmul_F_fm f (dI a b)), (vdiv_F_fm f (dI a b)) by auto.
    rewrite (vmul_F_fm _ (dI a b)), (vdiv_F_fm _ (dI a b)) by (rewrite length_fm; auto). rewrite !fm_fm. rewrite <- (fm_1 f) at 2 4. split; apply fm_ext; intros n Hn; unfold dI; auto.
Qed.
(** otherwise two different arrays have the same integrals, so there is no inverse *)
Theorem C84_integration_singular (N : nat) (a b : R) : (0 < N)%nat -> ~ no_whole_period N (b - a) ->
  exists f g, length f = N /\ length g = N /\ f <> g /\ fourier_I f a b = fourier_I g a b /\ I_space a b (Finv f) = I_space a b (Finv g) /\ Finv f <> Finv g.
Proof.
  intros HN W. rewrite no_whole_period_spec in W by auto.
  assert (exists n, in_freq N n /\ I_entry n a b = RtoC 0) as (n & Hn & E).
  { destruct (Classical_Prop.classic (exists n, in_freq N n /\ I_entry n a b = RtoC 0)) as [X|X]; [exact X|]. exfalso. apply W. intros n Hn E. apply X. now exists n. }
  destruct (in_fz N n Hn) as (i & Hi & Ei).
  set (f := tab N (fun k => if Nat.eqb k i then RtoC 1 else RtoC 0)). set (g := tab N (fun _ => RtoC 0)).
  assert (length f = N) as Lf by apply length_tab. assert (length g = N) as Lg by apply length_tab.
  assert (f <> g) as NE.
  { intro X. apply (f_equal (fun l => nth i l (RtoC 0))) in X. unfold f, g in X. rewrite !nth_tab, Nat.eqb_refl in X by auto. apply RtoC_inj in X. lra. }
  assert (fourier_I f a b = fourier_I g a b) as EI.
  { unfold fourier_I, I_diag. rewrite (vmul_diag_tab f (fun n => I_entry n a b)), (vmul_diag_tab g (fun n => I_entry n a b)) by (rewrite ?Lf, ?Lg; auto). rewrite Lf, Lg. apply tab_ext. intros k Hk.
    unfold f, g. rewrite !nth_tab by auto. destruct (Nat.eqb_spec k i) as [->|]; [|reflexivity]. rewrite Ei, E. ring. }
  exists f, g. split; [exact Lf|]. split; [exact Lg|]. split; [exact NE|]. split; [exact EI|]. split.
  - unfold I_space. rewrite !F_Finv, !length_Finv. unfold fourier_I in EI. now rewrite EI.
  - intro X. apply NE. rewrite <- (F_Finv f), <- (F_Finv g). now rewrite X.
Qed.

(** Integration against sine from samples to samples: K_space(a, b) gives the integrals of q(t) sin(t), with q the
    interpolant of the samples, over [x_j + a, x_j + b]; K_space_inv inverts it under the hypotheses of C25 *)
Theorem C84_sine (f : list C) (a b : R) (j : nat) : (j < length f)%nat -> let N := length f in
  length (K_space a b f) = N /\
  K_space a b f = method_in_fourier_space (fun y => fourier_K y a b) f /\
  is_CRInt (fun t => Cmult (of_coeffs (F f) t) (RtoC (sin t))) (pt N j + a) (pt N j + b) (nth j (K_space a b f) (RtoC 0)).
Proof.
  intros Hj N. split; [unfold K_space; now rewrite length_Finv, length_fourier_K, length_F|]. split; [reflexivity|].
  destruct (C24_K_integrates_against_sine (F f) a b j ltac:(rewrite length_F; auto)) as [_ E]. rewrite length_F in E. exact E.
Qed.
Theorem C84_sine_inverse (close : C -> C -> bool) (a b : R) (f : list C) : let N := length f in (1 <= N)%nat ->
  (forall z, close z z = true) ->
  (forall n, (- Z.of_nat (N / 2) <= n <= Z.of_nat ((N - 1) / 2))%Z -> mom n a b <> RtoC 0) ->
  (Nat.even N = false -> mom (- Z.of_nat ((N + 1) / 2)) a b <> RtoC 0 /\ mom (Z.of_nat ((N + 1) / 2)) a b <> RtoC 0) ->
  ~ singular close N a b ->
  K_space_inv close a b (K_space a b f) = Ok f /\
  exists g, K_space_inv close a b f = Ok g /\ length g = N /\ K_space a b g = f.
Proof.
  intros N HN Hr Hin Hod NS. destruct (C25_K_inv_inverts_K close N a b HN Hr Hin Hod NS (F f) (length_F f)) as ((y & E1 & L & E2) & E3).
  unfold K_space_inv, K_space. rewrite F_Finv, E3. cbn [bind]. rewrite Finv_F. split; [reflexivity|].
  exists (Finv y). rewrite E1, F_Finv, E2, Finv_F, length_Finv. auto.
Qed.
Theorem C84_sine_raises (close : C -> C -> bool) (a b : R) (f : list C) : (1 <= length f)%nat ->
  singular close (length f) a b -> K_space_inv close a b f = Err ValueError.
Proof.
  intros HN S. unfold K_space_inv. rewrite <- (length_F f) in HN, S. destruct (C25_raises_exactly close (F f) a b HN) as [R _]. now rewrite (R S).
Qed.

(** a window of a third of the circle: 4 points have the frequencies -2, .., 1, none has a whole number of periods in it *)
Example C84_instance : no_whole_period 4 (2 * PI / 3) /\ ~ no_whole_period 4 (2 * PI) /\
  (2 < length [RtoC 1; Ci; RtoC (-2); RtoC 5])%nat.
Proof.
  pose proof PI_RGT_0. split; [split; [lra|]|split; [|cbn; lia]].
  - intros n k Hn Hr E. change (4 / 2)%nat with 2%nat in Hr. change ((4 - 1) / 2)%nat with 1%nat in Hr.
    assert (IZR n = 3 * IZR k) as Q by (apply (Rmult_eq_reg_r (2 * PI / 3)); lra).
    rewrite <- mult_IZR in Q. apply eq_IZR in Q. lia.
  - intros [_ O]. apply (O 1%Z 1%Z); [lia|change (4 / 2)%nat with 2%nat; change ((4 - 1) / 2)%nat with 1%nat; lia|]. ring.
Qed.
