(** Symmetric positive operators as sums of squares of linear functionals; the Hodge stars of periodic and regular grids are such. *)
From Coq Require Import ZArith Reals List Lia Lra Arith Bool.
From Coq Require Import ZifyNat ZifyBool.
From Verif Require Import Model.Sym.
From Coquelicot Require Import Coquelicot.
From Verif Require Import Model.Num Model.Np Model.Spectral Model.Basis Model.Grids1 Model.Regular Model.Chebyshev Model.Common Model.Decform Model.Grid2 Spec.Tiling
  Proofs.ListLemmas Proofs.RingSums Proofs.Sums Proofs.Grids1P Proofs.GridsThm Proofs.Lin Proofs.TableLin Proofs.Fourier Proofs.Kernels Proofs.Ops Proofs.Mirror Proofs.Symm Proofs.RegularP Proofs.Cheb1 Proofs.Arr2 Proofs.Grid2P Proofs.Grid2Ops.
Import ListNotations.
Local Open Scope R_scope.
Ltac Zify.zify_post_hook ::= Z.div_mod_to_equations.

Definition dot (m : nat) (a b : list R) : R := Rsum m (fun i => nth i a 0 * nth i b 0).
Definition fnl (m : nat) (w : nat -> R) (a : list R) : R := Rsum m (fun i => w i * nth i a 0).
Definition gram (m : nat) (g : list R -> list R) : Prop :=
  exists K w, forall a b, length a = m -> length b = m -> dot m b (g a) = Rsum K (fun k => fnl m (w k) a * fnl m (w k) b).
Lemma dot_sym m a b : dot m a b = dot m b a. Proof. apply Rsum_ext. intros. ring. Qed.
Lemma nth_unitR m i k : (k < m)%nat -> nth k (unit (A := R) m i) 0 = if Nat.eqb k i then 1 else 0.
Proof. exact (nth_unit (A := R) m i k). Qed.
Lemma nth_axpyR c (u v : list R) i : length u = length v -> nth i (axpy c u v) 0 = c * nth i u 0 + nth i v 0.
Proof. exact (nth_axpy (A := R) c u v i). Qed.
Lemma dot_unit m j v : (j < m)%nat -> dot m (unit m j) v = nth j v 0.
Proof.
  intro Hj. unfold dot. rewrite (Rsum_single m j).
  - rewrite nth_unitR by auto. rewrite Nat.eqb_refl. ring.
  - exact Hj.
  - intros i Hi Hn. rewrite nth_unitR by auto. destruct (Nat.eqb_spec i j); [congruence|]. ring.
Qed.
Lemma fnl_lf m (phi : list R -> R) a : lf m phi -> length a = m -> phi a = fnl m (fun i => phi (unit m i)) a.
Proof. intros H L. rewrite (lf_matrix m phi a H L), bsum_Rsum. reflexivity. Qed.
Lemma lf_fnl m w : lf m (fnl m w).
Proof.
  intros c f f' Lf Lf'. unfold fnl. change (nadd (nmul c (Rsum m (fun i => w i * nth i f 0))) (Rsum m (fun i => w i * nth i f' 0))) with (c * Rsum m (fun i => w i * nth i f 0) + Rsum m (fun i => w i * nth i f' 0)). rewrite <- Rsum_scal, <- Rsum_plus. apply Rsum_ext. intros i Hi.
  rewrite nth_axpyR by congruence. ring.
Qed.
Lemma gram_weighted m g K (c : nat -> R) (w : nat -> nat -> R) : (forall k, (k < K)%nat -> 0 <= c k) ->
  (forall a b, length a = m -> length b = m -> dot m b (g a) = Rsum K (fun k => c k * (fnl m (w k) a * fnl m (w k) b))) -> gram m g.
Proof.
  intros Hc E. exists K, (fun k i => sqrt (c k) * w k i). intros a b La Lb. rewrite (E a b La Lb). apply Rsum_ext. intros k Hk.
  assert (forall x, fnl m (fun i => sqrt (c k) * w k i) x = sqrt (c k) * fnl m (w k) x) as S by (intro x; unfold fnl; rewrite <- Rsum_scal; apply Rsum_ext; intros; ring).
  rewrite !S. transitivity ((sqrt (c k) * sqrt (c k)) * (fnl m (w k) a * fnl m (w k) b)); [|ring]. rewrite sqrt_sqrt by now apply Hc. reflexivity.
Qed.
Lemma gram_ext m g g' : (forall a, length a = m -> g a = g' a) -> gram m g' -> gram m g.
Proof. intros E (K & w & H). exists K, w. intros a b La Lb. rewrite E by auto. now apply H. Qed.
(** pull back along a linear map *)
Lemma gram_pull m M g (G P : list R -> list R) c : 0 <= c -> lin m M P -> gram M G ->
  (forall a b, length a = m -> length b = m -> dot m b (g a) = c * dot M (P b) (G (P a))) -> gram m g.
Proof.
  intros Hc LP (K & w & H) E. apply (gram_weighted m g K (fun _ => c) (fun k i => fnl M (w k) (P (unit m i)))); [auto|]. intros a b La Lb.
  rewrite (E a b La Lb), H by (now apply (lin_len m)). rewrite <- Rsum_scal. apply Rsum_ext. intros k Hk.
  assert (forall x, length x = m -> fnl M (w k) (P x) = fnl m (fun i => fnl M (w k) (P (unit m i))) x) as S.
  { intros x Lx. apply (fnl_lf m (fun x => fnl M (w k) (P x)) x); auto. exact (lf_lin m M P _ LP (lf_fnl M (w k))). }
  rewrite !S by auto. reflexivity.
Qed.
Lemma gram_sym m g a b : gram m g -> length a = m -> length b = m -> dot m b (g a) = dot m a (g b).
Proof. intros (K & w & H) La Lb. rewrite !H by auto. apply Rsum_ext. intros. ring. Qed.
Lemma gram_inv m g g' : gram m g -> lin m m g' -> (forall b, length b = m -> g (g' b) = b) -> gram m g'.
Proof.
  intros Hg Lg' I. apply (gram_pull m m g' g g' 1); auto; [lra|]. intros a b La Lb. rewrite Rmult_1_l.
  pose proof (lin_len m m g' a Lg' La) as LA. pose proof (lin_len m m g' b Lg' Lb) as LB.
  rewrite (gram_sym m g _ _ Hg LA LB), (I b Lb). apply dot_sym.
Qed.
Lemma gram_entry m g a j : (j < m)%nat -> length a = m -> forall K w, (forall a b, length a = m -> length b = m -> dot m b (g a) = Rsum K (fun k => fnl m (w k) a * fnl m (w k) b)) ->
  nth j (g a) 0 = Rsum K (fun k => w k j * fnl m (w k) a).
Proof.
  intros Hj La K w H. rewrite <- (dot_unit m j) by auto. rewrite H by (auto; apply length_unit). apply Rsum_ext. intros k Hk. rewrite Rmult_comm. f_equal.
  unfold fnl. rewrite (Rsum_ext _ _ (fun i => nth i (unit m j) 0 * nth i (tab m (w k)) 0)) by (intros i Hi; rewrite nth_tab by auto; ring). fold (dot m (unit m j) (tab m (w k))). rewrite dot_unit, nth_tab by auto. reflexivity.
Qed.
(** consequences *)
Lemma gram_nonneg m g a : gram m g -> length a = m -> 0 <= dot m a (g a).
Proof. intros (K & w & H) La. rewrite H by auto. apply Rsum_nonneg. intros. apply Rle_0_sqr. Qed.
Lemma Rsum_zero_all n f : (forall i, (i < n)%nat -> 0 <= f i) -> Rsum n f = 0 -> forall i, (i < n)%nat -> f i = 0.
Proof.
  induction n as [|n IH]; intros P E i Hi; [lia|]. cbn in E. pose proof (Rsum_nonneg n f ltac:(intros; apply P; lia)). pose proof (P n ltac:(lia)).
  destruct (Nat.eq_dec i n) as [->|]; [lra|]. apply IH; [intros; apply P; lia|lra|lia].
Qed.
Lemma gram_zero m g a : gram m g -> length a = m -> length (g a) = m -> dot m a (g a) = 0 -> g a = repeat 0 m.
Proof.
  intros (K & w & H) La Lg E. rewrite H in E by auto.
  assert (forall k, (k < K)%nat -> fnl m (w k) a = 0) as Z.
  { intros k Hk. pose proof (Rsum_zero_all K _ (fun i _ => Rle_0_sqr (fnl m (w i) a)) E k Hk) as S. now apply Rsqr_0_uniq. }
  apply (nth_ext _ _ 0 0); [now rewrite repeat_length|]. intros j Hj. rewrite nth_repeat. rewrite (gram_entry m g a j ltac:(lia) La K w H). apply Rsum_zero_ext. intros k Hk. rewrite Z by auto. ring.
Qed.
(** Cauchy-Schwarz *)
Lemma gram_lin m g c a b : gram m g -> length a = m -> length b = m ->
  dot m (axpy c a b) (g (axpy c a b)) = c * c * dot m a (g a) + 2 * c * dot m a (g b) + dot m b (g b).
Proof.
  intros (K & w & H) La Lb. rewrite !H by (rewrite ?length_axpy; congruence). rewrite <- !Rsum_scal, <- !Rsum_plus. apply Rsum_ext. intros k Hk.
  rewrite (lf_fnl m (w k) c a b La Lb). cbn. ring.
Qed.
Lemma gram_cauchy m g a b : gram m g -> length a = m -> length b = m -> dot m a (g b) * dot m a (g b) <= dot m a (g a) * dot m b (g b).
Proof.
  intros Hg La Lb. pose proof (gram_nonneg m g a Hg La) as PA. pose proof (gram_nonneg m g b Hg Lb) as PB. set (A := dot m a (g a)) in *. set (B := dot m b (g b)) in *. set (X := dot m a (g b)) in *.
  assert (forall c, 0 <= c * c * A + 2 * c * X + B) as P.
  { intro c. unfold A, B, X. rewrite <- (gram_lin m g c a b Hg La Lb). apply gram_nonneg; auto. rewrite length_axpy; congruence. }
  destruct (Req_dec A 0) as [Z|Z].
  - rewrite Z. destruct (Req_dec X 0) as [->|ZX]; [lra|]. exfalso. pose proof (P (- (B + 1) / (2 * X))) as Q. rewrite Z in Q.
    replace (- (B + 1) / (2 * X) * (- (B + 1) / (2 * X)) * 0 + 2 * (- (B + 1) / (2 * X)) * X + B) with (-1) in Q by (field; auto). lra.
  - pose proof (P (- X / A)) as Q. replace (- X / A * (- X / A) * A + 2 * (- X / A) * X + B) with (B - X * X / A) in Q by (field; auto).
    assert (X * X / A <= B) as Q' by lra. apply (Rmult_le_compat_l A) in Q'; [|lra]. replace (A * (X * X / A)) with (X * X) in Q' by (field; auto). lra.
Qed.

(** ** periodic *)
Lemma wH_pos N n : (0 < N)%nat -> in_freq N n -> 0 < wH N n.
Proof.
  intros HN H. unfold wH. pose proof (hstep_pos N HN). destruct (Z.eqb_spec n 0) as [E|E]; [lra|].
  assert (IZR n <> 0) as Hn by (intro H'; apply E; now apply eq_IZR in H').
  pose proof (freq_range N n HN H) as [R1 R2]. pose proof PI_RGT_0 as HP.
  destruct (Rdichotomy _ _ Hn) as [Hl|Hg].
  - assert (IZR n * (hstep N / 2) < 0) by (apply Ropp_lt_cancel; rewrite Ropp_0; replace (- (IZR n * (hstep N / 2))) with ((- IZR n) * (hstep N/2)) by ring; apply Rmult_lt_0_compat; lra).
    assert (sin (IZR n * (hstep N / 2)) < 0) as S by (apply sin_lt_0_var; lra). unfold Rdiv. assert (/ IZR n < 0) by now apply Rinv_lt_0_compat. nra.
  - assert (0 < IZR n * (hstep N / 2)) by (apply Rmult_lt_0_compat; lra).
    assert (0 < sin (IZR n * (hstep N / 2))) as S by (apply sin_gt_0; lra). assert (0 < / IZR n) by now apply Rinv_0_lt_compat. unfold Rdiv. nra.
Qed.
Lemma kern_H_cos N x : Re (kernC N (Ops.dH N) x) = / INR N * Rsum N (fun i => wH N (fz N i) * cos (IZR (fz N i) * x)).
Proof. unfold kernC. rewrite Re_mult_RtoC, Re_Csum. f_equal. apply Rsum_ext. intros i Hi. unfold Ops.dH. rewrite Re_mult_RtoC. reflexivity. Qed.
Lemma gram_opH N : (0 < N)%nat -> gram N opH.
Proof.
  intro HN. pose proof (lt_0_INR N HN) as PN.
  apply (gram_weighted N opH (N + N) (fun k => / INR N * wH N (fz N (k mod N))) (fun k m => if Nat.ltb k N then cos (IZR (fz N (k mod N)) * xg N m) else sin (IZR (fz N (k mod N)) * xg N m))).
  - intros k Hk. apply Rlt_le. apply Rmult_lt_0_compat; [now apply Rinv_0_lt_compat|]. apply wH_pos; auto. apply fz_in. apply Nat.mod_upper_bound. lia.
  - intros a b La Lb. rewrite Rsum_split.
    rewrite (Rsum_ext N (fun k => / INR N * wH N (fz N (k mod N)) * _) (fun k => / INR N * wH N (fz N k) * (fnl N (fun m => cos (IZR (fz N k) * xg N m)) a * fnl N (fun m => cos (IZR (fz N k) * xg N m)) b))).
    2:{ intros k Hk. rewrite Nat.mod_small by auto. destruct (Nat.ltb_spec k N); [reflexivity|lia]. }
    rewrite (Rsum_ext N (fun k => / INR N * wH N (fz N ((N + k) mod N)) * _) (fun k => / INR N * wH N (fz N k) * (fnl N (fun m => sin (IZR (fz N k) * xg N m)) a * fnl N (fun m => sin (IZR (fz N k) * xg N m)) b))).
    2:{ intros k Hk. replace ((N + k) mod N)%nat with k by (replace (N + k)%nat with (k + 1 * N)%nat by lia; rewrite Nat.mod_add by lia; now rewrite Nat.mod_small). destruct (Nat.ltb_spec (N + k) N); [lia|reflexivity]. }
    rewrite <- Rsum_plus. unfold dot. rewrite (opH_fm a) by lia. rewrite La.
    rewrite (Rsum_ext N _ (fun j => Rsum N (fun k => / INR N * wH N (fz N k) * (nth j b 0 * (fnl N (fun m => cos (IZR (fz N k) * xg N m)) a * cos (IZR (fz N k) * xg N j) + fnl N (fun m => sin (IZR (fz N k) * xg N m)) a * sin (IZR (fz N k) * xg N j)))))).
    + rewrite Rsum_swap. apply Rsum_ext. intros k Hk. rewrite Rsum_scal, <- Rmult_plus_distr_l. f_equal. unfold fnl at 4 6. rewrite <- !Rsum_scal, <- Rsum_plus. apply Rsum_ext. intros j Hj. ring.
    + intros j Hj. rewrite <- La in Hj. rewrite (nth_real_fm _ a j Hj). rewrite La in *.
      rewrite <- Rsum_scal.
      rewrite (Rsum_ext N _ (fun m => Rsum N (fun k => / INR N * wH N (fz N k) * (nth j b 0 * (nth m a 0 * (cos (IZR (fz N k) * xg N m) * cos (IZR (fz N k) * xg N j) + sin (IZR (fz N k) * xg N m) * sin (IZR (fz N k) * xg N j))))))).
      * rewrite Rsum_swap. apply Rsum_ext. intros k Hk. rewrite Rsum_scal, Rsum_scal. f_equal. f_equal. unfold fnl. rewrite <- !Rsum_scal_r, <- Rsum_plus. apply Rsum_ext. intros m Hm. ring.
      * intros m Hm. rewrite kern_H_cos. rewrite <- !Rsum_scal. apply Rsum_ext. intros k Hk. rewrite Rmult_minus_distr_l, cos_minus. ring.
Qed.
Lemma lin_opHinv N : (0 < N)%nat -> lin N N opHinv.
Proof.
  intro HN. apply (lin_ext N N opHinv (fun a => realv (fm (fun n => Cinv (Ops.dH N n)) (cplxv a)))); [intros f L; rewrite <- L; apply opHinv_fm; lia|].
  apply lin_real. apply lin_fm.
Qed.
Lemma gram_opHinv N : (0 < N)%nat -> gram N opHinv.
Proof. intro HN. apply (gram_inv N opH opHinv); auto using gram_opH, lin_opHinv. intros b Lb. apply H_Hinv. lia. Qed.

(** ** regular *)
Lemma opH_mirror0 (a : list R) j : (2 <= length a)%nat -> (0 < j < length a)%nat ->
  nth (2 * (length a - 1) - j) (opH (mirror0 1 a)) 0 = nth j (opH (mirror0 1 a)) 0.
Proof.
  intros Ha Hj. pose proof (length_mirror0' (A := R) 1 a Ha) as LM. set (M := (2 * (length a - 1))%nat) in *.
  rewrite opH_fm by (rewrite LM; lia). rewrite LM. rewrite !nth_realv. f_equal.
  rewrite (cplxv_mirror0 1 a). rewrite <- (mirror0_fm (Ops.dH M) (cplxv a)) by (rewrite ?length_cplxv; auto using evenD_dH).
  assert (length (unmirror0 (fm (Ops.dH M) (mirror0 (RtoC 1) (cplxv a)))) = length a) as Lu by (rewrite length_un0; rewrite length_cplxv; auto).
  destruct (Nat.eq_dec j (length a - 1)) as [->|Hn]; [f_equal; unfold M; lia|].
  rewrite !nth_mirror0 by (rewrite Lu; unfold M; lia). rewrite Lu. destruct (Nat.ltb_spec (M - j) (length a)); [unfold M in *; lia|]. destruct (Nat.ltb_spec j (length a)); [|lia].
  change (@nmul C NumC) with Cmult. rewrite Cmult_1_l. f_equal. unfold M. lia.
Qed.
Lemma opH_mirror1 (a : list R) j : (1 <= length a)%nat -> (j < length a)%nat ->
  nth (2 * length a - 1 - j) (opH (mirror1 1 a)) 0 = nth j (opH (mirror1 1 a)) 0.
Proof.
  intros Ha Hj. pose proof (length_mirror1 (A := R) 1 a) as LM. set (M := (2 * length a)%nat) in *.
  rewrite opH_fm by (rewrite LM; lia). rewrite LM. rewrite !nth_realv. f_equal.
  rewrite (cplxv_mirror1 1 a). rewrite <- (mirror1_fm (Ops.dH M) (cplxv a)) by (auto using evenD_dH; ring).
  assert (length (unmirror1 (fm (Ops.dH M) (mirror1 (RtoC 1) (cplxv a)))) = length a) as Lu by (rewrite length_un1; apply length_cplxv).
  rewrite !nth_mirror1 by (rewrite Lu; unfold M; lia). rewrite Lu. destruct (Nat.ltb_spec (M - 1 - j) (length a)); [unfold M in *; lia|]. destruct (Nat.ltb_spec j (length a)); [|lia].
  change (@nmul C NumC) with Cmult. rewrite Cmult_1_l. f_equal. unfold M. lia.
Qed.
Definition run (o : op1) (f : list R) : list R := match o f with Ok v => v | Err _ => [] end.
Lemma run_H0_regular a j : (2 <= length a)%nat -> (j < length a)%nat -> nth j (run (real_of H0_regular) a) 0 = Aw (length a) j * nth j (opH (mirror0 1 a)) 0.
Proof.
  intros Ha Hj. pose proof (length_mirror0' (A := R) 1 a Ha) as LM. unfold run, real_of. rewrite H0_regular_val by now rewrite length_cplxv. cbn [bind]. rewrite length_cplxv.
  rewrite opH_fm by (rewrite LM; lia). rewrite LM, (cplxv_mirror0 1 a), !nth_realv. set (u := fm _ _).
  assert (length u = (2 * (length a - 1))%nat) as Lu by (unfold u; rewrite length_fm, length_mirror0'; rewrite length_cplxv; auto).
  assert (length (unmirror0 u) = length a) as Lv by (unfold unmirror0; rewrite firstn_length, Lu; lia).
  unfold vmul. rewrite (nth_zipw _ _ _ _ (RtoC 0) (RtoC 0)) by (rewrite ?length_cplxv, ?length_tab; lia). change (@nmul C NumC) with Cmult.
  unfold cplxv. rewrite nth_map_ with (d' := 0) by (now rewrite length_tab). rewrite nth_tab by auto. rewrite Cmult_comm, Re_mult_RtoC. f_equal. f_equal. unfold unmirror0. rewrite nth_firstn_ by lia. reflexivity.
Qed.
Lemma run_H0d_regular a j : (1 <= length a)%nat -> (j < length a)%nat -> nth j (run (real_of H0d_regular) a) 0 = nth j (opH (mirror1 1 a)) 0.
Proof.
  intros Ha Hj. pose proof (length_mirror1 (A := R) 1 a) as LM. unfold run, real_of. rewrite H0d_regular_val by now rewrite length_cplxv. cbn [bind]. rewrite length_cplxv.
  rewrite opH_fm by (rewrite LM; lia). rewrite LM, (cplxv_mirror1 1 a), !nth_realv. f_equal. unfold unmirror1. rewrite nth_firstn_ by (rewrite length_fm, length_mirror1, length_cplxv; lia). reflexivity.
Qed.
Lemma gram_H0_regular n : (2 <= n)%nat -> gram n (run (real_of H0_regular)).
Proof.
  intro Hn. apply (gram_pull n (2 * (n - 1)) _ opH (mirror0 1) (/2)); [lra|apply (lin_mirror0 (A := R)); lia|apply gram_opH; lia|].
  intros a b La Lb. unfold dot. rewrite <- Lb at 2. rewrite (Rsum_mirror0 1 b (fun m => nth m (opH (mirror0 1 a)) 0)) by lia. rewrite Lb, <- Rsum_scal. apply Rsum_ext. intros i Hi.
  rewrite run_H0_regular by lia. unfold Aw. rewrite La. destruct (Nat.eqb_spec i 0) as [->|H0]; cbn [orb]; [field|]. destruct (Nat.eqb_spec i (n - 1)); [field|].
  pose proof (opH_mirror0 a i ltac:(lia) ltac:(lia)) as E. rewrite La in E. rewrite E. field.
Qed.
Lemma gram_H0d_regular n : (1 <= n)%nat -> gram n (run (real_of H0d_regular)).
Proof.
  intro Hn. apply (gram_pull n (2 * n) _ opH (mirror1 1) (/2)); [lra|apply (lin_mirror1 (A := R)); lia|apply gram_opH; lia|].
  intros a b La Lb. unfold dot. rewrite <- Lb at 2. rewrite (Rsum_mirror1 1 b (fun m => nth m (opH (mirror1 1 a)) 0)) by lia. rewrite Lb, <- Rsum_scal. apply Rsum_ext. intros i Hi.
  rewrite run_H0d_regular by lia. pose proof (opH_mirror1 a i ltac:(lia) ltac:(lia)) as E. rewrite La in E. rewrite E. field.
Qed.

(** ** products *)
Lemma Rsum_prod n m f : Rsum (n * m) f = Rsum n (fun i => Rsum m (fun j => f (i * m + j)%nat)).
Proof. induction n as [|n IH]; [reflexivity|]. replace (S n * m)%nat with (n * m + m)%nat by lia. rewrite Rsum_split, IH. reflexivity. Qed.
Lemma dot_flat r c A B : dot (r * c) (flat r c A) (flat r c B) = Rsum r (fun i => Rsum c (fun j => A i j * B i j)).
Proof. unfold dot. rewrite Rsum_prod. apply Rsum_ext. intros i Hi. apply Rsum_ext. intros j Hj. now rewrite !nth_flat. Qed.
Definition tensor (r c : nat) (hx hy : list R -> list R) (f : list R) : list R := flat r c (onrows c hx (oncols r hy (ent c f))).
Lemma gram_tensor r c hx hy : gram c hx -> gram r hy -> gram (r * c) (tensor r c hx hy).
Proof.
  intros (Kx & wx & Hx) (Ky & wy & Hy). exists (Ky * Kx)%nat, (fun k m => wy (k / Kx)%nat (m / c)%nat * wx (k mod Kx)%nat (m mod c)%nat). intros a b La Lb.
  rewrite (flat_ent r c b Lb). unfold tensor. rewrite dot_flat. set (A := ent c a). set (B := ent c b). rewrite Rsum_prod.
  assert (forall p q (u : list R), length u = (r * c)%nat -> (p < Ky)%nat -> (q < Kx)%nat -> fnl (r * c) (fun m => wy ((p * Kx + q) / Kx)%nat (m / c)%nat * wx ((p * Kx + q) mod Kx)%nat (m mod c)%nat) u = Rsum r (fun i => Rsum c (fun j => wy p i * wx q j * ent c u i j))) as F.
  { intros p q u Lu Hp Hq. unfold fnl. rewrite Rsum_prod. apply Rsum_ext. intros i Hi. apply Rsum_ext. intros j Hj. unfold ent.
    rewrite (Nat.add_comm (p * Kx)), Nat.div_add, Nat.mod_add by lia. rewrite (Nat.div_small q), (Nat.mod_small q) by lia. rewrite (Nat.add_comm (i * c) j), Nat.div_add, Nat.mod_add by lia. rewrite (Nat.div_small j), (Nat.mod_small j) by lia. reflexivity. }
  rewrite (Rsum_ext Ky _ (fun p => Rsum Kx (fun q => Rsum r (fun i => Rsum c (fun j => wy p i * wx q j * A i j)) * Rsum r (fun i => Rsum c (fun j => wy p i * wx q j * B i j))))).
  2:{ intros p Hp. apply Rsum_ext. intros q Hq. rewrite (F p q a La Hp Hq). rewrite (F p q (flat r c B)) by (auto; apply length_flat). f_equal. apply Rsum_ext. intros i Hi. apply Rsum_ext. intros j Hj. unfold ent at 1. now rewrite nth_flat. }
  clear F.
  rewrite (Rsum_ext r _ (fun i => Rsum c (fun j => Rsum Ky (fun p => Rsum Kx (fun q => wy p i * wx q j * B i j * Rsum r (fun i => Rsum c (fun j => wy p i * wx q j * A i j))))))).
  2:{ intros i Hi. apply Rsum_ext. intros j Hj. unfold onrows. rewrite (gram_entry c hx (tab c (oncols r hy A i)) j Hj (length_tab _ _) Kx wx Hx).
      rewrite <- Rsum_scal. rewrite Rsum_swap. apply Rsum_ext. intros q Hq. unfold fnl.
      rewrite (Rsum_ext c _ (fun j' => Rsum Ky (fun p => wx q j' * (wy p i * Rsum r (fun i' => wy p i' * A i' j'))))).
      2:{ intros j' Hj'. rewrite nth_tab by auto. unfold oncols. rewrite (gram_entry r hy (tab r (fun i => A i j')) i Hi (length_tab _ _) Ky wy Hy). rewrite <- Rsum_scal. apply Rsum_ext. intros p Hp. do 2 f_equal. unfold fnl. apply Rsum_ext. intros i' Hi'. now rewrite nth_tab. }
      rewrite Rsum_swap. rewrite <- !Rsum_scal. apply Rsum_ext. intros p Hp. rewrite (Rsum_swap r c).
      rewrite <- !Rsum_scal. apply Rsum_ext. intros j' Hj'. rewrite <- !Rsum_scal. apply Rsum_ext. intros i' Hi'. ring. }
  rewrite (Rsum_ext r _ (fun i => Rsum Ky (fun p => Rsum Kx (fun q => Rsum c (fun j => wy p i * wx q j * B i j * Rsum r (fun i => Rsum c (fun j => wy p i * wx q j * A i j))))))).
  2:{ intros i Hi. rewrite Rsum_swap. apply Rsum_ext. intros p Hp. rewrite Rsum_swap. reflexivity. }
  rewrite Rsum_swap. apply Rsum_ext. intros p Hp. rewrite Rsum_swap. apply Rsum_ext. intros q Hq. rewrite Rmult_comm, <- Rsum_scal_r. apply Rsum_ext. intros i Hi. rewrite <- Rsum_scal_r. reflexivity.
Qed.
Lemma nth_firstn_skipn {A} p (a : list A) i d : nth i (skipn p a) d = nth (p + i) a d.
Proof. revert a. induction p as [|p IH]; intro a; [reflexivity|]. destruct a; cbn; [destruct i; reflexivity|]. apply IH. Qed.
Lemma gram_app p q g0 g1 : gram p g0 -> gram q g1 -> (forall a, length a = p -> length (g0 a) = p) -> gram (p + q) (fun a => g0 (firstn p a) ++ g1 (skipn p a)).
Proof.
  intros (K0 & w0 & H0) (K1 & w1 & H1) L0.
  exists (K0 + K1)%nat, (fun k i => if Nat.ltb k K0 then (if Nat.ltb i p then w0 k i else 0) else (if Nat.ltb i p then 0 else w1 (k - K0)%nat (i - p)%nat)). intros a b La Lb.
  assert (forall u : list R, length u = (p + q)%nat -> length (firstn p u) = p /\ length (skipn p u) = q) as LS by (intros u Lu; rewrite firstn_length, skipn_length; lia).
  destruct (LS a La) as [A0 A1]. destruct (LS b Lb) as [B0 B1].
  unfold dot. rewrite Rsum_split. 
  assert (Rsum p (fun i => nth i b 0 * nth i (g0 (firstn p a) ++ g1 (skipn p a)) 0) = dot p (firstn p b) (g0 (firstn p a))) as ->.
  { apply Rsum_ext. intros i Hi. rewrite app_nth1 by (rewrite L0; auto). rewrite nth_firstn_ by auto. reflexivity. }
  assert (Rsum q (fun i => nth (p + i) b 0 * nth (p + i) (g0 (firstn p a) ++ g1 (skipn p a)) 0) = dot q (skipn p b) (g1 (skipn p a))) as ->.
  { apply Rsum_ext. intros i Hi. rewrite app_nth2 by (rewrite L0; auto; lia). rewrite L0 by auto. rewrite nth_firstn_skipn. do 2 f_equal. lia. }
  rewrite H0, H1 by auto. rewrite Rsum_split. f_equal; apply Rsum_ext; intros k Hk.
  - destruct (Nat.ltb_spec k K0); [|lia]. assert (forall u, fnl (p + q) (fun i => if Nat.ltb i p then w0 k i else 0) u = fnl p (w0 k) (firstn p u)) as F.
    { intro u. unfold fnl. rewrite Rsum_split. rewrite (Rsum_zero_ext q) by (intros i Hi; destruct (Nat.ltb_spec (p + i) p); [lia|ring]). rewrite Rplus_0_r. apply Rsum_ext. intros i Hi. destruct (Nat.ltb_spec i p); [|lia]. now rewrite nth_firstn_. }
    now rewrite !F.
  - destruct (Nat.ltb_spec (K0 + k) K0); [lia|]. replace (K0 + k - K0)%nat with k by lia. assert (forall u, fnl (p + q) (fun i => if Nat.ltb i p then 0 else w1 k (i - p)%nat) u = fnl q (w1 k) (skipn p u)) as F.
    { intro u. unfold fnl. rewrite Rsum_split. rewrite (Rsum_zero_ext p) by (intros i Hi; destruct (Nat.ltb_spec i p); [ring|lia]). rewrite Rplus_0_l. apply Rsum_ext. intros i Hi. destruct (Nat.ltb_spec (p + i) p); [lia|]. rewrite nth_firstn_skipn. do 2 f_equal. lia. }
    now rewrite !F.
Qed.
