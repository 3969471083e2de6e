(** The refinements of the periodic grid sample the reconstruction on the grid of 2N points, and the
    restrictions integrate it over the cells. *)
From Coq Require Import ZArith Reals List Lia Lra Arith.
From Coq Require Import ZifyNat.
From Verif Require Import Model.Sym.
From Coquelicot Require Import Coquelicot.
From Verif Require Import Proofs.Cheb2.
From Verif Require Import Model.Num Model.Np Model.Spectral Model.Basis Model.Grids1 Model.Regular Model.Chebyshev Model.Common Spec.Trig Proofs.ListLemmas Proofs.Sums
  Proofs.Fourier Proofs.RIntLemmas Proofs.Kernels Proofs.Trig Proofs.Ops Proofs.Exact Proofs.BasisP Proofs.Grids1P Proofs.GridsThm Proofs.PeriodicBasis Proofs.TrigAlg Proofs.Lin Proofs.TableLin.
Import ListNotations.
Local Open Scope R_scope.
Ltac Zify.zify_post_hook ::= Z.div_mod_to_equations.

(** the histopolant is the interpolant of its values *)
Lemma histo_trig v : (0 < length v)%nat -> trig_interpolant (length v) (histo v).
Proof.
  intro HN. set (N := length v) in *.
  set (W := fun t : R => if Req_EM_T t 0 then hstep N else 2 * sin (t * (hstep N / 2)) / t).
  assert (forall i, wH N (fz N i) = W (IZR (fz N i))) as EW.
  { intro i. unfold wH, W. destruct (Z.eqb_spec (fz N i) 0) as [E|E]; destruct (Req_EM_T (IZR (fz N i)) 0) as [E'|E']; auto.
    - rewrite E in E'. simpl in E'. lra.
    - apply eq_IZR in E'. lia. }
  assert (forall t, W (- t) = W t) as We.
  { intro t. unfold W. destruct (Req_EM_T t 0) as [->|E]; destruct (Req_EM_T (- _) 0) as [E'|E']; try lra.
    replace (- t * (hstep N / 2)) with (- (t * (hstep N / 2))) by ring. rewrite sin_neg. field. auto. }
  set (w := fun k => / W (INR k) * / INR N * (if Nat.eqb k 0 then 1 else if Nat.eqb (2 * k) N then 1 else 2)).
  exists (fun k => Rsum N (fun m => w k * nth m v 0 * cos (INR k * xg N m))),
         (fun k => Rsum N (fun m => w k * nth m v 0 * sin (INR k * xg N m))).
  split.
  - intro E. apply Rsum_zero_ext. intros m Hm. rewrite sin_nyq_nat by auto. ring.
  - intro x. unfold histo, trig. fold N.
    rewrite (Rsum_ext (N/2) _ (fun k => Rsum N (fun m => nth m v 0 * (w (S k) * cos (INR (S k) * (x - xg N m)))))).
    2:{ intros k Hk. rewrite <- !Rsum_scal_r, <- Rsum_plus. apply Rsum_ext. intros m Hm.
        rewrite Rmult_minus_distr_l, cos_minus. ring. }
    rewrite <- Rsum_swap, <- Rsum_plus. apply Rsum_ext. intros m Hm.
    unfold betaS. rewrite (Rsum_ext N _ (fun i => (fun t => / W t * cos (t * (x - xg N m))) (IZR (fz N i)))).
    2:{ intros i Hi. cbv beta. now rewrite EW. }
    rewrite (Rsum_fold_freq N (fun t => / W t * cos (t * (x - xg N m)))).
    2:{ auto. } 2:{ intro t. rewrite We. replace (- t * (x - xg N m)) with (- (t * (x - xg N m))) by ring. now rewrite cos_neg. }
    rewrite Rmult_0_l, cos_0, Rsum_scal. simpl (INR 0). rewrite Rmult_0_l, cos_0. unfold w. simpl (Nat.eqb 0 0). cbv iota.
    rewrite (Rsum_ext (N/2) (fun i => / W (INR (S i)) * / INR N * _ * _) (fun k => / INR N *
      ((if Nat.eqb (2 * S k) N then 1 else 2) * (/ W (INR (S k)) * cos (INR (S k) * (x - xg N m)))))).
    2:{ intros k Hk. simpl (Nat.eqb (S k) 0). cbv iota. ring. }
    rewrite Rsum_scal. simpl (INR 0). ring.
Qed.
Lemma histo_interp v t : (0 < length v)%nat -> histo v t = interp (opHinv v) t.
Proof.
  intro HN. pose proof (length_opHinv v HN) as L. rewrite <- (interp_unique (opHinv v) (histo v)); auto; rewrite ?L; auto.
  - now apply histo_trig.
  - intros j Hj. rewrite L in *. rewrite nth_opHinv by auto. now rewrite xg_eq.
Qed.

Lemma weave_tab {A} m k (u v w : nat -> A) : (k <= m <= k + 1)%nat -> (forall i, (i < m)%nat -> u i = w (2 * i)%nat) -> (forall i, (i < k)%nat -> v i = w (2 * i + 1)%nat) ->
  weave (tab m u) (tab k v) = tab (m + k) w.
Proof.
  intros Hk Hu Hv. destruct m as [|m'].
  { replace k with 0%nat by lia. reflexivity. } set (m := S m') in *.
  apply list_eq_nth with (d := u 0%nat); rewrite length_weave by (rewrite !length_tab; lia); rewrite !length_tab; auto.
  intros i Hi. rewrite nth_tab by auto. destruct (Nat.Even_or_Odd i) as [[j ->]|[j ->]].
  - rewrite nth_weave_even by (rewrite !length_tab; lia). rewrite nth_tab by lia. apply Hu. lia.
  - rewrite nth_weave_odd by (rewrite !length_tab; lia). rewrite nth_tab by lia. apply Hv. lia.
Qed.
Lemma spec_ok g (f : list R) : (0 < length f)%nat -> spec g f = Ok (g f).
Proof. intro. unfold spec. destruct f; [cbn in *; lia|reflexivity]. Qed.
Lemma samples_tab m p : (0 < m)%nat -> samples (tab m (fun j => p (xg m j))) p.
Proof. intros Hm j. rewrite length_tab. intro Hj. rewrite nth_tab by auto. now rewrite xg_eq. Qed.
Lemma pair_sum_tab k (g : nat -> R) : pair_sum (tab (k + k) g) = Ok (tab k (fun i => g (2 * i)%nat + g (2 * i + 1)%nat)).
Proof.
  unfold pair_sum. rewrite evens_tab, odds_tab. replace ((k + k + 1) / 2)%nat with k by lia. replace ((k + k) / 2)%nat with k by lia.
  unfold np_bin. rewrite !length_tab, Nat.eqb_refl. now rewrite zipw_tab.
Qed.
Section Refine.
Variable N : nat.
Hypothesis HN : (0 < N)%nat.
Notation M := (N + N)%nat.
Notation h := (hstep N).
Lemma hM : hstep M = h / 2.
Proof. unfold hstep. rewrite plus_INR. field. split; [|pose proof (lt_0_INR N HN); lra]. now apply INR_neq0. Qed.
Lemma xg_e i : xg M (2 * i) = xg N i. Proof. unfold xg. rewrite hM, mult_INR. simpl (INR 2). field. Qed.
Lemma xg_o i : xg M (2 * i + 1) = xg N i + h / 2. Proof. unfold xg. rewrite hM, plus_INR, mult_INR. simpl (INR 2). simpl (INR 1). field. Qed.
Lemma T0_val f : length f = N -> T0_periodic f = Ok (tab M (fun j => interp f (xg M j))).
Proof.
  intro L. unfold T0_periodic. assert (spec opS f = Ok (opS f)) as -> by (unfold spec; destruct f; [cbn in L; lia|reflexivity]). cbn [bind].
  assert (length (opS f) = N) as LS by (rewrite length_opS; lia). rewrite interweave_ok by lia. f_equal.
  rewrite (list_tab 0 f) at 1. rewrite (list_tab 0 (opS f)). rewrite L, LS. apply weave_tab; [lia| |]; intros i Hi.
  - rewrite xg_e. rewrite <- L. symmetry. apply interp_grid. lia.
  - rewrite xg_o, nth_opS by lia. now rewrite L.
Qed.
Lemma T0d_val f : length f = N -> T0d_periodic f = Ok (tab M (fun j => interp f (xg M j - h / 2))).
Proof.
  intro L. unfold T0d_periodic. assert (spec opSinv f = Ok (opSinv f)) as -> by (unfold spec; destruct f; [cbn in L; lia|reflexivity]). cbn [bind].
  assert (length (opSinv f) = N) as LS by (rewrite length_opSinv; lia). rewrite interweave_ok by lia. f_equal.
  rewrite (list_tab 0 f) at 2. rewrite (list_tab 0 (opSinv f)). rewrite L, LS. apply weave_tab; [lia| |]; intros i Hi.
  - rewrite xg_e, nth_opSinv by lia. now rewrite L.
  - rewrite xg_o. replace (xg N i + h / 2 - h / 2) with (xg N i) by ring. rewrite <- L. symmetry. apply interp_grid. lia.
Qed.
Lemma T1_val f : length f = N -> T1_periodic f = Ok (tab M (fun j => histo f (xg M j - h / 2))).
Proof.
  intro L. unfold T1_periodic. rewrite spec_ok by lia. cbn [bind]. rewrite T0d_val by (rewrite length_opHinv; lia). apply (f_equal (@Ok (list R))), tab_ext. intros. rewrite histo_interp by lia. reflexivity.
Qed.
Lemma T1d_val f : length f = N -> T1d_periodic f = Ok (tab M (fun j => histo f (xg M j))).
Proof.
  intro L. unfold T1d_periodic. rewrite spec_ok by lia. cbn [bind]. rewrite T0_val by (rewrite length_opHinv; lia). apply (f_equal (@Ok (list R))), tab_ext. intros. rewrite histo_interp by lia. reflexivity.
Qed.
(** restriction of a sampled trigonometric polynomial: its integrals over the cells *)
Lemma SH_val p K : (2 * K < M)%nat -> trig_degree K p ->
  bind (spec opS (tab M (fun j => p (xg M j)))) (spec opH) = Ok (tab M (fun j => RInt p (xg M j) (xg M j + h / 2))) /\
  bind (spec opSinv (tab M (fun j => p (xg M j)))) (spec opH) = Ok (tab M (fun j => RInt p (xg M j - h / 2) (xg M j))).
Proof.
  intros HK Hp. assert (0 < M)%nat as HM by lia. assert (forall x, continuous p x) as Cp by (intro; now apply (td_cont K)).
  rewrite !spec_ok by (rewrite length_tab; lia). cbn [bind].
  rewrite (exact_S _ p), (exact_Sinv _ p); try (rewrite length_tab; auto); try (apply (trig_degree_interpolant M K); auto); try (now apply samples_tab).
  assert (forall c, opH (tab M (fun j => p (xg M j + c))) = tab M (fun j => RInt p (xg M j - h / 4 + c) (xg M j + h / 4 + c))) as E.
  { intro c. rewrite (exact_H _ (fun t => p (t + c))); rewrite ?length_tab; auto.
    - apply tab_ext. intros j Hj. rewrite hM. replace (h / 2 / 2) with (h / 4) by field. now rewrite <- RInt_shift.
    - apply (trig_degree_interpolant M K); auto. now apply td_shift.
    - apply (samples_tab M (fun t => p (t + c))); auto. }
  split; rewrite spec_ok by (rewrite length_tab; lia).
  - rewrite (E (hstep M / 2)). apply (f_equal (@Ok (list R))), tab_ext. intros j Hj. rewrite hM. f_equal; field.
  - assert (tab M (fun j => p (xg M j - hstep M / 2)) = tab M (fun j => p (xg M j + - (hstep M / 2)))) as -> by (apply tab_ext; intros; f_equal; ring).
    rewrite (E (- (hstep M / 2))). apply (f_equal (@Ok (list R))), tab_ext. intros j Hj. rewrite hM. f_equal; field.
Qed.
Lemma U1_val p K : (2 * K < M)%nat -> trig_degree K p -> U1_periodic (tab M (fun j => p (xg M j))) = Ok (tab N (fun i => RInt p (xg N i) (xg N i + h))).
Proof.
  intros HK Hp. unfold U1_periodic. rewrite (Logic.proj1 (SH_val p K HK Hp)). cbn [bind]. rewrite pair_sum_tab. apply (f_equal (@Ok (list R))), tab_ext. intros i Hi.
  rewrite xg_e, xg_o. assert (forall x, continuous p x) as Cp by (intro; now apply (td_cont K)).
  rewrite <- (RInt_Chasles_cont p (xg N i) (xg N i + h / 2) (xg N i + h)) by auto. apply f_equal2; apply RInt_Rplus0; field.
Qed.
Lemma U1d_val p K : (2 * K < M)%nat -> trig_degree K p -> U1d_periodic (tab M (fun j => p (xg M j))) = Ok (tab N (fun i => RInt p (xg N i - h / 2) (xg N i + h / 2))).
Proof.
  intros HK Hp. unfold U1d_periodic. rewrite (Logic.proj2 (SH_val p K HK Hp)). cbn [bind]. rewrite pair_sum_tab. apply (f_equal (@Ok (list R))), tab_ext. intros i Hi.
  rewrite xg_e, xg_o. assert (forall x, continuous p x) as Cp by (intro; now apply (td_cont K)).
  rewrite <- (RInt_Chasles_cont p (xg N i - h / 2) (xg N i) (xg N i + h / 2)) by auto. apply f_equal2; apply RInt_Rplus0; field.
Qed.
Lemma ti_td p : trig_interpolant N p -> trig_degree (N / 2) p.
Proof. intros (a & b & _ & E). exists a, b. exact E. Qed.
Lemma U0_T0 f : length f = N -> bind (T0_periodic f) U0_periodic = Ok f.
Proof. intro L. rewrite T0_val by auto. cbn [bind]. unfold U0_periodic. rewrite evens_tab. replace ((M + 1) / 2)%nat with N by lia. apply (f_equal (@Ok (list R))), tab_nth; auto. intros j Hj. rewrite xg_e, <- L. apply interp_grid. lia. Qed.
Lemma U0d_T0d f : length f = N -> bind (T0d_periodic f) U0d_periodic = Ok f.
Proof. intro L. rewrite T0d_val by auto. cbn [bind]. unfold U0d_periodic. rewrite odds_tab. replace (M / 2)%nat with N by lia. apply (f_equal (@Ok (list R))), tab_nth; auto. intros j Hj. rewrite xg_o. replace (xg N j + h / 2 - h / 2) with (xg N j) by ring. rewrite <- L. apply interp_grid. lia. Qed.
Lemma histo_cell f i : length f = N -> (i < N)%nat -> RInt (histo f) (xg N i - h / 2) (xg N i + h / 2) = nth i f 0.
Proof. intros L Hi. apply is_RInt_unique. rewrite <- L at 1 2. rewrite <- L. rewrite <- (interp_grid f i) by lia. apply is_RInt_histo_cell. lia. Qed.
Lemma U1_T1 f : length f = N -> bind (T1_periodic f) U1_periodic = Ok f.
Proof.
  intro L. rewrite T1_val by auto. cbn [bind]. rewrite (U1_val (fun t => histo f (t - h / 2)) (N / 2)).
  - apply (f_equal (@Ok (list R))), tab_nth; auto. intros j Hj. rewrite (RInt_shift (histo f) (- (h / 2))) by apply histo_cont.
    rewrite <- (histo_cell f j) by auto. f_equal; field.
  - lia.
  - apply (td_shift (N / 2) (- (h / 2)) (histo f)). rewrite <- L. assert (length f = N) as L' by auto. rewrite L'. apply ti_td. rewrite <- L'. apply histo_trig. lia.
Qed.
Lemma U1d_T1d f : length f = N -> bind (T1d_periodic f) U1d_periodic = Ok f.
Proof.
  intro L. rewrite T1d_val by auto. cbn [bind]. rewrite (U1d_val (histo f) (N / 2)).
  - apply (f_equal (@Ok (list R))), tab_nth; auto. intros j Hj. now apply histo_cell.
  - lia.
  - apply ti_td. rewrite <- L. apply histo_trig. lia.
Qed.
End Refine.
