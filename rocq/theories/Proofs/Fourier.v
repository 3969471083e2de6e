(** Characterisation of the discrete Fourier transform of Model/Spectral.v. *)
From Coq Require Import ZArith Reals List Lia Lra Arith.
From Coq Require Import ZifyNat.
From Coquelicot Require Import Complex.
From Verif Require Import Model.Num Model.Np Model.Spectral Proofs.ListLemmas Proofs.Sums.
Import ListNotations.
Local Open Scope R_scope.
Ltac Zify.zify_post_hook ::= Z.div_mod_to_equations.

(** i-th frequency and m-th grid point *)
Definition fz (N i : nat) : Z := (Z.of_nat i - Z.of_nat (N / 2))%Z.
Definition xg (N m : nat) : R := INR m * hstep N.

Lemma nth_fftfreqN N k d : (k < N)%nat ->
  nth k (fftfreqN N) d = if Nat.leb k ((N - 1) / 2) then Z.of_nat k else (Z.of_nat k - Z.of_nat N)%Z.
Proof.
  intro H. unfold fftfreqN. destruct (Nat.leb_spec k ((N-1)/2)) as [L|L].
  - rewrite app_nth1 by (len; lia). rewrite nth_map_ with (d' := 0%nat) by (len; lia).
    rewrite seq_nth by lia. lia.
  - rewrite app_nth2 by (len; lia). len. rewrite nth_map_ with (d' := 0%nat) by (len; lia).
    rewrite seq_nth by lia. lia.
Qed.

Lemma length_freq N : (0 < N)%nat -> length (freq N) = N.
Proof. intro. unfold freq. rewrite length_fftshift. now apply length_fftfreqN. Qed.

Lemma rot_index (N i : nat) (s : Z) : (0 < N)%nat ->
  (Z.to_nat (s mod Z.of_nat N) < N)%nat.
Proof. intro. pose proof (Z.mod_pos_bound s (Z.of_nat N)). lia. Qed.

Lemma fftshift_index (N i : nat) : (i < N)%nat ->
  Z.to_nat ((Z.of_nat i - Z.of_nat (N/2)) mod Z.of_nat N) =
  if Nat.leb (N/2) i then (i - N/2)%nat else (i + N - N/2)%nat.
Proof.
  intro H. destruct (Nat.leb_spec (N/2) i) as [L|L].
  - rewrite Z.mod_small by lia. lia.
  - replace (Z.of_nat i - Z.of_nat (N/2))%Z with (Z.of_nat (i + N - N/2) + (-1) * Z.of_nat N)%Z by lia.
    rewrite Z.mod_add by lia. rewrite Z.mod_small by lia. lia.
Qed.

Lemma nth_fftshift {A} (l : list A) i d : (i < length l)%nat ->
  nth i (fftshift l) d =
  nth (if Nat.leb (length l / 2) i then i - length l / 2 else i + length l - length l / 2)%nat l d.
Proof. intro H. unfold fftshift. rewrite nth_roll by auto. now rewrite fftshift_index. Qed.

Lemma nth_ifftshift {A} (l : list A) i d : (i < length l)%nat ->
  nth i (ifftshift l) d =
  nth (if Nat.ltb (i + length l / 2) (length l) then i + length l / 2 else i + length l / 2 - length l)%nat l d.
Proof.
  intro H. unfold ifftshift. rewrite nth_roll by auto. f_equal. set (N := length l) in *.
  destruct (Nat.ltb_spec (i + N/2) N) as [L|L].
  - rewrite Z.mod_small by lia. lia.
  - replace (Z.of_nat i - - Z.of_nat (N/2))%Z with (Z.of_nat (i + N/2 - N) + 1 * Z.of_nat N)%Z by lia.
    rewrite Z.mod_add by lia. rewrite Z.mod_small by lia. lia.
Qed.

Lemma nth_freq N i d : (i < N)%nat -> nth i (freq N) d = fz N i.
Proof.
  intro H. unfold freq. assert (length (fftfreqN N) = N) as L by (apply length_fftfreqN; lia).
  rewrite nth_fftshift by lia. rewrite L. unfold fz.
  destruct (Nat.leb_spec (N/2) i); rewrite nth_fftfreqN by lia;
  match goal with |- context [Nat.leb ?a ?b] => destruct (Nat.leb_spec a b) end; lia.
Qed.

Lemma freq_tab N : (0 < N)%nat -> freq N = tab N (fz N).
Proof.
  intro H. apply list_eq_nth with (d := 0%Z); [now rewrite length_freq, length_tab|].
  rewrite length_freq by auto. intros i Hi. now rewrite nth_freq, nth_tab.
Qed.

Lemma INR_neq0 N : (0 < N)%nat -> INR N <> 0.
Proof. intro. apply not_0_INR. lia. Qed.

Lemma length_F x : length (F x) = length x.
Proof. unfold F. now len. Qed.
Lemma length_Finv x : length (Finv x) = length x.
Proof. unfold Finv. now len. Qed.

Lemma nth_F (x : list C) i : (i < length x)%nat ->
  nth i (F x) (RtoC 0) =
  Csum (length x) (fun m => Cmult (nth m x (RtoC 0)) (cis (- (IZR (fz (length x) i) * xg (length x) m)))).
Proof.
  intro H. set (N := length x) in *. assert (INR N <> 0) as HN by (apply INR_neq0; lia).
  unfold F. rewrite nth_fftshift by (now rewrite length_fft). rewrite length_fft. fold N.
  unfold fft. rewrite nth_tab by (destruct (Nat.leb_spec (N/2) i); lia).
  fold N. apply Csum_ext. intros m Hm. f_equal.
  unfold fz, xg, hstep. destruct (Nat.leb_spec (N/2) i) as [L|L].
  - f_equal. rewrite minus_IZR, <- !INR_IZR_INZ, minus_INR by lia. field. assumption.
  - rewrite <- (cis_period_Z _ (Z.of_nat m)). f_equal.
    rewrite minus_IZR, <- !INR_IZR_INZ, minus_INR, plus_INR by lia. field. assumption.
Qed.

Lemma nth_Finv (y : list C) j : (j < length y)%nat ->
  nth j (Finv y) (RtoC 0) =
  Cmult (RtoC (/ INR (length y))) (Csum (length y) (fun i =>
     Cmult (nth i y (RtoC 0)) (cis (IZR (fz (length y) i) * xg (length y) j)))).
Proof.
  intro H. set (N := length y) in *. assert (INR N <> 0) as HN by (apply INR_neq0; lia).
  unfold Finv, ifft. rewrite length_ifftshift. fold N. rewrite nth_tab by lia. f_equal.
  symmetry. rewrite <- (Csum_rot N (N/2)) by lia. symmetry. apply Csum_ext. intros k Hk.
  rewrite nth_ifftshift by (fold N; lia). fold N. f_equal.
  unfold fz, xg, hstep. destruct (Nat.ltb_spec (k + N/2) N) as [L|L].
  - f_equal. rewrite minus_IZR, <- !INR_IZR_INZ, plus_INR. field. assumption.
  - rewrite <- (cis_period_Z _ (- Z.of_nat j)). symmetry.
    rewrite <- (cis_period_Z _ 0). f_equal.
    rewrite opp_IZR, minus_IZR, <- !INR_IZR_INZ, minus_INR, plus_INR by lia. field. assumption.
Qed.

Lemma F_tab x : F x = tab (length x) (fun i =>
  Csum (length x) (fun m => Cmult (nth m x (RtoC 0)) (cis (- (IZR (fz (length x) i) * xg (length x) m))))).
Proof.
  apply list_eq_nth with (d := RtoC 0); [now rewrite length_F, length_tab|].
  rewrite length_F. intros i Hi. now rewrite nth_F, nth_tab.
Qed.
Lemma Finv_tab y : Finv y = tab (length y) (fun j =>
  Cmult (RtoC (/ INR (length y))) (Csum (length y) (fun i =>
     Cmult (nth i y (RtoC 0)) (cis (IZR (fz (length y) i) * xg (length y) j))))).
Proof.
  apply list_eq_nth with (d := RtoC 0); [now rewrite length_Finv, length_tab|].
  rewrite length_Finv. intros i Hi. now rewrite nth_Finv, nth_tab.
Qed.

Lemma mod_small_diff (N : nat) (a : Z) : (- Z.of_nat N < a < Z.of_nat N)%Z ->
  (a mod Z.of_nat N)%Z = 0%Z -> a = 0%Z.
Proof.
  intros H E. apply Z.mod_divide in E; [|lia]. destruct E as [k Hk].
  assert (k = 0)%Z by nia. subst k. lia.
Qed.

Lemma Finv_F x : Finv (F x) = x.
Proof.
  destruct (Nat.eq_dec (length x) 0) as [E|E].
  { destruct x; [reflexivity|discriminate]. }
  set (N := length x) in *. assert (INR N <> 0) as HN by (apply INR_neq0; lia).
  apply list_eq_nth with (d := RtoC 0); [now rewrite length_Finv, length_F|].
  rewrite length_Finv, length_F. intros j Hj. rewrite nth_Finv by (rewrite length_F; lia).
  rewrite length_F. fold N.
  rewrite (Csum_ext _ _ (fun i => Csum N (fun m => Cmult (nth m x (RtoC 0))
     (cis (2 * PI * IZR (Z.of_nat j - Z.of_nat m) * INR i / INR N + - (INR (N/2) * (INR j - INR m) * hstep N)))))).
  2:{ intros i Hi. rewrite nth_F by (fold N; lia). fold N. rewrite <- Csum_scal_r. apply Csum_ext. intros m Hm.
      rewrite <- Cmult_assoc. f_equal. rewrite <- cis_plus. f_equal.
      unfold fz, xg, hstep. rewrite !minus_IZR, <- !INR_IZR_INZ. field. assumption. }
  rewrite Csum_swap.
  rewrite (Csum_single N j); [|assumption|].
  - rewrite Csum_scal, sum_cis_ortho by lia.
    replace ((Z.of_nat j - Z.of_nat j) mod Z.of_nat N)%Z with 0%Z by (rewrite Z.sub_diag; now rewrite Z.mod_0_l by lia).
    simpl Z.eqb. cbv iota.
    replace (- (INR (N / 2) * (INR j - INR j) * hstep N)) with 0 by ring. rewrite cis_0.
    rewrite Cmult_1_r. rewrite (Cmult_comm (nth j x (RtoC 0))), Cmult_assoc, <- RtoC_mult.
    rewrite Rinv_l by assumption. apply Cmult_1_l.
  - intros m Hm Hmj. rewrite Csum_scal, sum_cis_ortho by lia.
    destruct (Z.eqb_spec ((Z.of_nat j - Z.of_nat m) mod Z.of_nat N) 0) as [E0|E0].
    + apply mod_small_diff in E0; lia.
    + apply Cmult_0_r.
Qed.

Lemma F_Finv y : F (Finv y) = y.
Proof.
  destruct (Nat.eq_dec (length y) 0) as [E|E].
  { destruct y; [reflexivity|discriminate]. }
  set (N := length y) in *. assert (INR N <> 0) as HN by (apply INR_neq0; lia).
  apply list_eq_nth with (d := RtoC 0); [now rewrite length_F, length_Finv|].
  rewrite length_F, length_Finv. intros i Hi. rewrite nth_F by (rewrite length_Finv; lia).
  rewrite length_Finv. fold N.
  rewrite (Csum_ext _ _ (fun m => Csum N (fun k => Cmult (Cmult (RtoC (/ INR N)) (nth k y (RtoC 0)))
     (cis (2 * PI * IZR (Z.of_nat k - Z.of_nat i) * INR m / INR N + 0))))).
  2:{ intros m Hm. rewrite nth_Finv by (fold N; lia). fold N.
      rewrite <- Cmult_assoc, <- Csum_scal_r, <- Csum_scal. apply Csum_ext. intros k Hk.
      rewrite <- !Cmult_assoc. f_equal. f_equal. rewrite <- cis_plus. f_equal.
      unfold fz, xg, hstep. rewrite !minus_IZR, <- !INR_IZR_INZ. field. assumption. }
  rewrite Csum_swap.
  rewrite (Csum_single N i); [|assumption|].
  - rewrite Csum_scal, sum_cis_ortho by lia.
    replace ((Z.of_nat i - Z.of_nat i) mod Z.of_nat N)%Z with 0%Z by (rewrite Z.sub_diag; now rewrite Z.mod_0_l by lia).
    simpl Z.eqb. cbv iota. rewrite cis_0.
    rewrite Cmult_1_r. rewrite (Cmult_comm (RtoC (/ INR N))), <- Cmult_assoc, <- RtoC_mult.
    rewrite Rinv_l by assumption. apply Cmult_1_r.
  - intros m Hm Hmj. rewrite Csum_scal, sum_cis_ortho by lia.
    destruct (Z.eqb_spec ((Z.of_nat m - Z.of_nat i) mod Z.of_nat N) 0) as [E0|E0].
    + apply mod_small_diff in E0; lia.
    + apply Cmult_0_r.
Qed.

(** Multiplication by a diagonal in Fourier space is a circular convolution. *)
Definition kernC (N : nat) (D : Z -> C) (x : R) : C :=
  Cmult (RtoC (/ INR N)) (Csum N (fun i => Cmult (D (fz N i)) (cis (IZR (fz N i) * x)))).

Lemma nth_Finv_diag (x : list C) (D : Z -> C) j : (j < length x)%nat ->
  nth j (Finv (tab (length x) (fun i => Cmult (nth i (F x) (RtoC 0)) (D (fz (length x) i))))) (RtoC 0) =
  Csum (length x) (fun m => Cmult (nth m x (RtoC 0)) (kernC (length x) D (xg (length x) j - xg (length x) m))).
Proof.
  intro Hj. set (N := length x) in *.
  rewrite nth_Finv by (rewrite length_tab; lia). rewrite length_tab.
  rewrite (Csum_ext _ _ (fun i => Csum N (fun m => Cmult (nth m x (RtoC 0))
      (Cmult (D (fz N i)) (cis (IZR (fz N i) * (xg N j - xg N m))))))).
  2:{ intros i Hi. rewrite nth_tab by lia. rewrite nth_F by (fold N; lia). fold N.
      rewrite <- !Csum_scal_r. apply Csum_ext. intros m Hm.
      rewrite <- !Cmult_assoc. f_equal. rewrite Cmult_comm, <- Cmult_assoc. f_equal.
      rewrite <- cis_plus. f_equal. ring. }
  rewrite Csum_swap, <- Csum_scal. apply Csum_ext. intros m Hm.
  rewrite Csum_scal. unfold kernC. ring.
Qed.

Lemma map_freq_tab {A} N (g : Z -> A) : (0 < N)%nat -> map g (freq N) = tab N (fun i => g (fz N i)).
Proof. intro. rewrite freq_tab by auto. now rewrite map_tab. Qed.

Lemma vmul_F_diag x (D : Z -> C) : (0 < length x)%nat ->
  vmul (F x) (map D (freq (length x))) =
  tab (length x) (fun i => Cmult (nth i (F x) (RtoC 0)) (D (fz (length x) i))).
Proof.
  intro H. rewrite map_freq_tab by auto. rewrite (list_tab (RtoC 0) (F x)) at 1. rewrite length_F.
  unfold vmul. now rewrite zipw_tab.
Qed.
Lemma vmul_diag_F x (D : Z -> C) : (0 < length x)%nat ->
  vmul (map D (freq (length x))) (F x) =
  tab (length x) (fun i => Cmult (nth i (F x) (RtoC 0)) (D (fz (length x) i))).
Proof.
  intro H. rewrite map_freq_tab by auto. rewrite (list_tab (RtoC 0) (F x)) at 1. rewrite length_F.
  unfold vmul. rewrite zipw_tab. apply tab_ext. intros. apply Cmult_comm.
Qed.
Lemma vdiv_F_diag x (D : Z -> C) : (0 < length x)%nat ->
  vdiv (F x) (map D (freq (length x))) =
  tab (length x) (fun i => Cmult (nth i (F x) (RtoC 0)) (Cinv (D (fz (length x) i)))).
Proof.
  intro H. rewrite map_freq_tab by auto. rewrite (list_tab (RtoC 0) (F x)) at 1. rewrite length_F.
  unfold vdiv. now rewrite zipw_tab.
Qed.

(** sums over frequencies: symmetric/antisymmetric functions *)
Lemma Rsum_freq_odd N (g : R -> R) :
  (forall t, g (- t) = - g t) ->
  (Nat.even N = true -> g (IZR (- Z.of_nat (N/2))) = 0) ->
  Rsum N (fun i => g (IZR (fz N i))) = 0.
Proof.
  intros Ho Hn. destruct (Nat.even N) eqn:E.
  - destruct N as [|N]; [reflexivity|]. rewrite Rsum_S_l.
    assert (g (IZR (fz (S N) 0)) = 0) as ->.
    { rewrite <- (Hn eq_refl). unfold fz. do 2 f_equal. }
    rewrite Rplus_0_l. set (S0 := Rsum N _).
    assert (S0 = - S0); [|lra]. unfold S0 at 1. rewrite Rsum_rev. unfold S0. rewrite <- Rsum_opp.
    apply Rsum_ext. intros i Hi. rewrite <- Ho. f_equal. rewrite <- opp_IZR. f_equal.
    apply Nat.even_spec in E. destruct E as [q Hq]. unfold fz. rewrite Hq. lia.
  - set (S0 := Rsum N _). assert (S0 = - S0); [|lra]. unfold S0 at 1. rewrite Rsum_rev. unfold S0.
    rewrite <- Rsum_opp. apply Rsum_ext. intros i Hi. rewrite <- Ho. f_equal. rewrite <- opp_IZR. f_equal.
    assert (Nat.odd N = true) as O by (unfold Nat.odd; now rewrite E).
    apply Nat.odd_spec in O. destruct O as [q Hq]. unfold fz. rewrite Hq. lia.
Qed.

(** The real kernel of grid functions: alpha_N(x) = 1/N sum_n cos(n x), n over the frequencies. *)
Definition alphaS (N : nat) (x : R) : R := / INR N * Rsum N (fun i => cos (IZR (fz N i) * x)).
