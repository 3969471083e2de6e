(** fourier_K: integration against sine; fourier_K_inv is its inverse. *)
From Coq Require Import ZArith Reals List Lia Lra Arith.
From Coq Require Import ZifyNat.
From Coquelicot Require Import Coquelicot.
From Verif Require Import Model.Num Model.Np Model.Spectral Spec.Trig Spec.CInt Proofs.ListLemmas Proofs.Sums Proofs.Fourier Proofs.RIntLemmas Proofs.Kernels Proofs.Trig Proofs.RingSums Proofs.Mirror Proofs.Lin Proofs.TableLin Proofs.LinAlg.
Import ListNotations.
Local Open Scope R_scope.
Ltac Zify.zify_post_hook ::= Z.div_mod_to_equations.

(** ** complex integrals *)
Lemma is_CRInt_ext f g a b v : (forall t, f t = g t) -> is_CRInt f a b v -> is_CRInt g a b v.
Proof. intros E [H1 H2]. split; [apply (is_RInt_ext_all (fun t => Re (f t)))|apply (is_RInt_ext_all (fun t => Im (f t)))]; auto; intro; now rewrite E. Qed.
Lemma is_CRInt_scal f a b v (c : C) : is_CRInt f a b v -> is_CRInt (fun t => Cmult c (f t)) a b (Cmult c v).
Proof.
  intros [H1 H2]. split; cbn.
  - apply (is_RInt_minus (V := R_NormedModule) (fun t => fst c * Re (f t)) (fun t => snd c * Im (f t))); now apply is_RInt_scal_R.
  - apply (is_RInt_plus (V := R_NormedModule) (fun t => fst c * Im (f t)) (fun t => snd c * Re (f t))); now apply is_RInt_scal_R.
Qed.
Lemma is_CRInt_Csum n (f : nat -> R -> C) v a b : (forall i, (i < n)%nat -> is_CRInt (f i) a b (v i)) -> is_CRInt (fun t => Csum n (fun i => f i t)) a b (Csum n v).
Proof.
  intro H. split.
  - rewrite Re_Csum. apply (is_RInt_ext_all (fun t => Rsum n (fun i => Re (f i t)))); [intro; now rewrite Re_Csum|]. apply is_RInt_Rsum. intros i Hi. now apply H.
  - rewrite Im_Csum. apply (is_RInt_ext_all (fun t => Rsum n (fun i => Im (f i t)))); [intro; now rewrite Im_Csum|]. apply is_RInt_Rsum. intros i Hi. now apply H.
Qed.
Lemma is_RInt_unshift (f : R -> R) x a b v : is_RInt (fun t => f (x + t)) a b v -> is_RInt f (x + a) (x + b) v.
Proof.
  intro H. apply (is_RInt_ext_all (fun t => f (x + (t - x)))); [intro t; f_equal; ring|].
  replace a with (x + a - x) in H by ring. replace b with (x + b - x) in H by ring.
  pose proof (is_RInt_comp_lin (V := R_NormedModule) (fun t => f (x + t)) 1 (- x) (x + a) (x + b) v) as K.
  replace (1 * (x + a) + - x) with (x + a - x) in K by ring. replace (1 * (x + b) + - x) with (x + b - x) in K by ring.
  apply (is_RInt_ext_all (fun t => scal 1 (f (x + (1 * t + - x))))); [|now apply K].
  intro t. unfold scal; simpl. unfold mult; simpl. rewrite Rmult_1_l. f_equal. ring.
Qed.
Lemma is_CRInt_cis n a b x : is_CRInt (fun t => cis (IZR n * t)) (x + a) (x + b) (Cmult (I_entry n a b) (cis (IZR n * x))).
Proof. split; apply is_RInt_unshift; [apply I_entry_RInt_cos|apply I_entry_RInt_sin]. Qed.

(** ** the entries of fourier_K *)
Section K.
Variable x : list C.
Let N := length x.
Definition padC (m : nat) : C := match m with O => RtoC 0 | S m => nth m x (RtoC 0) end.
Definition wK (m : nat) : C := Cminus (match m with O => RtoC 0 | S m => padC m end) (padC (S m)).
Definition yK (a b : R) (m : nat) : C := Cmult (wK m) (Cdiv (I_entry (fz (N + 2) m) a b) (Cmult (RtoC 2) Ci)).
Definition preK (a b : R) : list C := vmul (vsub (roll 1 ([RtoC 0] ++ x ++ [RtoC 0])) (roll (-1) ([RtoC 0] ++ x ++ [RtoC 0])))
   (map (fun y => Cdiv y (Cmult (RtoC 2) Ci)) (I_diag (N + 2) a b)).
Lemma nth_pad m d : (m <= N + 1)%nat -> nth m ([RtoC 0] ++ x ++ [RtoC 0]) d = padC m.
Proof.
  intro. destruct m as [|m]; [reflexivity|]. cbn [app nth padC]. rewrite nth_app_. fold N. destruct (Nat.ltb_spec m N).
  - apply nth_indep. exact H0.
  - rewrite (nth_overflow x) by exact H0. assert (m - N = 0)%nat as -> by lia. reflexivity.
Qed.
Lemma padC_high m : (N + 1 <= m)%nat -> padC m = RtoC 0.
Proof. intro. destruct m; [reflexivity|]. cbn. apply nth_overflow. fold N. lia. Qed.
Lemma preK_tab a b : preK a b = tab (N + 2) (yK a b).
Proof.
  unfold preK. assert (length ([RtoC 0] ++ x ++ [RtoC 0]) = N + 2)%nat as L by (rewrite !app_length; fold N; cbn; lia).
  assert (length (I_diag (N + 2) a b) = N + 2)%nat as LI by (apply length_I_diag; lia).
  apply list_eq_nth with (d := RtoC 0).
  - unfold vmul, vsub. rewrite !length_zipw, !length_roll, map_length, length_tab, L, LI. lia.
  - unfold vmul, vsub. rewrite !length_zipw, !length_roll, map_length, L, LI. intros m Hm.
    rewrite nth_zipw with (dx := RtoC 0) (dy := RtoC 0) by (rewrite ?length_zipw, ?length_roll, ?map_length, ?L, ?LI; lia).
    rewrite nth_zipw with (dx := RtoC 0) (dy := RtoC 0) by (rewrite ?length_roll, ?L; lia).
    rewrite nth_tab by lia. unfold yK. change (@nmul C _) with Cmult. change (@nsub C _) with Cminus. f_equal.
    + rewrite nth_roll_1, nth_roll_m1 by lia. rewrite L. unfold wK. f_equal.
      * destruct m as [|m]; cbn [Nat.eqb].
        -- rewrite nth_pad by lia. apply padC_high. lia.
        -- rewrite nth_pad by lia. f_equal. lia.
      * destruct (Nat.eqb_spec (m + 1) (N + 2)).
        -- rewrite nth_pad by lia. rewrite (padC_high (S m)) by lia. reflexivity.
        -- rewrite nth_pad by lia. f_equal. lia.
    + rewrite nth_map_ with (d' := RtoC 0) by lia. f_equal. unfold I_diag. rewrite nth_map_ with (d' := 0%Z) by (rewrite length_freq; lia). now rewrite nth_freq by lia.
Qed.
Lemma nth_add_first c l i : (i < length l)%nat -> nth i (add_first c l) (RtoC 0) = Cplus (nth i l (RtoC 0)) (if Nat.eqb i 0 then c else RtoC 0).
Proof. destruct l as [|u l]; cbn; [lia|]. intros _. destruct i; cbn [nth Nat.eqb]; [reflexivity|]. now rewrite Cplus_0_r. Qed.
Lemma length_add_first c l : length (add_first c l) = length l. Proof. now destruct l. Qed.
Lemma length_add_last c l : length (add_last c l) = length l.
Proof. unfold add_last. now rewrite rev_length, length_add_first, rev_length. Qed.
Lemma nth_add_last c l i : (i < length l)%nat -> nth i (add_last c l) (RtoC 0) = Cplus (nth i l (RtoC 0)) (if Nat.eqb i (length l - 1) then c else RtoC 0).
Proof.
  intro Hi. unfold add_last. rewrite rev_nth by (rewrite length_add_first, rev_length; lia). rewrite length_add_first, rev_length.
  rewrite nth_add_first by (rewrite rev_length; lia). rewrite rev_nth by lia. f_equal; [f_equal; lia|].
  destruct (Nat.eqb_spec (length l - S i) 0), (Nat.eqb_spec i (length l - 1)); try reflexivity; lia.
Qed.
Lemma length_fourier_K a b : length (fourier_K x a b) = N.
Proof.
  pose proof (lin_fourier_K N a b) as [L _]. now apply L.
Qed.
Lemma nth_fourier_K a b i : (i < N)%nat ->
  nth i (fourier_K x a b) (RtoC 0) = Cplus (Cplus (yK a b (S i)) (if Nat.eqb i 0 then yK a b (N + 1) else RtoC 0)) (if Nat.eqb i (N - 1) then yK a b 0 else RtoC 0).
Proof.
  intro Hi. unfold fourier_K. change (vmul _ _) with (preK a b).
  assert (length (preK a b) = N + 2)%nat as L by (rewrite preK_tab; apply length_tab).
  rewrite nth_add_last by (rewrite length_add_first, length_inner, L; lia). rewrite length_add_first, length_inner, L.
  replace (N + 2 - 2 - 1)%nat with (N - 1)%nat by lia. rewrite nth_add_first by (rewrite length_inner, L; lia).
  rewrite nth_inner by lia. rewrite nth_last, nth_hd, L, preK_tab, !nth_tab by lia.
  replace (i + 1)%nat with (S i) by lia. replace (N + 2 - 1)%nat with (N + 1)%nat by lia. reflexivity.
Qed.
(** g(t) sin(t) has the coefficients wK/(2i) *)
Definition gK (t : R) : C := Csum N (fun i => Cmult (nth i x (RtoC 0)) (cis (IZR (fz N i) * t))).
Lemma fz_up m : fz (N + 2) (S m) = fz N m.
Proof. unfold fz. replace ((N + 2) / 2)%nat with (N / 2 + 1)%nat by lia. lia. Qed.
Lemma wK_sum (E : Z -> C) : (forall n, E n = E n) -> 
  Csum (N + 2) (fun m => Cmult (wK m) (E (fz (N + 2) m))) = Csum N (fun i => Cmult (nth i x (RtoC 0)) (Cminus (E (fz N i + 1)%Z) (E (fz N i - 1)%Z))).
Proof.
  intros _. unfold wK.
  rewrite (Csum_ext _ _ (fun m => Cplus (Cmult (match m with O => RtoC 0 | S m => padC m end) (E (fz (N + 2) m))) (Cmult (Copp (RtoC 1)) (Cmult (padC (S m)) (E (fz (N + 2) m)))))) by (intros; ring).
  rewrite Csum_plus, Csum_scal.
  assert (Csum (N + 2) (fun m => Cmult (match m with O => RtoC 0 | S m => padC m end) (E (fz (N + 2) m))) = Csum N (fun i => Cmult (nth i x (RtoC 0)) (E (fz N i + 1)%Z))) as ->.
  { replace (N + 2)%nat with (S (S N)) at 1 by lia. rewrite !Csum_S_l. cbn [padC].
    rewrite (Csum_ext N _ (fun i => Cmult (nth i x (RtoC 0)) (E (fz N i + 1)%Z))).
    2:{ intros i Hi. cbn [padC]. f_equal. f_equal. unfold fz. replace ((N + 2) / 2)%nat with (N / 2 + 1)%nat by lia. lia. }
    ring. }
  assert (Csum (N + 2) (fun m => Cmult (padC (S m)) (E (fz (N + 2) m))) = Csum N (fun i => Cmult (nth i x (RtoC 0)) (E (fz N i - 1)%Z))) as ->.
  { rewrite Csum_split. replace (Csum 2 _) with (RtoC 0).
    - rewrite (Csum_ext N _ (fun i => Cmult (nth i x (RtoC 0)) (E (fz N i - 1)%Z))); [ring|].
      intros i Hi. cbn [padC]. f_equal. f_equal. unfold fz. replace ((N + 2) / 2)%nat with (N / 2 + 1)%nat by lia. lia.
    - symmetry. apply Csum_zero_ext. intros i Hi. rewrite padC_high by lia. ring. }
  rewrite <- Csum_scal, <- Csum_plus. apply Csum_ext. intros i Hi. ring.
Qed.
Lemma cis_diff n t : Cminus (cis (IZR (n + 1) * t)) (cis (IZR (n - 1) * t)) = Cmult (Cmult (RtoC 2) Ci) (Cmult (cis (IZR n * t)) (RtoC (sin t))).
Proof.
  rewrite plus_IZR, minus_IZR. replace ((IZR n + 1) * t) with (IZR n * t + t) by ring. replace ((IZR n - 1) * t) with (IZR n * t - t) by ring.
  unfold cis. rewrite cos_plus, cos_minus, sin_plus, sin_minus. apply C_eq; cbn; ring.
Qed.
Lemma gK_sin t : Cmult (gK t) (RtoC (sin t)) = Csum (N + 2) (fun m => Cmult (Cdiv (wK m) (Cmult (RtoC 2) Ci)) (cis (IZR (fz (N + 2) m) * t))).
Proof.
  assert (Cmult (RtoC 2) Ci <> RtoC 0) as H2 by (intro H; apply (f_equal Im) in H; cbn in H; lra).
  rewrite (Csum_ext _ _ (fun m => Cmult (Cinv (Cmult (RtoC 2) Ci)) (Cmult (wK m) (cis (IZR (fz (N + 2) m) * t))))) by (intros; unfold Cdiv; ring).
  rewrite Csum_scal, (wK_sum (fun n => cis (IZR n * t))) by auto. unfold gK.
  rewrite (Csum_ext N (fun i => Cmult (nth i x (RtoC 0)) (Cminus _ _)) (fun i => Cmult (Cmult (RtoC 2) Ci) (Cmult (Cmult (nth i x (RtoC 0)) (cis (IZR (fz N i) * t))) (RtoC (sin t))))).
  - rewrite Csum_scal, Csum_scal_r. now rewrite (Cmult_assoc (Cinv _)), Cinv_l, Cmult_1_l.
  - intros i Hi. rewrite cis_diff. ring.
Qed.
Lemma Csum_at n k c : (k < n)%nat -> Csum n (fun i => if Nat.eqb i k then c else RtoC 0) = c.
Proof.
  intro Hk. rewrite (Csum_single n k); [now rewrite Nat.eqb_refl|exact Hk|].
  intros i _ H. destruct (Nat.eqb_spec i k); [contradiction|reflexivity].
Qed.
Lemma K_alias a b j : (0 < N)%nat ->
  Csum N (fun i => Cmult (nth i (fourier_K x a b) (RtoC 0)) (cis (IZR (fz N i) * xg N j))) = Csum (N + 2) (fun m => Cmult (yK a b m) (cis (IZR (fz (N + 2) m) * xg N j))).
Proof.
  intro HN. rewrite (Csum_ext N _ (fun i => Cplus (Cmult (yK a b (S i)) (cis (IZR (fz (N + 2) (S i)) * xg N j)))
    (Cplus (if Nat.eqb i 0 then Cmult (yK a b (N + 1)) (cis (IZR (fz (N + 2) (N + 1)) * xg N j)) else RtoC 0) (if Nat.eqb i (N - 1) then Cmult (yK a b 0) (cis (IZR (fz (N + 2) 0) * xg N j)) else RtoC 0)))).
  - rewrite !Csum_plus. replace (Csum (N + 2)) with (Csum (S (N + 1))) by (f_equal; lia). rewrite (Csum_S_l (N + 1)), (Csum_split N 1). cbn [Csum].
    rewrite !Csum_at by lia.
    replace (N + 0)%nat with N by lia. replace (S N) with (N + 1)%nat by lia. ring.
  - intros i Hi. rewrite nth_fourier_K by auto. rewrite fz_up.
    assert (i = 0%nat -> cis (IZR (fz (N + 2) (N + 1)) * xg N j) = cis (IZR (fz N i) * xg N j)) as A0.
    { intros ->. replace (fz (N + 2) (N + 1)) with (fz N 0 + Z.of_nat N)%Z; [now apply cis_alias|]. replace (N + 1)%nat with (S N) by lia. rewrite fz_up. unfold fz. lia. }
    assert (i = (N - 1)%nat -> cis (IZR (fz (N + 2) 0) * xg N j) = cis (IZR (fz N i) * xg N j)) as A1.
    { intros ->. rewrite <- (cis_alias N (fz (N + 2) 0)) by auto. replace (fz (N + 2) 0 + Z.of_nat N)%Z with (fz N (N - 1)); [reflexivity|]. unfold fz. lia. }
    destruct (Nat.eqb_spec i 0) as [E0|E0], (Nat.eqb_spec i (N - 1)) as [E1|E1]; rewrite ?A0, ?A1 by auto; ring.
Qed.
(** the j-th value is the integral of g sin *)
Lemma K_integral a b j : (j < N)%nat ->
  is_CRInt (fun t => Cmult (of_coeffs x t) (RtoC (sin t))) (xg N j + a) (xg N j + b) (nth j (Finv (fourier_K x a b)) (RtoC 0)).
Proof.
  intro Hj. rewrite nth_Finv by (now rewrite length_fourier_K). rewrite length_fourier_K, K_alias by lia.
  apply (is_CRInt_ext (fun t => Cmult (RtoC (/ INR N)) (Csum (N + 2) (fun m => Cmult (Cdiv (wK m) (Cmult (RtoC 2) Ci)) (cis (IZR (fz (N + 2) m) * t)))))).
  - intro t. rewrite <- gK_sin. unfold gK, of_coeffs. fold N. unfold cis, fz. ring.
  - apply is_CRInt_scal.
    rewrite (Csum_ext _ _ (fun m => Cmult (Cdiv (wK m) (Cmult (RtoC 2) Ci)) (Cmult (I_entry (fz (N + 2) m) a b) (cis (IZR (fz (N + 2) m) * xg N j))))) by (intros; unfold yK, Cdiv; ring).
    apply is_CRInt_Csum. intros i Hi. apply is_CRInt_scal, is_CRInt_cis.
Qed.
End K.

(** ** fourier_K_inv *)
Section Kinv.
Variable x : list C.
Let N := length x.
Variables a b : R.
Notation ii := (Cmult (RtoC 2) Ci).
Notation Ie m := (I_entry (fz (N + 2) m) a b).
Definition PK (m : nat) : C := Cdiv (padC x m) ii.
Definition WK (m : nat) : C := Cdiv (wK x m) ii.
Lemma WK_0 : WK 0 = Copp (PK 1).
Proof. unfold WK, PK, wK, Cdiv. cbn [padC]. ring. Qed.
Lemma WK_S m : WK (S m) = Cminus (PK m) (PK (S (S m))).
Proof. unfold WK, PK, wK, Cdiv. ring. Qed.
Lemma PK_0 : PK 0 = RtoC 0. Proof. unfold PK, Cdiv. cbn [padC]. ring. Qed.
Lemma PK_high m : (N + 1 <= m)%nat -> PK m = RtoC 0.
Proof. intro. unfold PK, Cdiv. rewrite padC_high by (fold N; lia). ring. Qed.
Lemma WK_odd_sum r : Csum r (fun i => WK (2 * i + 1)) = Copp (PK (2 * r)).
Proof.
  induction r as [|r IH]; cbn [Csum]; [replace (2 * 0)%nat with 0%nat by lia; rewrite PK_0; ring|]. rewrite IH. replace (2 * r + 1)%nat with (S (2 * r)) by lia. rewrite WK_S.
  replace (2 * S r)%nat with (S (S (2 * r))) by lia. ring.
Qed.
Lemma WK_even_sum r : Csum r (fun i => WK (2 * i + 2)) = Cminus (PK 1) (PK (2 * r + 1)).
Proof.
  induction r as [|r IH]; cbn [Csum]; [cbn; ring|]. rewrite IH. replace (2 * r + 2)%nat with (S (2 * r + 1)) by lia. rewrite WK_S.
  replace (2 * S r + 1)%nat with (S (S (2 * r + 1))) by lia. ring.
Qed.
Lemma WK_even_sum0 r : Csum (S r) (fun i => WK (2 * i)) = Copp (PK (2 * r + 1)).
Proof.
  rewrite Csum_S_l. replace (2 * 0)%nat with 0%nat by lia. rewrite WK_0. rewrite (Csum_ext r _ (fun i => WK (2 * i + 2))) by (intros; f_equal; lia). rewrite WK_even_sum. ring.
Qed.
Hypothesis HN : (0 < N)%nat.
Hypothesis inner_neq0 : forall m, (1 <= m <= N)%nat -> Ie m <> RtoC 0.
Definition vK : list C := vdiv (fourier_K x a b) (inner (I_diag (N + 2) a b)).
Lemma nth_I_diag m : (m < N + 2)%nat -> nth m (I_diag (N + 2) a b) (RtoC 0) = Ie m.
Proof. intro. unfold I_diag. rewrite nth_map_ with (d' := 0%Z) by (rewrite length_freq; lia). now rewrite nth_freq by lia. Qed.
Lemma length_vK : length vK = N.
Proof. unfold vK, vdiv. rewrite length_zipw, length_fourier_K, length_inner, length_I_diag by lia. fold N. lia. Qed.
Lemma ii_neq0 : ii <> RtoC 0. Proof. intro H; apply (f_equal Im) in H; cbn in H; lra. Qed.
Lemma nth_vK i : (i < N)%nat -> nth i vK (RtoC 0) = Cplus (Cplus (WK (i + 1)) (if Nat.eqb i 0 then Cdiv (Cmult (PK N) (Ie (N + 1))) (Ie 1) else RtoC 0)) (if Nat.eqb i (N - 1) then Copp (Cdiv (Cmult (PK 1) (Ie 0)) (Ie N)) else RtoC 0).
Proof.
  intro Hi. unfold vK, vdiv. rewrite nth_zipw with (dx := RtoC 0) (dy := RtoC 0) by (rewrite ?length_fourier_K, ?length_inner, ?length_I_diag; fold N; lia).
  rewrite nth_inner by (rewrite length_I_diag; lia). rewrite nth_I_diag by lia. rewrite nth_fourier_K by (fold N; lia). fold N.
  assert (forall m, yK x a b m = Cmult (WK m) (Ie m)) as Y by (intro m; unfold yK, WK, Cdiv; fold N; ring).
  rewrite !Y. rewrite WK_0. replace (S i) with (i + 1)%nat by lia.
  assert (WK (N + 1) = PK N) as -> by (replace (N + 1)%nat with (S N) at 1 by lia; rewrite WK_S, (PK_high (S (S N))) by lia; ring).
  pose proof (inner_neq0 (i + 1) ltac:(lia)) as Hi1.
  destruct (Nat.eqb_spec i 0) as [E0|E0], (Nat.eqb_spec i (N - 1)) as [E1|E1].
  - assert (N = 1)%nat as E by lia. rewrite E0 in *. cbn [Nat.add] in *. rewrite E at 4. rewrite E in Hi1 |- *. cbn [Nat.add]. field. exact Hi1.
  - rewrite E0 in *. cbn [Nat.add] in *. field. exact Hi1.
  - replace (i + 1)%nat with N in * by lia. field. exact Hi1.
  - field. exact Hi1.
Qed.
Lemma lsum_evens_vK : lsum (evens vK) = if Nat.even N then Cplus (Copp (PK N)) (Cdiv (Cmult (PK N) (Ie (N + 1))) (Ie 1))
  else Cminus (Cdiv (Cmult (PK N) (Ie (N + 1))) (Ie 1)) (Cdiv (Cmult (PK 1) (Ie 0)) (Ie N)).
Proof.
  rewrite (lsum_bsum _ (RtoC 0)), bsum_Csum, length_evens, length_vK.
  rewrite (Csum_ext _ _ (fun i => Cplus (Cplus (WK (2 * i + 1)) (if Nat.eqb i 0 then Cdiv (Cmult (PK N) (Ie (N + 1))) (Ie 1) else RtoC 0)) (if Nat.eqb i (N / 2) then (if Nat.even N then RtoC 0 else Copp (Cdiv (Cmult (PK 1) (Ie 0)) (Ie N))) else RtoC 0))).
  2:{ intros i Hi. rewrite nth_evens, nth_vK by lia. f_equal; [f_equal|].
      - destruct (Nat.eqb_spec (2 * i) 0), (Nat.eqb_spec i 0); try reflexivity; lia.
      - destruct (Nat.even N) eqn:Ev; [apply Nat.even_spec in Ev; destruct Ev as [r Er]|assert (Nat.odd N = true) as Od by (unfold Nat.odd; now rewrite Ev); apply Nat.odd_spec in Od; destruct Od as [r Er]];
        destruct (Nat.eqb_spec (2 * i) (N - 1)), (Nat.eqb_spec i (N / 2)); try reflexivity; lia. }
  rewrite !Csum_plus, WK_odd_sum, Csum_at by lia.
  destruct (Nat.even N) eqn:Ev; [apply Nat.even_spec in Ev; destruct Ev as [r Er]|assert (Nat.odd N = true) as Od by (unfold Nat.odd; now rewrite Ev); apply Nat.odd_spec in Od; destruct Od as [r Er]].
  - rewrite (Csum_zero_ext _ (fun i => if Nat.eqb i (N / 2) then _ else _)) by (intros i _; now destruct (Nat.eqb _ _)).
    replace (2 * ((N + 1) / 2))%nat with N by lia. ring.
  - rewrite Csum_at by lia. rewrite (PK_high (2 * ((N + 1) / 2))) by lia. unfold Cdiv. ring.
Qed.
Lemma lsum_odds_vK : lsum (odds vK) = if Nat.even N then Cminus (PK 1) (Cdiv (Cmult (PK 1) (Ie 0)) (Ie N)) else Cminus (PK 1) (PK N).
Proof.
  rewrite (lsum_bsum _ (RtoC 0)), bsum_Csum, length_odds, length_vK.
  rewrite (Csum_ext _ _ (fun i => Cplus (WK (2 * i + 2)) (if Nat.eqb i (N / 2 - 1) then (if Nat.even N then Copp (Cdiv (Cmult (PK 1) (Ie 0)) (Ie N)) else RtoC 0) else RtoC 0))).
  2:{ intros i Hi. rewrite nth_odds, nth_vK by lia. replace (2 * i + 1 + 1)%nat with (2 * i + 2)%nat by lia.
      destruct (Nat.eqb_spec (2 * i + 1) 0); [lia|]. rewrite Cplus_0_r. f_equal.
      - destruct (Nat.even N) eqn:Ev; [apply Nat.even_spec in Ev; destruct Ev as [r Er]|assert (Nat.odd N = true) as Od by (unfold Nat.odd; now rewrite Ev); apply Nat.odd_spec in Od; destruct Od as [r Er]];
        destruct (Nat.eqb_spec (2 * i + 1) (N - 1)), (Nat.eqb_spec i (N / 2 - 1)); try reflexivity; lia. }
  rewrite !Csum_plus, WK_even_sum.
  destruct (Nat.even N) eqn:Ev; [apply Nat.even_spec in Ev; destruct Ev as [r Er]|assert (Nat.odd N = true) as Od by (unfold Nat.odd; now rewrite Ev); apply Nat.odd_spec in Od; destruct Od as [r Er]].
  - rewrite Csum_at by lia. rewrite (PK_high (2 * (N / 2) + 1)) by lia. unfold Cdiv. ring.
  - rewrite (Csum_zero_ext _ (fun i => if Nat.eqb i (N / 2 - 1) then _ else _)) by (intros i _; now destruct (Nat.eqb _ _)).
    replace (2 * (N / 2) + 1)%nat with N by lia. ring.
Qed.
Definition regularK : Prop := if Nat.even N then Ie 0 <> Ie N /\ Ie 1 <> Ie (N + 1)
  else Ie 0 <> RtoC 0 /\ Ie (N + 1) <> RtoC 0 /\ Cmult (Ie 0) (Ie 1) <> Cmult (Ie N) (Ie (N + 1)).
Lemma Cminus_neq0 (u v : C) : u <> v -> Cminus u v <> RtoC 0.
Proof. intros H E. apply H. replace u with (Cplus (Cminus u v) v) by ring. rewrite E. ring. Qed.
Lemma tail_K : let X := tab (N + 2) WK in
  map (fun z => Cmult z ii) (weave (map Copp (removelast (cumsum (evens X)))) (rev (removelast (cumsum (rev (odds X)))))) = x.
Proof.
  intro X. assert (length X = N + 2)%nat as LX by apply length_tab.
  assert (length (map Copp (removelast (cumsum (evens X)))) = (N + 1) / 2)%nat as Le by (rewrite map_length, length_removelast, length_cumsum, length_evens, LX; lia).
  assert (length (rev (removelast (cumsum (rev (odds X))))) = N / 2)%nat as Lo by (rewrite rev_length, length_removelast, length_cumsum, rev_length, length_odds, LX; lia).
  apply list_eq_nth with (d := RtoC 0); [rewrite map_length, length_weave by lia; fold N; lia|].
  rewrite map_length, length_weave, Le, Lo by lia. intros i Hi.
  rewrite nth_map_ with (d' := RtoC 0) by (rewrite length_weave; lia).
  destruct (Nat.Even_or_Odd i) as [[t ->]|[t ->]].
  - rewrite nth_weave_even by lia. rewrite nth_map_ with (d' := RtoC 0) by (rewrite length_removelast, length_cumsum, length_evens, LX; lia).
    rewrite nth_removelast by (rewrite length_cumsum, length_evens, LX; lia).
    pose proof (nth_cumsum (evens X) t) as E. rewrite length_evens, LX in E. specialize (E ltac:(lia)). change (@nzero C NumC) with (RtoC 0) in E. rewrite E, bsum_Csum.
    rewrite (Csum_ext _ _ (fun i => WK (2 * i))) by (intros; rewrite nth_evens; unfold X; rewrite nth_tab by lia; reflexivity).
    rewrite WK_even_sum0. unfold PK. replace (2 * t + 1)%nat with (S (2 * t)) by lia. cbn [padC]. field. split; [|apply ii_neq0 || idtac]; try (intro H; apply (f_equal Im) in H; cbn in H; lra); intro H; apply (f_equal Re) in H; cbn in H; lra.
  - rewrite nth_weave_odd by lia. rewrite rev_nth by (rewrite <- rev_length, Lo; lia). rewrite <- rev_length, Lo.
    rewrite nth_removelast by (rewrite length_cumsum, rev_length, length_odds, LX; lia).
    pose proof (nth_cumsum (rev (odds X)) (N / 2 - S t)) as E. rewrite rev_length, length_odds, LX in E. specialize (E ltac:(lia)). change (@nzero C NumC) with (RtoC 0) in E. rewrite E, bsum_Csum.
    rewrite (Csum_ext _ _ (fun i => WK (2 * (N / 2 - i) + 1))).
    2:{ intros s Hs. rewrite rev_nth by (rewrite length_odds, LX; lia). rewrite length_odds, LX, nth_odds. unfold X. rewrite nth_tab by lia. f_equal. lia. }
    set (q := (N / 2)%nat) in *.
    assert (forall n, (n <= q)%nat -> Csum (S n) (fun i => WK (2 * (q - i) + 1)) = PK (2 * (q - n))) as T.
    { induction n as [|n IH]; intro Hn.
      - cbn [Csum]. replace (2 * (q - 0) + 1)%nat with (S (2 * (q - 0))) by lia. rewrite WK_S, (PK_high (S (S (2 * (q - 0))))) by (unfold q; lia). ring.
      - cbn [Csum] in *. rewrite IH by lia. replace (2 * (q - S n) + 1)%nat with (S (2 * (q - S n))) by lia. rewrite WK_S.
        replace (S (S (2 * (q - S n)))) with (2 * (q - n))%nat by lia. ring. }
    rewrite T by lia. replace (2 * (q - (q - S t)))%nat with (S (2 * t + 1)) by lia. unfold PK. cbn [padC]. field. split; try (intro H; apply (f_equal Im) in H; cbn in H; lra); intro H; apply (f_equal Re) in H; cbn in H; lra.
Qed.
Ltac swapE E := first [ etransitivity; [|etransitivity; [exact E|]]; ring | symmetry; etransitivity; [|etransitivity; [exact E|]]; ring ].
Theorem K_inv_K close : kguard close N a b = false -> regularK -> fourier_K_inv close (fourier_K x a b) a b = Ok x.
Proof.
  intros G Rg. unfold fourier_K_inv. rewrite length_fourier_K. fold N. cbv zeta. unfold kguard in G. rewrite G. fold vK.
  rewrite lsum_evens_vK, lsum_odds_vK. rewrite !nth_I_diag by lia.
  pose proof (inner_neq0 1 ltac:(lia)) as H1. pose proof (inner_neq0 N ltac:(lia)) as HN'.
  set (y0 := if Nat.eqb N 1 then _ else _). set (yl := if Nat.even N then Cdiv _ (Cminus (Cdiv (Ie (N + 1)) (Ie 1)) _) else _) in *.
  assert (yl = PK N) as El.
  { unfold yl. unfold regularK in Rg. destruct (Nat.even N).
    - destruct Rg as [_ R1]. field. split; [exact H1|]. apply Cminus_neq0. congruence.
    - destruct Rg as (R0 & R1 & R2). field. repeat split; auto. apply Cminus_neq0. intro E. apply R2. swapE E. }
  assert (y0 = PK 1) as E0.
  { unfold y0. unfold regularK in Rg. destruct (Nat.eqb_spec N 1) as [E|E]; [now rewrite El, E|]. destruct (Nat.even N).
    - destruct Rg as [R0 _]. field. split; [exact HN'|]. apply Cminus_neq0. congruence.
    - destruct Rg as (R0 & R1 & R2). field. repeat split; auto. apply Cminus_neq0. intro E'. apply R2. swapE E'. }
  f_equal. etransitivity; [|exact tail_K]. cbv zeta.
  enough ([Copp y0] ++ add_last (Cdiv (Cmult y0 (Ie 0)) (Ie N)) (add_first (Copp (Cdiv (Cmult yl (Ie (N + 1))) (Ie 1))) vK) ++ [yl] = tab (N + 2) WK) as -> by reflexivity.
  rewrite El, E0. clear y0 yl El E0.
  apply list_eq_nth with (d := RtoC 0).
  - rewrite !app_length, length_add_last, length_add_first, length_vK, length_tab. cbn. lia.
  - rewrite !app_length, length_add_last, length_add_first, length_vK. cbn [length]. intros m Hm. rewrite nth_tab by lia.
    destruct m as [|m]; [now rewrite WK_0|]. cbn [app nth]. rewrite nth_app_, length_add_last, length_add_first, length_vK.
    destruct (Nat.ltb_spec m N).
    + rewrite (nth_add_last x) by (rewrite length_add_first, length_vK; lia). rewrite length_add_first, length_vK.
      rewrite (nth_add_first x) by (rewrite length_vK; lia). rewrite nth_vK by auto. replace (S m) with (m + 1)%nat by lia.
      destruct (Nat.eqb m 0), (Nat.eqb m (N - 1)); ring.
    + assert (m = N) by lia. subst m. rewrite Nat.sub_diag. cbn [nth]. rewrite WK_S, (PK_high (S (S N))) by lia. ring.
Qed.
End Kinv.
