(** The cells of the Chebyshev grid, H0_cheb, and the interpolations S_cheb, S_cheb_pinv. *)
From Coq Require Import ZArith Reals List Lia Lra Arith.
From Coq Require Import ZifyNat.
From Coquelicot Require Import Coquelicot.
From Verif Require Import Model.Num Model.Np Model.Spectral Model.Basis Model.Grids1 Model.Regular Model.Chebyshev Spec.Trig Spec.CInt Spec.Poly Proofs.ListLemmas Proofs.Sums
  Proofs.Fourier Proofs.RIntLemmas Proofs.Kernels Proofs.Trig Proofs.Ops Proofs.Exact Proofs.BasisP Proofs.Grids1P Proofs.GridsThm Proofs.RingSums Proofs.Mirror Proofs.Symm Proofs.RegularP Proofs.PeriodicBasis Proofs.RegularBasis
  Proofs.Lin Proofs.TableLin Proofs.LinAlg Proofs.FourierK Proofs.Cheb1 Proofs.ChebPoly Proofs.TrigAlg.
Import ListNotations.
Local Open Scope R_scope.
Ltac Zify.zify_post_hook ::= Z.div_mod_to_equations.

Lemma RInt_Chasles_cont (g : R -> R) a b c : (forall x, continuous g x) -> RInt g a b + RInt g b c = RInt g a c.
Proof. intro H. apply (RInt_Chasles (V := R_CompleteNormedModule)); now apply ex_RInt_cont_all. Qed.
Lemma RInt_period (g : R -> R) a b : (forall t, continuous g t) -> (forall t, g (t + 2 * PI) = g t) -> RInt g (a + 2 * PI) (b + 2 * PI) = RInt g a b.
Proof. intros H P. rewrite <- (RInt_shift g (2 * PI)) by auto. apply RInt_ext. intros; apply P. Qed.
Lemma RInt_Rplus0 (g : R -> R) a b a' b' : a = a' -> b = b' -> RInt g a b = RInt g a' b'.
Proof. now intros -> ->. Qed.

Lemma fold_left_ext {A B} (f g : A -> B -> A) l a : (forall a b, In b l -> f a b = g a b) -> fold_left f l a = fold_left g l a.
Proof. revert a. induction l as [|b l IH]; intros a H; cbn; [reflexivity|]. rewrite H by now left. apply IH. intros; apply H; now right. Qed.
Lemma R_form_ext B B' sz sz' deg pr a x y : sz deg pr = sz' deg pr -> (forall i, (i < sz deg pr)%nat -> B deg pr i x = B' deg pr i y) -> R_form B sz deg pr a x = R_form B' sz' deg pr a y.
Proof.
  intros S H. unfold R_form, recon, basis_fn. rewrite !map_length, !seq_length, <- S. unfold osum. apply fold_left_ext. intros acc i Hi. apply in_seq in Hi. do 2 f_equal.
  rewrite nth_indep with (d' := B deg pr 0%nat) by (rewrite map_length, seq_length; lia).
  rewrite (nth_indep (map (B' deg pr) _)) with (d' := B' deg pr 0%nat) by (rewrite map_length, seq_length; lia).
  rewrite !map_nth, seq_nth by lia. apply H. cbn in *. lia.
Qed.

Section Cheb2.
Variable n : nat.
Hypothesis Hn : (2 <= n)%nat.
Let N := (2 * (n - 1))%nat.
Notation h := (hstep N).
Notation k := (n - 1)%nat.
Let HN : (0 < N)%nat. Proof. unfold N; lia. Qed.

Lemma cd_cells : exists c, chebyshev_default n = Ok c /\
  verts c = tab n (fun i => - cos (xg N i)) /\ edges c = (tab k (fun i => - cos (xg N i)), tab k (fun i => - cos (xg N (S i)))) /\
  verts_dual c = tab k (fun i => - cos (xg N i + h / 2)) /\
  edges_dual c = (tab n (fun i => - cos (tdual n i)), tab n (fun i => - cos (tdual n (S i)))).
Proof.
  unfold chebyshev_default. destruct (chebyshev_cells_tab n (-1) 1 Hn) as (c & E & Ec). exists c. split; [exact E|]. cbv zeta in Ec. subst c.
  cbn [verts edges verts_dual edges_dual].
  assert (INR (n - 1) <> 0) as Hk by (apply not_0_INR; lia).
  assert (forall i, pc n (-1) 1 i = - cos (INR i * (h / 2))) as Ep.
  { intro i. unfold pc. set (t := INR i * _). replace (INR i * (h / 2)) with t; [replace (- PI / 2 + t) with (- (PI / 2 - t)) by field; rewrite sin_neg, sin_shift; field|].
    unfold t. pose proof (hstep_N n Hn) as E'. fold N in E'. rewrite E'. replace (2 * n - 2)%nat with (2 * (n - 1))%nat by lia. rewrite mult_INR. cbn [INR]. field. auto. }
  assert (forall i, pc n (-1) 1 (2 * i) = - cos (xg N i)) as E0.
  { intro i. rewrite Ep. do 2 f_equal. rewrite mult_INR. unfold xg. cbn [INR]. field. }
  assert (forall i, pc n (-1) 1 (2 * i + 1) = - cos (xg N i + h / 2)) as E1.
  { intro i. rewrite Ep. do 2 f_equal. rewrite plus_INR, mult_INR. unfold xg. cbn [INR]. field. }
  assert (forall i, (if Nat.eqb i 0 then -1 else if Nat.eqb i n then 1 else pc n (-1) 1 (2 * (i - 1) + 1)) = - cos (tdual n i)) as Et.
  { intro i. unfold tdual. rewrite E1. destruct (Nat.eqb i 0); [rewrite cos_0; ring|]. destruct (Nat.eqb i n); [rewrite cos_PI; ring|reflexivity]. }
  repeat split; repeat match goal with |- (_, _) = (_, _) => f_equal end; apply tab_ext; intros; rewrite ?Et, ?E0, ?E1; reflexivity.
Qed.

(** the even extension of the values at the vertices, and of the values at the dual vertices *)
Definition g0 (f : list R) (t : R) : R := interp (mirror0 1 f) t.
Definition g1 (f : list R) (t : R) : R := interp (mirror1 1 f) (t - h / 2).
Lemma g0_even f t : length f = n -> g0 f (- t) = g0 f t.
Proof. intro L. unfold g0. rewrite !(interp_conv0 n Hn) by auto. apply (conv_even0 n Hn _ (alphaS_even N) (alphaS_period N)). auto. Qed.
Lemma g1_even f t : length f = k -> g1 f (- t) = g1 f t.
Proof. intro L. unfold g1. rewrite !(interp_conv1 n) by auto. fold N. pose proof (conv_even1 n Hn (alphaS N) (alphaS_even N) (alphaS_period N) 1 f t ltac:(ring) L) as E. fold N in E. rewrite E. ring. Qed.
Lemma g0_period f t : length f = n -> g0 f (t + 2 * PI) = g0 f t.
Proof. intro L. unfold g0. rewrite !(interp_conv0 n Hn) by auto. apply (conv_period n _ (alphaS_period N)). Qed.
Lemma g0_cont f t : continuous (g0 f) t. Proof. apply interp_cont. Qed.
Lemma g1_cont f t : continuous (g1 f) t.
Proof. unfold g1. apply (continuous_comp (fun t => t - h / 2) (interp (mirror1 1 f))); [apply continuous_derivable; auto_derive; auto|apply interp_cont]. Qed.
Lemma gs_cont (g : R -> R) t : (forall t, continuous g t) -> continuous (fun t => g t * sin t) t.
Proof. intro H. apply (continuous_mult g sin); [apply H|apply continuous_derivable; auto_derive; auto]. Qed.

Lemma H0_val f : length f = n -> H0_cheb f = Ok (tab n (fun i => cell_sin (g0 f) (tdual n i) (tdual n (S i)))).
Proof.
  intro L. pose proof (len_m0 n Hn 1 f L) as Lm. fold N in Lm. unfold H0_cheb.
  rewrite (with_h_ok _ _ (N - 1)) by (rewrite length_cplxv; lia). rewrite length_cplxv, Lm. cbn [bind]. f_equal.
  set (z := Finv _). assert (length z = N) as Lz by (unfold z; now rewrite length_Finv, length_fourier_K, length_F, length_cplxv).
  set (G := fun t => g0 f t * sin t). assert (forall t, continuous G t) as Cg by (intro; apply gs_cont; intro; apply g0_cont).
  assert (forall t, G (- t) = - G t) as Od by (intro; unfold G; rewrite sin_neg, g0_even by auto; ring).
  assert (forall t, G (t + 2 * PI) = G t) as Pe.
  { intro. unfold G. rewrite g0_period by auto. f_equal. replace (t + 2 * PI) with (t + 2 * INR 1 * PI) by (cbn; ring). apply sin_period. }
  assert (forall j, (j < N)%nat -> Re (nth j z (RtoC 0)) = RInt G (xg N j) (xg N j + h / 2)) as Ez.
  { intros j Hj. pose proof (K_integral (F (cplxv (mirror0 1 f))) 0 (h / 2) j) as K. rewrite length_F, length_cplxv, Lm in K. specialize (K Hj).
    rewrite Rplus_0_r in K. apply RInt_Re in K. unfold z. rewrite <- K. apply RInt_ext. intros t _. unfold G, g0. rewrite <- Re_of_coeffs by lia. cbn. ring. }
  apply list_eq_nth with (d := 0).
  - unfold fold0, vadd. rewrite length_realv, length_zipw, map_length, !app_length, !firstn_length, rev_length, Lz, length_tab. cbn [length]. unfold N. lia.
  - unfold fold0, vadd. rewrite length_realv, length_zipw, map_length, !app_length, !firstn_length, rev_length, Lz. cbn [length]. intros i Hi.
    assert (i < n)%nat as Hin by (unfold N in Hi; lia). rewrite nth_tab by auto. rewrite nth_realv.
    rewrite nth_zipw with (dx := RtoC 0) (dy := RtoC 0) by (rewrite ?map_length, !app_length, !firstn_length, ?rev_length, Lz; cbn [length]; lia).
    rewrite nth_map_ with (d' := RtoC 0) by (rewrite !app_length, !firstn_length, ?rev_length, Lz; cbn [length]; lia).
    replace (N / 2)%nat with k by (unfold N; lia).
    rewrite !nth_app_. rewrite firstn_length, Lz. replace (Nat.min k N) with k by (unfold N; lia). cbn [length].
    cbn [nadd nmul NumC]. change (Re (Cplus ?a ?b)) with (Re a + Re b). rewrite Re_mult_RtoC.
    unfold cell_sin. fold G. change (fun t => g0 f t * sin t) with G. unfold tdual. fold N. change (Nat.eqb (S i) 0) with false. cbv iota. replace (S i - 1)%nat with i by lia.
    assert ((1 <= i)%nat -> nth (i - 1) (firstn k (rev z)) (RtoC 0) = nth (N - i) z (RtoC 0)) as Er.
    { intro. rewrite nth_firstn_ by lia. rewrite rev_nth by (unfold N in *; lia). rewrite Lz. f_equal. unfold N; lia. }
    assert ((1 <= i)%nat -> Re (nth (N - i) z (RtoC 0)) = - RInt G (xg N i - h / 2) (xg N i)) as Eneg.
    { intro. rewrite Ez by (unfold N in *; lia). pose proof (xg_ref n Hn i ltac:(unfold N in *; lia)) as Xr. fold N in Xr. rewrite Xr.
      rewrite <- RInt_odd by auto. rewrite <- (RInt_period G (- xg N i)) by auto. apply RInt_Rplus0; field. }
    destruct (Nat.ltb_spec i k) as [Hk|Hk].
    + rewrite nth_firstn_ by auto. rewrite Ez by (unfold N; lia). destruct (Nat.eqb_spec (S i) n); [lia|].
      destruct (Nat.ltb_spec i 1) as [H1|H1].
      * replace i with 0%nat by lia. cbn [nth Nat.eqb]. rewrite xg_0. change (@nzero C NumC) with (RtoC 0). rewrite Re_RtoC. ring.
      * rewrite Er, Eneg by lia. destruct (Nat.eqb_spec i 0); [lia|]. destruct (Nat.eqb_spec i n); [lia|].
        rewrite <- (RInt_Chasles_cont G (xg N (i - 1) + h / 2) (xg N i)) by auto. replace (xg N (i - 1) + h / 2) with (xg N i - h / 2); [ring|].
        replace i with (S (i - 1)) at 1 by lia. rewrite xg_S. field.
    + replace i with k in * by lia. replace (k - k)%nat with 0%nat by lia. cbn [nth]. change (@nzero C NumC) with (RtoC 0). rewrite Re_RtoC.
      destruct (Nat.ltb_spec k 1); [lia|]. rewrite Er, Eneg by lia. destruct (Nat.eqb_spec k 0); [lia|]. destruct (Nat.eqb_spec k n); [lia|]. destruct (Nat.eqb_spec (S k) n); [|lia].
      pose proof (xg_mid n Hn) as Xm. fold N in Xm. rewrite Xm. replace (xg N (k - 1) + h / 2) with (PI - h / 2); [ring|].
      rewrite <- Xm. replace k with (S (k - 1)) at 1 by lia. rewrite xg_S. field.
Qed.

(** R0 and R0d are polynomials in x *)
Definition R_cheb := R_form (B_chebyshev n) (sizes_interval n).
Lemma acos_cos' t : 0 <= t <= PI -> acos (- - cos t) = t.
Proof. intro H. rewrite Ropp_involutive. apply acos_cos; lra. Qed.
Lemma Rc0 a x : length a = n -> R_cheb 0 true a x = R_regular n 0 true a (acos (- x)).
Proof. intros _. apply R_form_ext; reflexivity. Qed.
Lemma Rc0d a x : R_cheb 0 false a x = R_regular n 0 false a (acos (- x)).
Proof. apply R_form_ext; reflexivity. Qed.
Lemma Rc0_val a x : length a = n -> R_cheb 0 true a x = Some (g0 a (acos (- x))).
Proof. intro L. rewrite Rc0 by auto. apply (Rr0 n Hn); auto. pose proof (acos_bound (- x)). lra. Qed.
Lemma Rc0d_val a x : length a = k -> R_cheb 0 false a x = Some (g1 a (acos (- x))).
Proof. intro L. rewrite Rc0d. unfold g1. apply (Rr0d n Hn); auto. pose proof (acos_bound (- x)). lra. Qed.
Lemma g0_cosp a : length a = n -> cosp k (g0 a).
Proof.
  intro L. apply even_cosp; [|intro; now apply g0_even]. pose proof (len_m0 n Hn 1 a L) as Lm. fold N in Lm.
  destruct (interp_trig (mirror0 1 a) ltac:(lia)) as (u & w & _ & E). rewrite Lm in E. replace (N / 2)%nat with k in E by (unfold N; lia). exists u, w. exact E.
Qed.
Lemma g1_cosp a : length a = k -> cosp (k - 1) (g1 a).
Proof.
  intro L. pose proof (len_m1 n 1 a L) as Lm. fold N in Lm.
  destruct (interp_trig (mirror1 1 a) ltac:(lia)) as (u & w & Hw & E). rewrite Lm in E, Hw. assert (Nat.even N = true) as Ev by (apply Nat.even_spec; now exists k). specialize (Hw Ev).
  replace (N / 2)%nat with k in * by (unfold N; lia).
  exists (fun m => u m * cos (INR m * (h / 2)) - (if Nat.eqb m 0 then 0 else w m * sin (INR m * (h / 2)))). intro t.
  replace (g1 a t) with ((g1 a t + g1 a (- t)) / 2) by (rewrite g1_even by auto; field). unfold g1. rewrite !E. unfold trig.
  rewrite Rmult_0_l, cos_0. cbn [Nat.eqb].
  transitivity (u 0%nat + / 2 * Rsum k (fun m => 2 * ((u (S m) * cos (INR (S m) * (h / 2)) - w (S m) * sin (INR (S m) * (h / 2))) * cos (INR (S m) * t)))).
  - replace (/ 2 * Rsum k _) with (/ 2 * (Rsum k (fun m => u (S m) * cos (INR (S m) * (t - h / 2)) + w (S m) * sin (INR (S m) * (t - h / 2))) + Rsum k (fun m => u (S m) * cos (INR (S m) * (- t - h / 2)) + w (S m) * sin (INR (S m) * (- t - h / 2))))); [field|].
    f_equal. rewrite <- Rsum_plus. apply Rsum_ext. intros m _. replace (INR (S m) * (t - h / 2)) with (INR (S m) * t - INR (S m) * (h / 2)) by ring.
    replace (INR (S m) * (- t - h / 2)) with (- (INR (S m) * t + INR (S m) * (h / 2))) by ring. rewrite cos_neg, sin_neg, cos_minus, sin_minus, cos_plus, sin_plus. ring.
  - rewrite Rsum_scal. replace k with (S (k - 1)) at 1 by lia. cbn [Rsum]. replace (S (k - 1)) with k by lia. rewrite Hw.
    replace (INR k * (h / 2)) with (PI / 2) by (rewrite <- (cheb_kh n Hn); fold N; field). rewrite cos_PI2. field.
Qed.
Lemma neg_cos_acos x : -1 <= x <= 1 -> - cos (acos (- x)) = x.
Proof. intro H. rewrite cos_acos by lra. ring. Qed.
(** R0 and R0d are polynomials on [-1, 1] *)
Lemma R0_poly a : length a = n -> exists P, polynomial k P /\ (forall t, g0 a t = P (- cos t)) /\ forall x, -1 <= x <= 1 -> R_cheb 0 true a x = Some (P x).
Proof.
  intro L. destruct (cosp_poly _ _ (g0_cosp a L)) as (P & HP & E). exists P. repeat split; auto. intros x Hx. rewrite Rc0_val by auto. now rewrite E, neg_cos_acos.
Qed.
Lemma R0d_poly a : length a = k -> exists P, polynomial (k - 1) P /\ (forall t, g1 a t = P (- cos t)) /\ forall x, -1 <= x <= 1 -> R_cheb 0 false a x = Some (P x).
Proof.
  intro L. destruct (cosp_poly _ _ (g1_cosp a L)) as (P & HP & E). exists P. repeat split; auto. intros x Hx. rewrite Rc0d_val by auto. now rewrite E, neg_cos_acos.
Qed.
Lemma RInt_R_poly (F : R -> option R) P d a b : polynomial d P -> (forall x, -1 <= x <= 1 -> F x = Some (P x)) ->
  RInt (tot F) (- cos a) (- cos b) = RInt (fun t => P (- cos t) * sin t) a b.
Proof.
  intros HP E. rewrite <- RInt_cos_subst by (intro; now apply (poly_cont d)). apply RInt_ext. intros x Hx. unfold tot. rewrite E; [reflexivity|].
  pose proof (COS_bound a). pose proof (COS_bound b). unfold Rmin, Rmax in Hx. destruct (Rle_dec _ _); lra.
Qed.
Theorem H0_is_P_R a : length a = n -> exists c, chebyshev_default n = Ok c /\ H0_cheb a = Ok (P1d c (tot (R_cheb 0 true a))).
Proof.
  intro L. destruct cd_cells as (c & E & _ & _ & _ & Ed). exists c. split; [exact E|]. rewrite H0_val by auto. f_equal. unfold P1d, Grids1.proj1. rewrite Ed. cbn [fst snd]. rewrite zipw_tab.
  apply tab_ext. intros i _. destruct (R0_poly a L) as (P & HP & Eg & Ex). rewrite (RInt_R_poly _ P k) by auto. unfold cell_sin. apply RInt_ext. intros; now rewrite Eg.
Qed.
Theorem H0d_is_P_R b : length b = k -> exists c, chebyshev_default n = Ok c /\ H0d_cheb b = Ok (P1 c (tot (R_cheb 0 false b))).
Proof.
  intro L. destruct cd_cells as (c & E & _ & Ee & _ & _). exists c. split; [exact E|]. rewrite (H0d_val n Hn) by auto. f_equal. unfold P1, Grids1.proj1. rewrite Ee. cbn [fst snd]. rewrite zipw_tab.
  apply tab_ext. intros i _. destruct (R0d_poly b L) as (P & HP & Eg & Ex). rewrite (RInt_R_poly _ P (k - 1)) by auto. unfold zK, cell_sin. fold N. rewrite xg_S. apply RInt_ext. intros t _. rewrite <- Eg. reflexivity.
Qed.

(** interpolation *)
Lemma nth_T_real v s j : (j < length v)%nat -> nth j (realv (Finv (vmul (F (cplxv v)) (S_diag (length v) s)))) 0 = interp v (xg (length v) j + s).
Proof.
  intro Hj. pose proof (vmul_F_fm (cplxv v) (dS s)) as E. rewrite length_cplxv in E. unfold S_diag. change (fun n0 : Z => cis (IZR n0 * s)) with (dS s). rewrite E by lia.
  rewrite nth_real_fm by auto. unfold interp. apply Rsum_ext. intros m Hm. unfold dS. rewrite kern_S. do 2 f_equal. ring.
Qed.
Lemma S_val f : length f = n -> S_cheb f = Ok (tab k (fun j => g0 f (xg N j + h / 2))).
Proof.
  intro L. pose proof (len_m0 n Hn 1 f L) as Lm. fold N in Lm. unfold S_cheb.
  rewrite (with_h_ok _ _ (N - 1)) by (rewrite length_cplxv; lia). rewrite !length_cplxv, Lm. cbn [bind]. f_equal.
  apply list_eq_nth with (d := 0).
  - rewrite length_realv, length_tab. unfold unmirror1. rewrite firstn_length, length_Finv. unfold vmul, S_diag. rewrite length_zipw, length_F, length_cplxv, map_length, length_freq, Lm by lia. unfold N; lia.
  - rewrite length_realv. unfold unmirror1. rewrite firstn_length, length_Finv. unfold vmul at 1 2, S_diag at 1 2. rewrite length_zipw, length_F, length_cplxv, map_length, length_freq, Lm by lia. intros j Hj.
    assert (j < k)%nat by (unfold N in Hj; lia). rewrite nth_tab by auto. rewrite nth_realv, nth_firstn_.
    + rewrite <- nth_realv. pose proof (nth_T_real (mirror0 1 f) (h / 2) j) as E. rewrite Lm in E. apply E. unfold N; lia.
    + rewrite ?length_Finv; unfold vmul, S_diag; rewrite ?length_zipw, ?length_F, ?length_cplxv, ?map_length, ?length_freq, ?Lm by lia; unfold N; lia.
Qed.
Lemma Sp_val f : length f = k -> S_cheb_pinv f = Ok (tab n (fun j => g1 f (xg N j))).
Proof.
  intro L. pose proof (len_m1 n 1 f L) as Lm. fold N in Lm. unfold S_cheb_pinv.
  rewrite (with_h_ok _ _ (N - 1)) by (rewrite length_cplxv; lia). rewrite !length_cplxv, Lm. cbn [bind]. f_equal.
  apply list_eq_nth with (d := 0).
  - rewrite length_realv, length_tab. unfold unmirror0. rewrite firstn_length, length_Finv. unfold vmul, S_diag. rewrite length_zipw, length_F, length_cplxv, map_length, length_freq, Lm by lia. unfold N; lia.
  - rewrite length_realv. unfold unmirror0. rewrite firstn_length, length_Finv. unfold vmul at 1 2, S_diag at 1 2. rewrite length_zipw, length_F, length_cplxv, map_length, length_freq, Lm by lia. intros j Hj.
    assert (j < n)%nat by (unfold N in Hj; lia). rewrite nth_tab by auto. rewrite nth_realv, nth_firstn_.
    + rewrite <- nth_realv. pose proof (nth_T_real (mirror1 1 f) (- h / 2) j) as E. rewrite Lm in E. unfold g1. rewrite E by lia. f_equal. field.
    + rewrite ?length_Finv; unfold vmul, S_diag; rewrite ?length_zipw, ?length_F, ?length_cplxv, ?map_length, ?length_freq, ?Lm by lia; unfold N; lia.
Qed.
(** a polynomial of degree n-1 (n-2) through the values at the vertices (dual vertices) is R0 (R0d) *)
Lemma cos_ref j : (j <= N)%nat -> cos (xg N (N - j)) = cos (xg N j).
Proof.
  intro H. pose proof (xg_ref n Hn j H) as E. fold N in E. rewrite E. rewrite <- (cos_neg (xg N j)). replace (2 * PI - xg N j) with (- xg N j + 2 * INR 1 * PI) by (cbn; ring). apply cos_period.
Qed.
Lemma poly_g0 P f : polynomial k P -> length f = n -> (forall j, (j < n)%nat -> nth j f 0 = P (- cos (xg N j))) -> forall t, P (- cos t) = g0 f t.
Proof.
  intros HP L Hf. pose proof (len_m0 n Hn 1 f L) as Lm. fold N in Lm. unfold g0. apply (interp_unique (mirror0 1 f) (fun t => P (- cos t))); rewrite ?Lm; auto.
  - apply (cosp_interpolant N k); [unfold N; lia|now apply poly_cosp].
  - intros j. rewrite Lm. intro Hj. rewrite <- xg_eq by auto. rewrite nth_mirror0 by (rewrite L; unfold N in Hj; lia). rewrite L. destruct (Nat.ltb_spec j n); [now apply Hf|].
    cbn [nmul NumR]. rewrite Rmult_1_l. replace (2 * n - 2 - j)%nat with (N - j)%nat by (unfold N; lia). rewrite Hf by (unfold N; lia). now rewrite cos_ref by lia.
Qed.
Lemma cos_ref1 j : (j < N)%nat -> cos (xg N (N - 1 - j) + h / 2) = cos (xg N j + h / 2).
Proof.
  intro H. replace (N - 1 - j)%nat with (N - S j)%nat by lia. pose proof (xg_ref n Hn (S j) H) as E. fold N in E. rewrite E, xg_S. rewrite <- (cos_neg (xg N j + h / 2)).
  replace (2 * PI - (xg N j + h) + h / 2) with (- (xg N j + h / 2) + 2 * INR 1 * PI) by (cbn; field). apply cos_period.
Qed.
Lemma poly_g1 P f : polynomial (k - 1) P -> length f = k -> (forall j, (j < k)%nat -> nth j f 0 = P (- cos (xg N j + h / 2))) -> forall t, P (- cos t) = g1 f t.
Proof.
  intros HP L Hf t. pose proof (len_m1 n 1 f L) as Lm. fold N in Lm. unfold g1.
  replace t with (t - h / 2 + h / 2) at 1 by ring.
  apply (interp_unique (mirror1 1 f) (fun t => P (- cos (t + h / 2)))); rewrite ?Lm; auto.
  - apply (trig_degree_interpolant N (k - 1)); [unfold N; lia|]. apply (td_shift (k - 1) (h / 2) (fun t => P (- cos t))). now apply cosp_degree, poly_cosp.
  - intros j. rewrite Lm. intro Hj. rewrite <- xg_eq by auto. rewrite nth_mirror1 by (rewrite L; unfold N in Hj; lia). rewrite L. destruct (Nat.ltb_spec j k); [now apply Hf|].
    cbn [nmul NumR]. rewrite Rmult_1_l. replace (2 * k - 1 - j)%nat with (N - 1 - j)%nat by (unfold N; lia). rewrite Hf by (unfold N; lia). now rewrite cos_ref1 by lia.
Qed.
Lemma g0_vert f j : length f = n -> (j < n)%nat -> g0 f (xg N j) = nth j f 0.
Proof.
  intros L Hj. pose proof (len_m0 n Hn 1 f L) as Lm. fold N in Lm. unfold g0. destruct (Nat.eq_dec j N) as [->|Hne].
  - unfold N in Hj. lia.
  - pose proof (interp_grid (mirror0 1 f) j) as G. rewrite Lm in G. rewrite G by (unfold N in *; lia). rewrite nth_mirror0 by (unfold N in *; lia). rewrite L. destruct (Nat.ltb_spec j n); [reflexivity|lia].
Qed.
Lemma g1_vert f j : length f = k -> (j < k)%nat -> g1 f (xg N j + h / 2) = nth j f 0.
Proof.
  intros L Hj. pose proof (len_m1 n 1 f L) as Lm. fold N in Lm. unfold g1. replace (xg N j + h / 2 - h / 2) with (xg N j) by ring.
  pose proof (interp_grid (mirror1 1 f) j) as G. rewrite Lm in G. rewrite G by (unfold N in *; lia). rewrite nth_mirror1 by (unfold N in *; lia). rewrite L. destruct (Nat.ltb_spec j k); [reflexivity|lia].
Qed.
End Cheb2.
