(** C105: on the default periodic grid the total of the Hodge star of a 0-form (the sum of its components) is the trapezoid rule, whose error
    is bounded by the Fourier coefficients of frequency n and more: twice the frequency up to which the components themselves are exact. *)
From Coq Require Import ZArith Reals List Lia Lra Arith Bool.
From Coq Require Import ZifyNat.
From Verif Require Import Model.Sym.
From Coquelicot Require Import Coquelicot.
From Verif Require Import Model.Num Model.Np Model.Spectral Model.Basis Model.Grids1 Model.Regular Model.Chebyshev Model.Common Model.Decform Model.Grid2 Model.Laplacian Spec.Trig Spec.Poly Spec.Resolved Spec.Tiling Spec.Series
  Proofs.ListLemmas Proofs.RingSums Proofs.Sums Proofs.RIntLemmas Proofs.Grids1P Proofs.GridsThm Proofs.TrigAlg Proofs.Lin Proofs.TableLin Proofs.ChebPoly Proofs.Grid2P Proofs.Fourier Proofs.Trig Proofs.Exact Proofs.Ops Proofs.Refine Proofs.PeriodicBasis Proofs.RegularBasis Proofs.Cheb2 Proofs.Kernels Proofs.SeriesP.
From Verif Require Import Props.Grid1 Props.Chebyshev Props.Lagrange Props.Decform Props.Refinement Props.Basis2 Props.Grid2 Proofs.Exact1 Props.Exact1 Props.Complete1 Proofs.LaplaceP Props.Laplacian Props.Spectrum Props.Convergence Props.Convergence1 Props.Convergence2.
Import ListNotations.
Local Open Scope R_scope.

Lemma sin_shift' u d : sin (u + d) = cos (u + (d - PI / 2)).
Proof. replace (u + (d - PI / 2)) with (u + d - PI / 2) by ring. rewrite cos_minus, cos_PI2, sin_PI2. ring. Qed.
Lemma bsum_abs' m (g : nat -> R) X : (forall i, Rabs (g i) <= X) -> Rabs (Rsum m g) <= INR m * X.
Proof.
  intro H. rewrite <- (Rsum_const m X). induction m as [|m IH]; [cbn; rewrite Rabs_R0; lra|]. cbn [Rsum]. eapply Rle_trans; [apply Rabs_triang|]. apply Rplus_le_compat; auto.
Qed.
Section Total.
Variables (close : C -> C -> bool) (n : nat) (c : cells1).
Hypothesis Hn : (1 <= n)%nat.
Hypothesis Ec : make_cells Periodic n 0 (2 * PI) = Ok c.
Notation hs := (hstep n).
Notation hh := (h close Periodic n).
Lemma lsum_len (v : list R) : length v = n -> lsum v = Rsum n (fun i => nth i v 0).
Proof. intro L. rewrite (lsum_bsum v 0), L. apply bsum_Rsum. Qed.
(** the sum of the values of a mode at the points of the grid *)
Lemma pt_angle t k i : INR k * pt n t i = 2 * PI * IZR (Z.of_nat k) * INR i / INR n + (if t then 0 else INR k * (hs / 2)).
Proof.
  assert (INR n <> 0) as N0 by (apply not_0_INR; lia). rewrite <- INR_IZR_INZ. unfold pt, xg, hstep. destruct t; field; exact N0.
Qed.
Lemma sum_mode t A B k : Rsum n (fun i => m1 A B k (pt n t i)) = if Nat.eqb (k mod n) 0 then INR n * m1 A B k (if t then 0 else hs / 2) else 0.
Proof.
  set (d := if t then 0 else INR k * (hs / 2)).
  assert (Rsum n (fun i => m1 A B k (pt n t i)) = A * Rsum n (fun i => cos (2 * PI * IZR (Z.of_nat k) * INR i / INR n + d)) + B * Rsum n (fun i => cos (2 * PI * IZR (Z.of_nat k) * INR i / INR n + (d - PI / 2)))) as ->.
  { rewrite <- !Rsum_scal, <- Rsum_plus. apply Rsum_ext. intros i _. unfold m1. rewrite pt_angle. fold d. rewrite (sin_shift' _ d). reflexivity. }
  rewrite !sum_cos_ortho by lia. rewrite <- Nat2Z.inj_mod.
  destruct (Nat.eqb_spec (k mod n) 0) as [E|E].
  - rewrite E. cbn [Z.of_nat Z.eqb]. rewrite cos_minus, cos_PI2, sin_PI2. unfold m1, d. destruct t; rewrite ?Rmult_0_r; ring.
  - replace (Z.eqb (Z.of_nat (k mod n)) 0) with false by (symmetry; apply Z.eqb_neq; lia). ring.
Qed.
(** the total of the Hodge star of a mode *)
Lemma total_mode t A B k : exists K, 0 < K <= hs /\ (k = 0%nat -> K = hs) /\ lsum (hh 0 t (proj c 0 t (m1 A B k))) = K * Rsum n (fun i => m1 A B k (pt n t i)).
Proof.
  destruct (alias_visible n c Hn Ec t k A B) as (r & A' & B' & rho & Hr & Hk & _ & _ & _ & V & EP & _ & _).
  exists (kap n r). split; [|split].
  - split; [now apply kap_pos|]. pose proof (kap_abs n Hn r). pose proof (Rle_abs (kap n r)). lra.
  - intro Z. assert (r = 0)%nat as -> by lia. reflexivity.
  - rewrite (proj0_P c), EP. destruct (hh_visible close n c Hn Ec t _ _ _ V) as [_ ->]. rewrite (edges_m1 n c Hn Ec), <- EP. rewrite lsum_len by (rewrite map_length; apply (P_len n c Hn Ec)).
    rewrite <- Rsum_scal. apply Rsum_ext. intros i Hi. rewrite (P_tab n c Hn Ec t), map_tab, nth_tab by auto. reflexivity.
Qed.
Lemma integral_mode A B k : RInt (m1 A B k) 0 (2 * PI) = if Nat.eqb k 0 then 2 * PI * A else 0.
Proof.
  apply is_RInt_unique. destruct (Nat.eqb_spec k 0) as [->|Hk].
  - apply (is_RInt_ext_all (fun _ => A)); [intro; unfold m1; cbn; rewrite Rmult_0_l, cos_0, sin_0; ring|]. replace (2 * PI * A) with ((2 * PI - 0) * A) by ring. apply is_RInt_const_R.
  - assert (INR k <> 0) as K0 by (apply not_0_INR; lia).
    replace 0 with ((A * sin (INR k * (2 * PI)) - B * cos (INR k * (2 * PI))) / INR k - (A * sin (INR k * 0) - B * cos (INR k * 0)) / INR k) at 2.
    + apply (is_RInt_der (fun x => (A * sin (INR k * x) - B * cos (INR k * x)) / INR k)); [|intro; apply m1_cont]. intro x. unfold m1. auto_derive; [auto|]. field. exact K0.
    + rewrite Rmult_0_r, sin_0, cos_0. replace (INR k * (2 * PI)) with (0 + 2 * INR k * PI) by ring. rewrite sin_period, cos_period, sin_0, cos_0. field. exact K0.
Qed.
Variables (f : R -> R) (a b : nat -> R).
Hypothesis Hf : fourier_series a b f.
Hypothesis Ha : ex_series (amplitude a b).
(** C105 *)
Theorem C105_total (t : bool) : exists o v, tget (Common.dH (dec_of close Periodic)) (0%nat, t) = Ok o /\ o (proj c 0 t f) = Ok v /\
  Rabs (lsum v - RInt f 0 (2 * PI)) <= 2 * PI * tail (amplitude a b) n.
Proof.
  destruct (h_get close Periodic n (works_n close n Hn) 0 t (disc_of c t f) ltac:(lia) (P_len n c Hn Ec t f)) as (o & Eo & Ev). rewrite (proj0_P c). exists o, (hh 0 t (disc_of c t f)). split; [exact Eo|]. split; [exact Ev|].
  rewrite <- tail_scal. rewrite (P_tab n c Hn Ec t f). pose proof PI_RGT_0 as Pp. assert (INR n <> 0) as N0 by (apply not_0_INR; lia).
  apply (functional_error n (fun v => lsum (hh 0 t v)) (fun k j => m1 (a k) (b k) k (pt n t j)) (fun j => f (pt n t j)) (fun k => RInt (m1 (a k) (b k) k) 0 (2 * PI))).
  - apply (lf_lin n n lsum); [apply lf_lsum|]. exact (h_lin close Periodic n (works_n close n Hn) 0 t ltac:(lia)).
  - intros j _. apply Hf.
  - exact (f_integral f a b Hf Ha 0 (2 * PI)).
  - now apply ex_scal.
  - intros k Hk. replace (tab n _) with (disc_of c t (m1 (a k) (b k) k)) by apply (P_tab n c Hn Ec t). rewrite <- (proj0_P c). destruct (total_mode t (a k) (b k) k) as (K & HK & K0 & ->).
    rewrite sum_mode, integral_mode, Nat.mod_small by auto. destruct (Nat.eqb_spec k 0) as [->|]; [|ring]. rewrite K0 by auto. unfold m1, hstep. cbn [INR]. rewrite Rmult_0_l, cos_0, sin_0. field. exact N0.
  - intros k Hk. replace (tab n _) with (disc_of c t (m1 (a k) (b k) k)) by apply (P_tab n c Hn Ec t). rewrite <- (proj0_P c). destruct (total_mode t (a k) (b k) k) as (K & HK & K0 & ->).
    rewrite integral_mode. replace (Nat.eqb k 0) with false by (symmetry; apply Nat.eqb_neq; lia). rewrite Rminus_0_r.
    replace (2 * PI * amplitude a b k) with (hs * (INR n * amplitude a b k)) by (unfold hstep; field; exact N0).
    apply prod_bound; [rewrite Rabs_pos_eq; lra|]. apply bsum_abs'. intro i. apply m1_bound.
Qed.
(** the bound is attained: the grid takes cos(n x) for the constant 1 *)
Theorem C105_sharp : exists o v, tget (Common.dH (dec_of close Periodic)) (0%nat, true) = Ok o /\ o (proj c 0 true (fun x => cos (INR n * x))) = Ok v /\
  lsum v = 2 * PI /\ RInt (fun x => cos (INR n * x)) 0 (2 * PI) = 0.
Proof.
  assert (INR n <> 0) as N0 by (apply not_0_INR; lia).
  assert (disc_of c true (fun x => cos (INR n * x)) = disc_of c true (m1 1 0 0)) as E.
  { rewrite !(P_tab n c Hn Ec true). apply tab_ext. intros i _. pose proof (n_pt n Hn true i 1) as Q. rewrite Nat.mul_1_l, Nat.add_0_r in Q. cbn [INR] in Q. rewrite Rmult_1_l in Q. unfold pt in Q. unfold m1. cbn [INR].
    rewrite Rmult_0_l, cos_0, sin_0. rewrite Q. rewrite mult_INR. replace (INR 2 * INR i * PI) with (0 + 2 * INR i * PI) by (cbn [INR]; ring). rewrite cos_period, cos_0. ring. }
  destruct (h_get close Periodic n (works_n close n Hn) 0 true (disc_of c true (fun x => cos (INR n * x))) ltac:(lia) (P_len n c Hn Ec true _)) as (o & Eo & Ev).
  rewrite (proj0_P c). exists o, (hh 0 true (disc_of c true (fun x => cos (INR n * x)))). split; [exact Eo|]. split; [exact Ev|]. split.
  - rewrite E, <- (proj0_P c). destruct (total_mode true 1 0 0) as (K & HK & K0 & ->). rewrite K0, sum_mode by auto. rewrite Nat.mod_0_l by lia. cbn [Nat.eqb]. unfold m1, hstep. cbn [INR]. rewrite Rmult_0_l, cos_0, sin_0. field. exact N0.
  - transitivity (RInt (m1 1 0 n) 0 (2 * PI)); [apply RInt_ext; intros; unfold m1; match goal with |- @eq _ ?u ?v => change (@eq R u v) end; ring|]. rewrite integral_mode. now replace (Nat.eqb n 0) with false by (symmetry; apply Nat.eqb_neq; lia).
Qed.
End Total.
Example C105_instance close n c t : (1 <= n)%nat -> make_cells Periodic n 0 (2 * PI) = Ok c ->
  exists o v, tget (Common.dH (dec_of close Periodic)) (0%nat, t) = Ok o /\ o (proj c 0 t bell) = Ok v /\ Rabs (lsum v - RInt bell 0 (2 * PI)) <= 2 * PI * (8 / 7 * (/ 8) ^ n).
Proof.
  intros Hn Ec. destruct (C105_total close n c Hn Ec bell _ _ bell_series bell_summable t) as (o & v & E1 & E2 & H). exists o, v. repeat split; auto. now rewrite <- bell_tail.
Qed.

(** ** regular and Chebyshev grids: the total of the Hodge star as a quadrature rule *)
Lemma Rsum_RInt (F : R -> R) (q : nat -> R) m : (forall x, continuous F x) -> Rsum m (fun i => RInt F (q i) (q (S i))) = RInt F (q 0%nat) (q m).
Proof.
  intro C. induction m as [|m IH]; [cbn [Rsum]; now rewrite RInt_point|]. cbn [Rsum]. rewrite IH. apply (RInt_Chasles F); now apply ex_RInt_cont_all.
Qed.
Section Interval.
Variables (close : C -> C -> bool) (kk : kind1) (n : nat) (c : cells1).
Hypothesis Kp : kk <> Periodic.
Hypothesis Hw : works close kk n.
Hypothesis Ec : cells_of (default_grid kk n) = Ok c.
Notation M t := (grid_N kk n 0 t).
Lemma tiling_total t (g : R -> R) : (forall x, continuous g x) -> Rsum (M t) (fun i => nth i (proj c 1 (negb t) g) 0) = RInt g (lo0 kk) (hi0 kk).
Proof.
  intro Cg. pose proof (Convergence1.n2 close kk n c Kp Hw Ec) as Hn. rewrite (P_edges close kk n c Kp Hw Ec).
  rewrite (Rsum_ext (M t) _ (fun i => RInt g (pos kk (ea n t i)) (pos kk (ea n t (S i))))) by (intros i Hi; rewrite nth_tab by auto; reflexivity).
  rewrite (Rsum_RInt g (fun i => pos kk (ea n t i))) by auto.
  assert (ea n t 0 = 0) as -> by (unfold ea; destruct t; [reflexivity|unfold xg; cbn; ring]).
  assert (ea n t (M t) = PI) as ->.
  { rewrite (M_val close kk n c Kp Hw Ec t). unfold ea. destruct t; [unfold tdual; destruct (Nat.eqb_spec n 0); [lia|]; now rewrite Nat.eqb_refl|].
    unfold xg, hstep. rewrite mult_INR. cbn [INR]. field. apply not_0_INR. lia. }
  unfold pos, lo0, hi0. destruct kk; auto. rewrite cos_0, cos_PI. f_equal; lra.
Qed.
Lemma tiling_total_in t (f g : R -> R) : (forall x, continuous g x) -> (forall x, lo0 kk <= x <= hi0 kk -> f x = g x) -> Rsum (M t) (fun i => nth i (proj c 1 (negb t) f) 0) = RInt f (lo0 kk) (hi0 kk).
Proof.
  intros Cg E. rewrite (P_ext1 close kk n c Kp Hw Ec t f g E), tiling_total by auto. apply RInt_ext. intros x Hx. pose proof (lo_hi close kk n c Kp Hw Ec). rewrite Rmin_left, Rmax_right in Hx by lra. symmetry. apply E. lra.
Qed.
End Interval.
(** C105 on regular and Chebyshev grids: the sum of the components of the Hodge star of a 0-form is a quadrature rule (of Clenshaw and Curtis
    on Chebyshev grids), exact for the functions of the series that the grid resolves *)
Theorem C105_quadrature close heap r g c t f a : refers close heap r g c -> default_extent g -> works close (kd g) (sz g) -> expansion (kd g) a f -> ex_series (fun k => Rabs (a k)) ->
  exists v, form_H heap (form r c 0 t f) = Ok (MkForm 1 (negb t) r v) /\
  Rabs (lsum v - RInt f (lo g) (hi g)) <= 2 * (hi g - lo g) * tail (fun k => Rabs (a k)) (grid_N (kd g) (sz g) 0 t).
Proof.
  intros Hr He Hw Hf Ha. destruct (C103_hodge close heap r g c t f a Hr He Hw Hf Ha) as (v & Ev & Lv & B). exists v. split; [exact Ev|].
  assert (kd g <> Periodic) as Kp by (intro Z; rewrite Z in Hf; exact Hf). destruct Hr as [_ E]. rewrite (is_default g He) in E.
  assert (lo g = lo0 (kd g) /\ hi g = hi0 (kd g)) as [-> ->] by (clear - He Kp; unfold default_extent, lo0, hi0 in *; destruct (kd g); [congruence| |]; exact He).
  set (m := grid_N (kd g) (sz g) 0 t) in *. set (T := tail (fun k => Rabs (a k)) m) in *. rewrite (lsum_bsum v 0), Lv, bsum_Rsum.
  assert (forall x, continuous (F (kd g) f) x) as CF.
  { intro x. exact (sum_continuous _ _ _ (F_series close (kd g) (sz g) c Kp Hw E f a Hf) (fun k x => term_bound close (kd g) (sz g) c Kp Hw E a k x) Ha (fun k x => term_cont close (kd g) (sz g) c Kp Hw E a k x) x). }
  pose proof (lo_hi close (kd g) (sz g) c Kp Hw E) as Hl.
  rewrite <- (tiling_total_in close (kd g) (sz g) c Kp Hw E t f (F (kd g) f) CF) by (intros x Hx; symmetry; unfold F; now rewrite clamp_in).
  pose proof (tiling_total close (kd g) (sz g) c Kp Hw E t (fun _ => 1) (fun x => continuous_const 1 x)) as T1. rewrite RInt_const in T1. change (scal ?x 1) with (x * 1) in T1. rewrite Rmult_1_r in T1. fold m in T1 |- *.
  replace (2 * (hi0 (kd g) - lo0 (kd g)) * T) with (Rsum m (fun i => 2 * nth i (proj c 1 (negb t) (fun _ => 1)) 0 * T)) by (rewrite Rsum_scal_r, Rsum_scal, T1; reflexivity).
  rewrite <- Rsum_minus. clearbody T. clear - B. revert B. generalize m. clear m. intros m B. induction m as [|m IH]; [cbn; rewrite Rabs_R0; lra|]. cbn [Rsum]. eapply Rle_trans; [apply Rabs_triang|]. apply Rplus_le_compat; [apply IH; intros; apply B; lia|apply B; lia].
Qed.
Example C105_quadrature_instance close heap r g c t : refers close heap r g c -> default_extent g -> works close (kd g) (sz g) -> kd g <> Periodic ->
  let f := match kd g with Chebyshev => rung | _ => bell end in
  exists v, form_H heap (form r c 0 t f) = Ok (MkForm 1 (negb t) r v) /\ Rabs (lsum v - RInt f (lo g) (hi g)) <= 2 * (hi g - lo g) * (8 / 7 * (/ 8) ^ grid_N (kd g) (sz g) 0 t).
Proof.
  intros Hr He Hw Kp f. destruct (geom_tail (grid_N (kd g) (sz g) 0 t)) as [Ex Et]. assert (expansion (kd g) (fun k => (/ 8) ^ k) f) as Hf by (unfold expansion, f; destruct (kd g); [congruence|apply rung_series|apply rung_series]).
  destruct (C105_quadrature close heap r g c t f _ Hr He Hw Hf Ex) as (v & E & B). exists v. rewrite Et in B. auto.
Qed.

(** ** the total of a wedge product *)
Lemma RInt_over_period (G : R -> R) s : (forall x, continuous G x) -> (forall x, G (x + 2 * PI) = G x) -> RInt G s (s + 2 * PI) = RInt G 0 (2 * PI).
Proof.
  intros C P. assert (forall u v, ex_RInt G u v) as Ex by (intros; now apply ex_RInt_cont_all).
  assert (RInt G s 0 + RInt G 0 (s + 2 * PI) = RInt G s (s + 2 * PI)) as E1 by (apply (RInt_Chasles G); apply Ex).
  assert (RInt G 0 (s + 2 * PI) + RInt G (s + 2 * PI) (2 * PI) = RInt G 0 (2 * PI)) as E2 by (apply (RInt_Chasles G); apply Ex).
  pose proof (RInt_period G s 0 C P) as E3. rewrite Rplus_0_l in E3. lra.
Qed.
Lemma periodic_total n c t (G : R -> R) : (1 <= n)%nat -> make_cells Periodic n 0 (2 * PI) = Ok c -> (forall x, continuous G x) -> (forall x, G (x + 2 * PI) = G x) ->
  Rsum n (fun i => nth i (proj c 1 t G) 0) = RInt G 0 (2 * PI).
Proof.
  intros Hn Ec C P. set (s := if t then 0 else - (hstep n / 2)).
  rewrite (Rsum_ext n _ (fun i => RInt G (xg n i + s) (xg n (S i) + s))).
  - rewrite (Rsum_RInt G (fun i => xg n i + s)) by auto. rewrite <- (RInt_over_period G s) by auto. f_equal.
    + unfold xg. cbn [INR]. ring.
    + rewrite xg_n by auto. ring.
  - intros i Hi. rewrite (c_default n c Hn Ec), (per_val n Hn 1 t G ltac:(lia) C), nth_tab by auto. rewrite xg_S. unfold s. destruct t; f_equal; field.
Qed.
Theorem C105_wedge_total close heap r g c t d0 p0 f0 a0 b0 d1 p1 f1 a1 b1 : refers close heap r g c -> default_extent g -> kd g = Periodic -> Nat.odd (sz g) = true -> (d0 + d1 = 1)%nat ->
  fourier_series a0 b0 f0 -> ex_series (amplitude a0 b0) -> fourier_series a1 b1 f1 -> ex_series (amplitude a1 b1) ->
  exists v, form_W heap t (form r c d0 p0 f0) (form r c d1 p1 f1) = Ok (MkForm 1 t r v) /\
  Rabs (lsum v - RInt (fun x => f0 x * f1 x) 0 (2 * PI)) <= 4 * PI *
    (Series (amplitude a0 b0) * tail (amplitude a1 b1) (first_unresolved (sz g)) + tail (amplitude a0 b0) (first_unresolved (sz g)) * Series (amplitude a1 b1)).
Proof.
  intros Hr He Hk Ho Hd H0 E0 H1 E1. destruct (C104_wedge close heap r g c t d0 p0 f0 a0 b0 d1 p1 f1 a1 b1 Hr He Hk Ho ltac:(lia) H0 E0 H1 E1) as (v & Ev & Lv & B). rewrite Hd in Ev, B. exists v. split; [exact Ev|].
  destruct Hr as [_ E]. destruct g as [k n l u]. cbn [kd sz] in *. subst k. destruct He as [El Eu]. cbn [lo hi kd] in El, Eu. subst l u. unfold cells_of in E. cbn [kd sz lo hi] in E.
  assert (1 <= n)%nat as Hn by (destruct n; [discriminate|lia]).
  assert (forall a b h x, fourier_series a b h -> h (x + 2 * PI) = h x) as Per.
  { intros a b h x Hh. rewrite <- (is_series_unique _ _ (Hh (x + 2 * PI))), <- (is_series_unique _ _ (Hh x)). apply Series_ext. intro k. unfold mode_at.
    replace (INR k * (x + 2 * PI)) with (INR k * x + 2 * INR k * PI) by ring. now rewrite cos_period, sin_period. }
  set (G := fun x => f0 x * f1 x) in *. assert (forall x, continuous G x) as CG.
  { intro x. apply mult_cont; [exact (f_cont f0 a0 b0 H0 E0 x)|exact (f_cont f1 a1 b1 H1 E1 x)]. }
  rewrite <- (periodic_total n c t G Hn E CG) by (intro x; unfold G; now rewrite (Per _ _ _ x H0), (Per _ _ _ x H1)).
  rewrite (lsum_len n) by auto. rewrite <- Rsum_minus. set (T := Series _ * _ + _) in *. cbn [Nat.eqb] in B.
  replace (4 * PI * T) with (INR n * (2 * (2 * PI / INR n) * T)) by (field; apply not_0_INR; lia). rewrite <- Rsum_const.
  revert B. generalize (2 * (2 * PI / INR n) * T). clear. intros X B. generalize dependent n.
  assert (forall m (z : nat -> R), (forall i, (i < m)%nat -> Rabs (z i) <= X) -> Rabs (Rsum m z) <= Rsum m (fun _ => X)) as Q.
  { induction m as [|m IH]; intros z Hz; [cbn; rewrite Rabs_R0; lra|]. cbn [Rsum]. eapply Rle_trans; [apply Rabs_triang|]. apply Rplus_le_compat; [apply IH; intros; apply Hz; lia|apply Hz; lia]. }
  intros n B. now apply Q.
Qed.
Example C105_wedge_total_instance close heap r g c t p0 p1 : refers close heap r g c -> default_extent g -> kd g = Periodic -> Nat.odd (sz g) = true ->
  exists v, form_W heap t (form r c 0 p0 bell) (form r c 1 p1 bell) = Ok (MkForm 1 t r v) /\
  Rabs (lsum v - RInt (fun x => bell x * bell x) 0 (2 * PI)) <= 4 * PI * (128 / 49 * (/ 8) ^ first_unresolved (sz g)).
Proof.
  intros Hr He Hk Ho. destruct (C105_wedge_total close heap r g c t 0 p0 bell _ _ 1 p1 bell _ _ Hr He Hk Ho eq_refl bell_series bell_summable bell_series bell_summable) as (v & E & B). exists v. split; [exact E|].
  rewrite <- tail_0, !bell_tail in B. replace (128 / 49 * (/ 8) ^ first_unresolved (sz g)) with (8 / 7 * (/ 8) ^ 0 * (8 / 7 * (/ 8) ^ first_unresolved (sz g)) + 8 / 7 * (/ 8) ^ first_unresolved (sz g) * (8 / 7 * (/ 8) ^ 0)) by (cbn [pow]; field). exact B.
Qed.
