(** C104: on the default periodic grid with an odd number of points the wedge product converges, with an error bounded by the Fourier
    coefficients of the factors that the grid does not resolve. *)
From Coq Require Import ZArith Reals List Lia Lra Arith Bool.
From Coq Require Import ZifyNat.
From Verif Require Import Model.Sym.
From Coquelicot Require Import Coquelicot.
From Verif Require Import Model.Num Model.Np Model.Spectral Model.Basis Model.Grids1 Model.Regular Model.Chebyshev Model.Common Model.Decform Model.Grid2 Model.Laplacian Spec.Trig Spec.Poly Spec.Resolved Spec.Tiling Spec.Series
  Proofs.ListLemmas Proofs.RingSums Proofs.Sums Proofs.RIntLemmas Proofs.Grids1P Proofs.GridsThm Proofs.TrigAlg Proofs.Lin Proofs.TableLin Proofs.ChebPoly Proofs.Grid2P Proofs.Fourier Proofs.Trig Proofs.Exact Proofs.Ops Proofs.Refine Proofs.PeriodicBasis Proofs.Kernels Proofs.DeprecatedP Proofs.SeriesP.
From Verif Require Import Props.Grid1 Props.Chebyshev Props.Lagrange Props.Decform Props.Refinement Props.Basis2 Props.Grid2 Proofs.Exact1 Props.Exact1 Props.Complete1 Proofs.LaplaceP Props.Laplacian Props.Spectrum Props.Convergence.
Import ListNotations.
Local Open Scope R_scope.

(** ** bilinear functionals of two series *)
Lemma tail_nonneg w m : (forall k, 0 <= w k) -> ex_series w -> 0 <= tail w m.
Proof.
  intros Hp Ew. unfold tail. rewrite <- (is_series_unique _ _ is_series_zero). apply Series_le; [intro; split; [lra|apply Hp]|]. now apply ex_series_incr_n.
Qed.
Section Bilinear.
Variables (n m : nat) (B : list R -> list R -> R) (U V : nat -> nat -> R) (F G : nat -> R) (e : nat -> nat -> R) (E1 : nat -> R) (E om : R) (al be : nat -> R).
Hypothesis Bl : forall v, length v = n -> lf n (fun u => B u v).
Hypothesis Br : forall u, length u = n -> lf n (fun v => B u v).
Hypothesis HF : forall i, (i < n)%nat -> is_series (fun k => U k i) (F i).
Hypothesis HG : forall i, (i < n)%nat -> is_series (fun k => V k i) (G i).
Hypothesis He : forall k, is_series (e k) (E1 k).
Hypothesis HE : is_series E1 E.
Hypothesis Om : 0 <= om.
Hypothesis Ap : forall k, 0 <= al k.
Hypothesis Bp : forall k, 0 <= be k.
Hypothesis Ea : ex_series al.
Hypothesis Eb : ex_series be.
Hypothesis exact : forall k j, (k < m)%nat -> (j < m)%nat -> B (tab n (U k)) (tab n (V j)) = e k j.
Hypothesis boundB : forall k j, Rabs (B (tab n (U k)) (tab n (V j))) <= om * (al k * be j).
Hypothesis bounde : forall k j, Rabs (e k j) <= om * (al k * be j).
Lemma ex_scal' s w : ex_series w -> ex_series (fun k => s * w k).
Proof. intros [l Hl]. exists (s * l). now apply is_series_scal_R. Qed.
Lemma tail_0 w : tail w 0 = Series w. Proof. reflexivity. Qed.
Lemma row k : is_series (fun j => B (tab n (U k)) (tab n (V j)) - e k j) (B (tab n (U k)) (tab n G) - E1 k).
Proof. apply (is_series_minus (V := R_NormedModule)); [|apply He]. apply (functional_series n (fun v => B (tab n (U k)) v) V G); auto. apply Br, length_tab. Qed.
Lemma diff_k k j : Rabs (B (tab n (U k)) (tab n (V j)) - e k j) <= 2 * om * al k * be j.
Proof. replace (2 * om * al k * be j) with (2 * (om * (al k * be j))) by ring. now apply diff_bound. Qed.
Lemma row_low k : (k < m)%nat -> Rabs (B (tab n (U k)) (tab n G) - E1 k) <= 2 * om * tail be m * al k.
Proof.
  intro Hk. replace (2 * om * tail be m * al k) with (tail (fun j => 2 * om * al k * be j) m) by (rewrite tail_scal; ring).
  apply (tail_bound _ _ _ m (row k)); [|intros; apply diff_k|now apply ex_scal']. intros j Hj. rewrite exact by auto. apply Rminus_diag_eq. reflexivity.
Qed.
Lemma row_all k : Rabs (B (tab n (U k)) (tab n G) - E1 k) <= 2 * om * Series be * al k.
Proof.
  replace (2 * om * Series be * al k) with (tail (fun j => 2 * om * al k * be j) 0) by (rewrite tail_scal, tail_0; ring).
  apply (tail_bound _ _ _ 0 (row k)); [intros; lia|intros; apply diff_k|now apply ex_scal'].
Qed.
Lemma bilinear_error : Rabs (B (tab n F) (tab n G) - E) <= 2 * om * (Series al * tail be m + tail al m * Series be).
Proof.
  set (X := fun k => B (tab n (U k)) (tab n G) - E1 k).
  assert (is_series X (B (tab n F) (tab n G) - E)) as SX.
  { apply (is_series_minus (V := R_NormedModule)); [|exact HE]. apply (functional_series n (fun u => B u (tab n G)) U F); auto. apply Bl, length_tab. }
  set (Z := fun k => if le_lt_dec m k then X k else 0). set (Y := fun k => if le_lt_dec m k then 0 else X k).
  assert (ex_series Z) as [lz Hz].
  { apply (ex_series_le (V := R_CompleteNormedModule) _ (fun k => 2 * om * Series be * al k)); [|now apply ex_scal']. intro k. unfold norm; cbn; unfold abs; cbn. unfold Z. destruct (le_lt_dec m k); [apply row_all|].
    rewrite Rabs_R0. eapply Rle_trans; [apply Rabs_pos|apply (row_all k)]. }
  assert (is_series Y (B (tab n F) (tab n G) - E - lz)) as Hy.
  { apply (is_series_ext (fun k => X k - Z k)); [|now apply (is_series_minus (V := R_NormedModule))]. intro k. unfold Y, Z. match goal with |- @eq _ ?u ?v => change (@eq R u v) end. destruct (le_lt_dec m k); ring. }
  replace (B (tab n F) (tab n G) - E) with (B (tab n F) (tab n G) - E - lz + lz) by ring. eapply Rle_trans; [apply Rabs_triang|].
  assert (Rabs (B (tab n F) (tab n G) - E - lz) <= tail (fun k => 2 * om * tail be m * al k) 0) as By.
  { apply (tail_bound _ _ _ 0 Hy); [intros; lia| |now apply ex_scal']. intros k _. unfold Y. destruct (le_lt_dec m k); [|now apply row_low]. rewrite Rabs_R0.
    assert (0 <= tail be m) by (pose proof (tail_nonneg be m Bp Eb); lra). apply Rmult_le_pos; [|apply Ap]. apply Rmult_le_pos; [lra|auto]. }
  assert (Rabs lz <= tail (fun k => 2 * om * Series be * al k) m) as Bz.
  { apply (tail_bound _ _ _ m Hz); [| |now apply ex_scal']; intros k Hk; unfold Z; destruct (le_lt_dec m k); try lia; auto. apply row_all. }
  rewrite tail_scal in By, Bz. rewrite tail_0 in By. lra.
Qed.
End Bilinear.

Section Wedge.
Variables (n : nat) (c : cells1).
Hypothesis Ho : Nat.odd n = true.
Hypothesis Ec : make_cells Periodic n 0 (2 * PI) = Ok c.
Lemma n1 : (1 <= n)%nat. Proof. destruct n; [discriminate|lia]. Qed.
Notation hs := (hstep n).
Lemma half r : (2 * r <= n)%nat -> (2 * r < n)%nat.
Proof. intro H. apply Nat.odd_spec in Ho. destruct Ho as [q Hq]. lia. Qed.
Lemma pval d p h : (d <= 1)%nat -> (forall x, continuous h x) -> proj c d p h = tab n (fun i => match d, p with O, true => h (xg n i) | O, false => h (xg n i + hstep n / 2) | _, true => RInt h (xg n i) (xg n i + hstep n) | _, false => RInt h (xg n i - hstep n / 2) (xg n i + hstep n / 2) end).
Proof. intros Hd Ch. rewrite (c_default n c n1 Ec). now apply (per_val n n1). Qed.
Lemma plen d p h : (d <= 1)%nat -> length (proj c d p h) = n.
Proof. intro Hd. rewrite (c_default n c n1 Ec). now apply (per_len n n1). Qed.
Lemma ptab d p h : (d <= 1)%nat -> tab n (fun i => nth i (proj c d p h) 0) = proj c d p h.
Proof. intro Hd. pose proof (plen d p h Hd) as Lp. apply tab_nth. all: auto. Qed.
Definition om (d : nat) : R := match d with O => 1 | _ => 2 * PI / INR n end.
Lemma om_pos d : 0 <= om d.
Proof. pose proof (hstep_pos n n1). unfold hstep in *. unfold om. destruct d; lra. Qed.
Lemma pbound d p h b i : (d <= 1)%nat -> (forall x, continuous h x) -> (forall x, Rabs (h x) <= b) -> (i < n)%nat -> Rabs (nth i (proj c d p h) 0) <= om d * b.
Proof.
  intros Hd Ch Hb Hi. rewrite pval, nth_tab by auto. pose proof (hstep_pos n n1) as Hh.
  assert (forall u v, u <= v -> v - u = hs -> Rabs (RInt h u v) <= hs * b) as Bd.
  { intros u v Huv E. rewrite <- E. apply abs_RInt_le_const; [auto|now apply ex_RInt_cont_all|intros; apply Hb]. }
  unfold om. destruct d as [|[|d]]; [| |lia]; destruct p; rewrite ?Rmult_1_l; auto; change (2 * PI / INR n) with hs; apply Bd; lra.
Qed.
Lemma pseries d p (u : nat -> R -> R) w h i : (d <= 1)%nat -> (forall x, is_series (fun k => u k x) (h x)) -> (forall k x, Rabs (u k x) <= w k) -> ex_series w -> (forall k x, continuous (u k) x) -> (i < n)%nat ->
  is_series (fun k => nth i (proj c d p (u k)) 0) (nth i (proj c d p h) 0).
Proof.
  intros Hd Hs Hb Ew Hc Hi. assert (forall x, continuous h x) as Ch by exact (sum_continuous u w h Hs Hb Ew Hc). pose proof (sum_integral u w h Hs Hb Ew Hc) as Hint.
  rewrite pval, nth_tab by auto. destruct d as [|[|d]]; [| |lia]; destruct p; (eapply is_series_ext; [intro k; symmetry; rewrite pval, nth_tab by auto; reflexivity|]); auto.
Qed.
Lemma alias_form d p k A B : (d <= 1)%nat -> exists r A' B' rho, (2 * r < n)%nat /\ ((2 * k < n)%nat -> r = k /\ A' = A /\ B' = B /\ rho = 1) /\
  Rabs A' <= Rabs A /\ Rabs B' <= Rabs B /\ Rabs rho <= 1 /\ proj c d p (m1 A B k) = map (Rmult rho) (proj c d p (m1 A' B' r)).
Proof.
  intro Hd. destruct d as [|[|d]]; [| |lia].
  - destruct (alias_visible n c n1 Ec p k A B) as (r & A' & B' & rho & Hr & _ & Ex & EA & EB & _ & EP & _). exists r, A', B', 1. split; [now apply half|]. split; [intro H; destruct (Ex H) as (-> & -> & -> & _); auto|].
    repeat (split; [auto; rewrite ?Rabs_R1; lra|]). rewrite !proj0_P, EP. rewrite (map_ext _ (fun x => x)) by (intro; ring). now rewrite map_id.
  - destruct (alias_visible n c n1 Ec (negb p) k A B) as (r & A' & B' & rho & Hr & _ & Ex & EA & EB & _ & _ & Hrho & EP). rewrite negb_involutive in EP. exists r, A', B', rho. split; [now apply half|]. auto 10.
Qed.

Section Product.
Variables (d0 d1 dr : nat) (p0 p1 p2 : bool) (Wi : nat -> list R -> list R -> R).
Hypothesis Hd0 : (d0 <= 1)%nat.
Hypothesis Hd1 : (d1 <= 1)%nat.
Hypothesis Hdr : (dr <= 1)%nat.
Hypothesis Wl : forall i v, length v = n -> lf n (fun u => Wi i u v).
Hypothesis Wr : forall i u, length u = n -> lf n (fun v => Wi i u v).
Hypothesis W_low : forall i A B r A' B' s, (2 * r < n)%nat -> (2 * s < n)%nat -> Wi i (proj c d0 p0 (m1 A B r)) (proj c d1 p1 (m1 A' B' s)) = nth i (proj c dr p2 (fun x => m1 A B r x * m1 A' B' s x)) 0.
Variables (f g : R -> R) (a b a' b' : nat -> R).
Hypothesis Hf : fourier_series a b f.
Hypothesis Ha : ex_series (amplitude a b).
Hypothesis Hg : fourier_series a' b' g.
Hypothesis Ha' : ex_series (amplitude a' b').
Lemma mult_cont (u v : R -> R) x : continuous u x -> continuous v x -> continuous (fun y => u y * v y) x.
Proof. intros. now apply (continuous_mult (K := R_AbsRing) u v). Qed.
Lemma prod_amp k j A B r A' B' s x : Rabs A <= Rabs (a k) -> Rabs B <= Rabs (b k) -> Rabs A' <= Rabs (a' j) -> Rabs B' <= Rabs (b' j) -> Rabs (m1 A B r x * m1 A' B' s x) <= amplitude a b k * amplitude a' b' j.
Proof. intros. apply prod_bound; now apply amp_le. Qed.
Lemma g_bound x : Rabs (g x) <= Series (amplitude a' b').
Proof. change (Rabs (g x) <= tail (amplitude a' b') 0). apply (tail_bound _ _ _ 0 (Hg x)); [intros; lia| |auto]. intros k _. apply m1_bound. Qed.
Lemma product_error i : (i < n)%nat -> Rabs (Wi i (proj c d0 p0 f) (proj c d1 p1 g) - nth i (proj c dr p2 (fun x => f x * g x)) 0) <=
  2 * om dr * (Series (amplitude a b) * tail (amplitude a' b') (first_unresolved n) + tail (amplitude a b) (first_unresolved n) * Series (amplitude a' b')).
Proof.
  intro Hi. rewrite <- (ptab d0 p0 f), <- (ptab d1 p1 g) by lia.
  assert (forall x, continuous g x) as Cg by exact (f_cont g a' b' Hg Ha').
  apply (bilinear_error n (first_unresolved n) (Wi i) (fun k i => nth i (proj c d0 p0 (m1 (a k) (b k) k)) 0) (fun k i => nth i (proj c d1 p1 (m1 (a' k) (b' k) k)) 0) _ _
    (fun k j => nth i (proj c dr p2 (fun x => m1 (a k) (b k) k x * m1 (a' j) (b' j) j x)) 0) (fun k => nth i (proj c dr p2 (fun x => m1 (a k) (b k) k x * g x)) 0)).
  - intros v Lv. now apply Wl.
  - intros v Lv. now apply Wr.
  - intros j Hj. apply (pseries d0 p0 (fun k => m1 (a k) (b k) k) (amplitude a b) f j); [exact Hd0|exact Hf|intros; apply m1_bound|exact Ha|intros; apply m1_cont|exact Hj].
  - intros j Hj. apply (pseries d1 p1 (fun k => m1 (a' k) (b' k) k) (amplitude a' b') g j); [exact Hd1|exact Hg|intros; apply m1_bound|exact Ha'|intros; apply m1_cont|exact Hj].
  - intro k. apply (pseries dr p2 (fun j x => m1 (a k) (b k) k x * m1 (a' j) (b' j) j x) (fun j => amplitude a b k * amplitude a' b' j)); [exact Hdr| | | | |exact Hi].
    + intro x. apply is_series_scal_R. apply Hg.
    + intros j x. apply prod_amp; lra.
    + now apply ex_scal.
    + intros j x. apply mult_cont; apply m1_cont.
  - apply (pseries dr p2 (fun k x => m1 (a k) (b k) k x * g x) (fun k => Series (amplitude a' b') * amplitude a b k)); [exact Hdr| | | | |exact Hi].
    + intro x. apply (is_series_ext (fun k => g x * m1 (a k) (b k) k x)); [intro; match goal with |- @eq _ ?u ?v => change (@eq R u v) end; ring|]. rewrite (Rmult_comm (f x)). apply is_series_scal_R. apply Hf.
    + intros k x. rewrite (Rmult_comm (Series _)). apply prod_bound; [apply m1_bound|apply g_bound].
    + now apply ex_scal.
    + intros k x. apply mult_cont; [apply m1_cont|apply Cg].
  - apply om_pos.
  - apply amp_nonneg.
  - apply amp_nonneg.
  - exact Ha.
  - exact Ha'.
  - intros k j Hk Hj. apply first_unresolved_spec in Hk, Hj. rewrite !ptab by lia. now apply W_low.
  - intros k j. rewrite !ptab by lia. destruct (alias_form d0 p0 k (a k) (b k) ltac:(lia)) as (r & A & B & rho & Hr & _ & EA & EB & Hrho & ->). destruct (alias_form d1 p1 j (a' j) (b' j) ltac:(lia)) as (s & A' & B' & sig & Hs & _ & EA' & EB' & Hsig & ->).
    set (X0 := proj c d0 p0 (m1 A B r)). set (X1 := proj c d1 p1 (m1 A' B' s)). assert (length X0 = n) as L0 by (apply plen; lia). assert (length X1 = n) as L1 by (apply plen; lia).
    assert (length (map (Rmult sig) X1) = n) as L1' by now rewrite map_length.
    pose proof (lf_map n n1 n (fun u => Wi i u (map (Rmult sig) X1)) rho X0 (Wl i _ L1') L0) as Q0. pose proof (lf_map n n1 n (fun v => Wi i X0 v) sig X1 (Wr i _ L0) L1) as Q1. cbv beta in Q0, Q1. rewrite Q0, Q1. subst X0 X1.
    rewrite W_low by auto. rewrite <- Rmult_assoc. rewrite <- (Rmult_1_l (om dr * _)). apply prod_bound; [replace 1 with (1 * 1) by ring; now apply prod_bound|].
    apply pbound; auto; [intro; apply mult_cont; apply m1_cont|intro; now apply prod_amp].
  - intros k j. apply pbound; auto; [intro; apply mult_cont; apply m1_cont|intro; apply prod_amp; lra].
Qed.
End Product.
Section WedgeOp.
Variables (d0 d1 : nat) (p0 p1 p2 : bool) (w : op2).
Hypothesis Hd : (d0 + d1 <= 1)%nat.
Hypothesis Ew : dget wkey_eqb (wedge refine_periodic) ((d0, p0), (d1, p1), p2) = Ok w.
Lemma w_len u v : length u = n -> length v = n -> exists e, w u v = Ok e /\ length e = n.
Proof.
  intros Lu Lv. destruct (C35_commutative never Periodic n d0 p0 d1 p1 p2 u v n1 Hd Lu Lv) as (w0 & _ & e & E0 & _ & E1 & _ & L). cbn [refine_of] in E0. rewrite Ew in E0. injection E0 as <-. exists e. auto.
Qed.
Definition Wi (i : nat) (u v : list R) : R := nth i (match w u v with Ok e => e | Err _ => [] end) 0.
Lemma Wl i v : length v = n -> lf n (fun u => Wi i u v).
Proof.
  intros Lv r u u' Lu Lu'. destruct (C35_bilinear never Periodic n d0 p0 d1 p1 p2 r u u' v n1 Hd Lu Lu' Lv) as (w0 & _ & e & e' & E0 & _ & E1 & E2 & E3 & _). cbn [refine_of] in E0. rewrite Ew in E0. injection E0 as <-.
  destruct (w_len u v Lu Lv) as (x & X & Lx). destruct (w_len u' v Lu' Lv) as (x' & X' & Lx'). rewrite E1 in X. injection X as <-. rewrite E2 in X'. injection X' as <-.
  unfold Wi. change (axpy r u u') with (comb r u u'). rewrite E1, E2, E3. change (comb r e e') with (axpy r e e'). exact (nth_axpy (A := R) r e e' i (eq_trans Lx (eq_sym Lx'))).
Qed.
Lemma Wr i u : length u = n -> lf n (fun v => Wi i u v).
Proof.
  intros Lu r v v' Lv Lv'. destruct (C35_bilinear never Periodic n d1 p1 d0 p0 p2 r v v' u n1 ltac:(lia) Lv Lv' Lu) as (w1 & w0 & e & e' & _ & E0 & _ & _ & _ & E1 & E2 & E3). cbn [refine_of] in E0. rewrite Ew in E0. injection E0 as <-.
  destruct (w_len u v Lu Lv) as (x & X & Lx). destruct (w_len u v' Lu Lv') as (x' & X' & Lx'). rewrite E1 in X. injection X as <-. rewrite E2 in X'. injection X' as <-.
  unfold Wi. change (axpy r v v') with (comb r v v'). rewrite E1, E2, E3. change (comb r e e') with (axpy r e e'). exact (nth_axpy (A := R) r e e' i (eq_trans Lx (eq_sym Lx'))).
Qed.
Lemma W_low i A B r A' B' s : (2 * r < n)%nat -> (2 * s < n)%nat -> Wi i (proj c d0 p0 (m1 A B r)) (proj c d1 p1 (m1 A' B' s)) = nth i (proj c (d0 + d1) p2 (fun x => m1 A B r x * m1 A' B' s x)) 0.
Proof.
  intros Hr Hs. destruct (C35_exact_trigonometric n d0 p0 d1 p1 p2 (m1 A B r) (m1 A' B' s) r s n1 Hd (m1_degree A B r) (m1_degree A' B' s) Hr Hs) as (w0 & E0 & V). rewrite Ew in E0. injection E0 as <-.
  rewrite <- (c_default n c n1 Ec) in V. unfold Wi. now rewrite V.
Qed.
End WedgeOp.
(** the contraction *)
Section ContractionOp.
Variables (p0 p1 p2 : bool).
Notation w := (get_c refine_periodic p0 1 p1 p2).
Lemma c_fun : exists g0 g1 gu m, lin n m g0 /\ lin n m g1 /\ lin m n gu /\ forall u v, length u = n -> length v = n -> w u v = Ok (gu (zipw Rmult (g0 u) (g1 v))).
Proof.
  destruct (table_T_lin never Periodic n 1 p0 n1 Logic.I ltac:(lia) ltac:(discriminate)) as (t0 & T0 & (g0 & L0 & G0)).
  destruct (table_T_lin never Periodic n 1 p1 n1 Logic.I ltac:(lia) ltac:(discriminate)) as (t1 & T1 & (g1 & L1 & G1)).
  destruct (table_U_lin never Periodic n 0 p2 n1 ltac:(lia) ltac:(discriminate)) as (tu & Tu & (gu & Lu & Gu)).
  exists g0, g1, gu, (refined Periodic n). split; [exact L0|]. split; [exact L1|]. split; [exact Lu|]. intros u v Hu Hv.
  destruct (get_c_val never Periodic n p0 p1 p2 u v n1 Logic.I ltac:(discriminate) Hu Hv) as (s0 & s1 & su & A & B & e & S0 & S1 & Su & EA & EB & Ee & Ec0 & LA & LB & _).
  rewrite T0 in S0. injection S0 as <-. rewrite T1 in S1. injection S1 as <-. rewrite Tu in Su. injection Su as <-.
  rewrite G0 in EA by exact Hu. injection EA as <-. rewrite G1 in EB by exact Hv. injection EB as <-. rewrite Gu in Ee by (rewrite length_zipw; lia). injection Ee as <-. exact Ec0.
Qed.
Definition Ci (i : nat) (u v : list R) : R := nth i (match w u v with Ok e => e | Err _ => [] end) 0.
Lemma lin_mulr (m : nat) v : length v = m -> lin (A := R) m m (fun u => zipw Rmult u v).
Proof.
  intro Lv. apply (lin_nth (A := R)); [intros; rewrite length_zipw; lia|]. intros j Hj r u u' Hu Hu'. unfold axpy. rewrite !nth_zipw with (dx := 0) (dy := 0) by (rewrite ?length_zipw; lia). cbn. ring.
Qed.
Lemma lin_mull (m : nat) u : length u = m -> lin (A := R) m m (fun v => zipw Rmult u v).
Proof.
  intro Lu. apply (lin_nth (A := R)); [intros; rewrite length_zipw; lia|]. intros j Hj r v v' Hv Hv'. unfold axpy. rewrite !nth_zipw with (dx := 0) (dy := 0) by (rewrite ?length_zipw; lia). cbn. ring.
Qed.
Lemma Cl i v : length v = n -> lf n (fun u => Ci i u v).
Proof.
  intro Lv. destruct c_fun as (g0 & g1 & gu & m & L0 & L1 & Lu & E). apply (lf_ext n _ (fun u => nth i (gu (zipw Rmult (g0 u) (g1 v))) 0)); [intros u Hu; unfold Ci; now rewrite E|].
  exact (lin_lf n n _ i (lin_comp n m n _ _ (lin_comp n m m _ _ L0 (lin_mulr m (g1 v) (lin_len n m g1 v L1 Lv))) Lu)).
Qed.
Lemma Cr i u : length u = n -> lf n (fun v => Ci i u v).
Proof.
  intro Lv. destruct c_fun as (g0 & g1 & gu & m & L0 & L1 & Lu & E). apply (lf_ext n _ (fun v => nth i (gu (zipw Rmult (g0 u) (g1 v))) 0)); [intros v Hu; unfold Ci; now rewrite E|].
  exact (lin_lf n n _ i (lin_comp n m n _ _ (lin_comp n m m _ _ L1 (lin_mull m (g0 u) (lin_len n m g0 u L0 Lv))) Lu)).
Qed.
Lemma C_low i A B r A' B' s : (2 * r < n)%nat -> (2 * s < n)%nat -> Ci i (proj c 1 p0 (m1 A B r)) (proj c 1 p1 (m1 A' B' s)) = nth i (proj c 0 p2 (fun x => m1 A B r x * m1 A' B' s x)) 0.
Proof.
  intros Hr Hs. set (g := MkGrid1 Periodic n 0 (2 * PI)).
  pose proof (C73_contraction_exact never (fun _ => grid_1d never Periodic n) 0 g c p2 p0 (m1 A B r) p1 (m1 A' B' s)) as Q. unfold form_C, form in Q. cbn [degree isprimal gref array] in Q. rewrite !Nat.eqb_refl in Q. cbn [negb andb gC grid_1d Common.dC dec_of] in Q.
  rewrite C_entry in Q. cbn [bind] in Q. specialize (Q (conj eq_refl Ec) (conj eq_refl eq_refl) n1 (ex_intro _ r (conj Hr (m1_degree A B r))) (ex_intro _ s (conj Hs (m1_degree A' B' s)))).
  unfold Ci. destruct (get_c refine_periodic p0 1 p1 p2 _ _) as [e|]; [|discriminate]. cbn [bind] in Q. injection Q as ->. reflexivity.
Qed.
End ContractionOp.
End Wedge.

Section C104.
Variable close : C -> C -> bool.
Variable heap : nat -> grid (list R).
(** the wedge product of the discretisations and the discretisation of the product; the factor is 1 for 0-forms and the length of a cell for 1-forms *)
Theorem C104_wedge r g c t d0 p0 f0 a0 b0 d1 p1 f1 a1 b1 : refers close heap r g c -> default_extent g -> kd g = Periodic -> Nat.odd (sz g) = true -> (d0 + d1 <= 1)%nat ->
  fourier_series a0 b0 f0 -> ex_series (amplitude a0 b0) -> fourier_series a1 b1 f1 -> ex_series (amplitude a1 b1) ->
  exists v, form_W heap t (form r c d0 p0 f0) (form r c d1 p1 f1) = Ok (MkForm (d0 + d1) t r v) /\ length v = sz g /\
  forall i, (i < sz g)%nat -> Rabs (nth i v 0 - nth i (proj c (d0 + d1) t (fun x => f0 x * f1 x)) 0) <=
    2 * (if Nat.eqb (d0 + d1) 0 then 1 else 2 * PI / INR (sz g)) *
      (Series (amplitude a0 b0) * tail (amplitude a1 b1) (first_unresolved (sz g)) + tail (amplitude a0 b0) (first_unresolved (sz g)) * Series (amplitude a1 b1)).
Proof.
  intros [Eh E] He Hk Ho Hd H0 E0 H1 E1. destruct g as [k n l u]. cbn [kd sz] in *. subst k. destruct He as [El Eu]. cbn [lo hi kd] in El, Eu. subst l u. unfold cells_of in E. cbn [kd sz lo hi] in E.
  destruct (dget wkey_eqb (wedge refine_periodic) ((d0, p0), (d1, p1), t)) as [w|er] eqn:Ew.
  2:{ rewrite W_entry in Ew by auto. discriminate. }
  destruct (w_len n c Ho E d0 d1 p0 p1 t w Hd Ew (proj c d0 p0 f0) (proj c d1 p1 f1) (plen n c Ho E d0 p0 f0 ltac:(lia)) (plen n c Ho E d1 p1 f1 ltac:(lia))) as (v & Ev & Lv).
  exists v. split; [|split; [exact Lv|]].
  - unfold form_W, form. cbn [degree isprimal gref array]. rewrite Nat.eqb_refl, Eh. cbn [negb gW grid_1d dW dec_of]. rewrite Ew. cbn [bind]. rewrite Ev. reflexivity.
  - intros i Hi. pose proof (product_error n c Ho E d0 d1 (d0 + d1) p0 p1 t (Wi w) ltac:(lia) ltac:(lia) Hd (Wl n c Ho E d0 d1 p0 p1 t w Hd Ew) (Wr n c Ho E d0 d1 p0 p1 t w Hd Ew) (W_low n c Ho E d0 d1 p0 p1 t w Hd Ew) f0 f1 a0 b0 a1 b1 H0 E0 H1 E1 i Hi) as B. unfold Wi in B. rewrite Ev in B. unfold om in B. destruct (d0 + d1)%nat; exact B.
Qed.
(** the contraction of the 1-form f1 dx by the vector field whose 1-form is f0 dx *)
Theorem C104_contraction r g c t p0 f0 a0 b0 p1 f1 a1 b1 : refers close heap r g c -> default_extent g -> kd g = Periodic -> Nat.odd (sz g) = true ->
  fourier_series a0 b0 f0 -> ex_series (amplitude a0 b0) -> fourier_series a1 b1 f1 -> ex_series (amplitude a1 b1) ->
  exists v, form_C heap t (form r c 1 p0 f0) (form r c 1 p1 f1) = Ok (MkForm 0 t r v) /\ length v = sz g /\
  forall i, (i < sz g)%nat -> Rabs (nth i v 0 - nth i (proj c 0 t (fun x => f0 x * f1 x)) 0) <=
    2 * (Series (amplitude a0 b0) * tail (amplitude a1 b1) (first_unresolved (sz g)) + tail (amplitude a0 b0) (first_unresolved (sz g)) * Series (amplitude a1 b1)).
Proof.
  intros [Eh E] He Hk Ho H0 E0 H1 E1. destruct g as [k n l u]. cbn [kd sz] in *. subst k. destruct He as [El Eu]. cbn [lo hi kd] in El, Eu. subst l u. unfold cells_of in E. cbn [kd sz lo hi] in E.
  destruct (c_fun n c Ho E p0 p1 t) as (g0 & g1 & gu & m & L0 & L1 & Lu & Eg). set (u := proj c 1 p0 f0). set (v := proj c 1 p1 f1).
  assert (length u = n) as Hu by (apply (plen n c Ho E); lia). assert (length v = n) as Hv by (apply (plen n c Ho E); lia). pose proof (Eg u v Hu Hv) as Ev.
  exists (gu (zipw Rmult (g0 u) (g1 v))). split; [|split].
  - unfold form_C, form. cbn [degree isprimal gref array]. rewrite !Nat.eqb_refl, Eh. cbn [negb andb gC grid_1d Common.dC dec_of]. rewrite C_entry. cbn [bind]. fold u v. rewrite Ev. reflexivity.
  - apply (lin_len m n gu); auto. rewrite length_zipw. pose proof (lin_len n m g0 u L0 Hu). pose proof (lin_len n m g1 v L1 Hv). lia.
  - intros i Hi. pose proof (product_error n c Ho E 1 1 0 p0 p1 t (Ci p0 p1 t) ltac:(lia) ltac:(lia) ltac:(lia) (Cl n c Ho E p0 p1 t) (Cr n c Ho E p0 p1 t) (C_low n c Ho E p0 p1 t) f0 f1 a0 b0 a1 b1 H0 E0 H1 E1 i Hi) as B. unfold Ci in B. fold u v in B. rewrite Ev in B. unfold om in B. rewrite Rmult_1_r in B. exact B.
Qed.
Theorem C104_bound_vanishes (w0 w1 : nat -> R) (eps : R) : (forall k, 0 <= w0 k) -> (forall k, 0 <= w1 k) -> ex_series w0 -> ex_series w1 -> 0 < eps ->
  exists N, forall n, (N <= n)%nat -> 0 <= Series w0 * tail w1 (first_unresolved n) + tail w0 (first_unresolved n) * Series w1 < eps.
Proof.
  intros P0 P1 E0 E1 He. pose proof (tail_nonneg w0 0 P0 E0) as S0. pose proof (tail_nonneg w1 0 P1 E1) as S1. rewrite tail_0 in S0, S1. set (s := Series w0 + Series w1 + 1).
  assert (0 < eps / s) as Hs by (apply Rdiv_lt_0_compat; unfold s; lra).
  destruct (C102_bound_vanishes w0 (eps / s) P0 E0 Hs) as [N0 H0]. destruct (C102_bound_vanishes w1 (eps / s) P1 E1 Hs) as [N1 H1]. exists (N0 + N1)%nat. intros n Hn.
  specialize (H0 n ltac:(lia)). specialize (H1 n ltac:(lia)). set (x := tail w0 _) in *. set (y := tail w1 _) in *. split; [nra|].
  apply Rle_lt_trans with ((Series w0 + Series w1) * (eps / s)); [nra|]. replace eps with (s * (eps / s)) at 2 by (field; unfold s; lra). apply Rmult_lt_compat_r; [auto|unfold s; lra].
Qed.
Example C104_instance r g c t d0 p0 d1 p1 : refers close heap r g c -> default_extent g -> kd g = Periodic -> Nat.odd (sz g) = true -> (d0 + d1 <= 1)%nat ->
  exists v, form_W heap t (form r c d0 p0 bell) (form r c d1 p1 bell) = Ok (MkForm (d0 + d1) t r v) /\
  forall i, (i < sz g)%nat -> Rabs (nth i v 0 - nth i (proj c (d0 + d1) t (fun x => bell x * bell x)) 0) <=
    2 * (if Nat.eqb (d0 + d1) 0 then 1 else 2 * PI / INR (sz g)) * (128 / 49 * (/ 8) ^ first_unresolved (sz g)).
Proof.
  intros Hr He Hk Ho Hd. destruct (C104_wedge r g c t d0 p0 bell _ _ d1 p1 bell _ _ Hr He Hk Ho Hd bell_series bell_summable bell_series bell_summable) as (v & E & _ & B). exists v. split; [exact E|]. intros i Hi.
  specialize (B i Hi). rewrite <- tail_0, !bell_tail in B. replace (128 / 49 * (/ 8) ^ first_unresolved (sz g)) with (8 / 7 * (/ 8) ^ 0 * (8 / 7 * (/ 8) ^ first_unresolved (sz g)) + 8 / 7 * (/ 8) ^ first_unresolved (sz g) * (8 / 7 * (/ 8) ^ 0)) by (cbn [pow]; field). exact B.
Qed.
End C104.
