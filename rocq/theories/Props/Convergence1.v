(** C103: on the default regular and Chebyshev grids the Hodge star of 0-forms and their reconstruction converge, with an error
    bounded by the coefficients of the cosine, resp. Chebyshev, series that the grid does not resolve. *)
From Coq Require Import ZArith Reals List Lia Lra Arith Bool.
From Coq Require Import ZifyNat.
From Verif Require Import Model.Sym.
From Coquelicot Require Import Coquelicot.
From Verif Require Import Model.Num Model.Np Model.Spectral Model.Basis Model.Grids1 Model.Regular Model.Chebyshev Model.Common Model.Decform Model.Grid2 Model.Laplacian Spec.Trig Spec.Poly Spec.Resolved Spec.Tiling Spec.Series
  Proofs.ListLemmas Proofs.RingSums Proofs.Sums Proofs.RIntLemmas Proofs.Grids1P Proofs.GridsThm Proofs.TrigAlg Proofs.Lin Proofs.TableLin Proofs.ChebPoly Proofs.Grid2P Proofs.Fourier Proofs.Trig Proofs.Exact Proofs.Ops Proofs.Refine Proofs.PeriodicBasis Proofs.RegularBasis Proofs.Cheb2 Proofs.Kernels Proofs.SeriesP.
From Verif Require Import Props.Grid1 Props.Chebyshev Props.Lagrange Props.Decform Props.Refinement Props.Basis2 Props.Grid2 Proofs.Exact1 Props.Exact1 Props.Complete1 Proofs.LaplaceP Props.Laplacian Props.Convergence.
Import ListNotations.
Local Open Scope R_scope.

(** the series that belongs to the kind of the grid *)
Definition expansion (k : kind1) (a : nat -> R) (f : R -> R) : Prop :=
  match k with Periodic => False | Regular => cosine_series a f | Chebyshev => chebyshev_series a f end.

Definition clamp (lo hi x : R) : R := (lo + hi + Rabs (x - lo) - Rabs (hi - x)) / 2.
Lemma clamp_in lo hi x : lo <= x <= hi -> clamp lo hi x = x.
Proof. intro H. unfold clamp. rewrite !Rabs_pos_eq by lra. field. Qed.
Lemma clamp_range lo hi x : lo <= hi -> lo <= clamp lo hi x <= hi.
Proof. intro H. unfold clamp, Rabs. destruct (Rcase_abs (x - lo)), (Rcase_abs (hi - x)); lra. Qed.
Lemma clamp_cont lo hi x : continuous (clamp lo hi) x.
Proof.
  unfold clamp. apply (continuous_mult (K := R_AbsRing) (fun t => lo + hi + Rabs (t - lo) - Rabs (hi - t)) (fun _ => / 2)); [|apply continuous_const].
  apply (continuous_minus (V := R_NormedModule) (fun t => lo + hi + Rabs (t - lo)) (fun t => Rabs (hi - t))).
  - apply (continuous_plus (V := R_NormedModule) (fun _ => lo + hi) (fun t => Rabs (t - lo))); [apply continuous_const|]. apply continuous_Rabs_comp.
    apply (continuous_minus (V := R_NormedModule) (fun t => t) (fun _ => lo)); [apply continuous_id|apply continuous_const].
  - apply continuous_Rabs_comp. apply (continuous_minus (V := R_NormedModule) (fun _ => hi) (fun t => t)); [apply continuous_const|apply continuous_id].
Qed.
Section S.
Variables (close : C -> C -> bool) (kk : kind1) (n : nat) (c : cells1).
Hypothesis Kp : kk <> Periodic.
Hypothesis Hw : works close kk n.
Hypothesis Ec : cells_of (default_grid kk n) = Ok c.
Notation N := (2 * (n - 1))%nat.
Notation M t := (grid_N kk n 0 t).
Lemma n2 : (2 <= n)%nat. Proof. destruct kk; cbn in Hw; [congruence| |]; tauto. Qed.
Lemma M_val t : M t = if t then n else (n - 1)%nat. Proof. destruct kk; [congruence| |]; now destruct t. Qed.
Lemma M_edges t : grid_N kk n 1 (negb t) = M t. Proof. destruct kk; [congruence| |]; now destruct t. Qed.
Definition lo0 : R := match kk with Chebyshev => -1 | _ => 0 end.
Definition hi0 : R := match kk with Chebyshev => 1 | _ => PI end.
Lemma lo_hi : lo0 < hi0. Proof. pose proof PI_RGT_0. unfold lo0, hi0. destruct kk; lra. Qed.
(** from angles to points of the domain *)
Definition pos (t : R) : R := match kk with Chebyshev => - cos t | _ => t end.
Lemma pos_range t : 0 <= t <= PI -> lo0 <= pos t <= hi0.
Proof. intro H. unfold pos, lo0, hi0. pose proof (COS_bound t). destruct kk; lra. Qed.
Lemma pos_mono s t : 0 <= s -> s <= t -> t <= PI -> pos s <= pos t.
Proof. intros H0 H H1. unfold pos. destruct kk; auto. apply Ropp_le_contravar. apply cos_decr_1; lra. Qed.
(** the nodes and the ends of the dual cells, as angles *)
Notation node := (pt N).
Definition ea (t : bool) (i : nat) : R := if t then tdual n i else xg N i.
Definition eb (t : bool) (i : nat) : R := if t then tdual n (S i) else xg N (S i).
Lemma node_range (t : bool) i : (i < M t)%nat -> 0 <= node t i <= PI.
Proof.
  pose proof n2 as Hn. pose proof (hstep_pos N ltac:(lia)). intro Hi. rewrite M_val in Hi. unfold pt. destruct t.
  - rewrite Rplus_0_r. apply (xg_le_PI n Hn). lia.
  - pose proof (xg_lt_PI n Hn i Hi). lra.
Qed.
Lemma e_range (t : bool) i : (i < M t)%nat -> 0 <= ea t i /\ ea t i <= eb t i /\ eb t i <= PI.
Proof.
  pose proof n2 as Hn. pose proof (hstep_pos N ltac:(lia)). intro Hi. rewrite M_val in Hi. unfold ea, eb. destruct t.
  - pose proof (tdual_range n Hn i Hi). tauto.
  - pose proof (xg_lt_PI n Hn i Hi). rewrite xg_S. lra.
Qed.
Lemma P_nodes t f : proj c 0 t f = tab (M t) (fun i => f (pos (node t i))).
Proof.
  pose proof n2 as Hn. pose proof (default_cells _ c (default_ext close kk n Hw) Ec) as Hc. rewrite (default_kd close kk n Hw), (default_sz close kk n Hw) in Hc. rewrite M_val. unfold pos, pt.
  destruct kk; [congruence| |].
  - destruct (rd_cells n Hn) as (c0 & E & Ev & _ & Evd & _). rewrite Hc in E. injection E as <-. destruct t; cbn [proj]; unfold P0, P0d, proj0; rewrite ?Ev, ?Evd, map_tab; apply tab_ext; intros; now rewrite ?Rplus_0_r.
  - destruct (cd_cells n Hn) as (c0 & E & Ev & _ & Evd & _). rewrite Hc in E. injection E as <-. destruct t; cbn [proj]; unfold P0, P0d, proj0; rewrite ?Ev, ?Evd, map_tab; apply tab_ext; intros; now rewrite ?Rplus_0_r.
Qed.
Lemma P_edges t f : proj c 1 (negb t) f = tab (M t) (fun i => RInt f (pos (ea t i)) (pos (eb t i))).
Proof.
  pose proof n2 as Hn. pose proof (default_cells _ c (default_ext close kk n Hw) Ec) as Hc. rewrite (default_kd close kk n Hw), (default_sz close kk n Hw) in Hc. rewrite M_val. unfold pos, ea, eb.
  destruct kk; [congruence| |].
  - destruct (rd_cells n Hn) as (c0 & E & _ & Ee & _ & Eed). rewrite Hc in E. injection E as <-. destruct t; cbn [proj negb]; unfold P1, P1d, Grids1.proj1; rewrite ?Ee, ?Eed; cbn [fst snd]; now rewrite zipw_tab.
  - destruct (cd_cells n Hn) as (c0 & E & _ & Ee & _ & Eed). rewrite Hc in E. injection E as <-. destruct t; cbn [proj negb]; unfold P1, P1d, Grids1.proj1; rewrite ?Ee, ?Eed; cbn [fst snd]; now rewrite zipw_tab.
Qed.
Lemma P_ext0 t f g : (forall x, lo0 <= x <= hi0 -> f x = g x) -> proj c 0 t f = proj c 0 t g.
Proof. intro E. rewrite !P_nodes. apply tab_ext. intros i Hi. apply E. apply pos_range. now apply node_range. Qed.
Lemma P_ext1 t f g : (forall x, lo0 <= x <= hi0 -> f x = g x) -> proj c 1 (negb t) f = proj c 1 (negb t) g.
Proof.
  intro E. rewrite !P_edges. apply tab_ext. intros i Hi. destruct (e_range t i Hi) as (H1 & H2 & H3). apply RInt_ext. intros x Hx.
  pose proof (pos_mono _ _ H1 H2 H3). rewrite Rmin_left, Rmax_right in Hx by auto. pose proof (pos_range (ea t i) ltac:(lra)). pose proof (pos_range (eb t i) ltac:(lra)). apply E. lra.
Qed.

(** the functions of the series *)
Definition phi (k : nat) (x : R) : R := match kk with Chebyshev => cos (INR k * acos x) | _ => cos (INR k * x) end.
Definition psi (k : nat) (x : R) : R := phi k (clamp lo0 hi0 x).
Lemma phi_bound k x : Rabs (phi k x) <= 1.
Proof. unfold phi. apply Rabs_le. destruct kk; apply COS_bound. Qed.
Lemma phi_pos k t : 0 <= t <= PI -> phi k (pos t) = match kk with Chebyshev => (-1) ^ k | _ => 1 end * cos (INR k * t).
Proof.
  intro H. unfold phi, pos. destruct kk; [ring|ring|]. replace (- cos t) with (cos (PI - t)) by (rewrite cos_minus, cos_PI, sin_PI; ring). rewrite acos_cos by lra.
  replace (INR k * (PI - t)) with (INR k * PI + - (INR k * t)) by ring. now rewrite cos_add_pi, cos_neg.
Qed.
Lemma phi_poly k : exists q, (forall x, continuous q x) /\ (forall t, (k < M t)%nat -> resolved kk n 0 t q) /\ forall x, lo0 <= x <= hi0 -> phi k x = q x.
Proof.
  pose proof phi_pos as Hp. unfold phi, lo0, hi0, pos in *. destruct kk; [congruence| |].
  - exists (fun x => cos (INR k * x)). pose proof (cosp_cos k k (le_n k)) as Hc. split; [intro; now apply (cosp_cont k)|]. split; auto.
    intros t Ht. unfold resolved, resolved_regular, cos_degree. apply cosp_cos. lia.
  - destruct (cos_poly k) as (P & HP & E). exists (fun x => (-1) ^ k * P x). pose proof (poly_scal k ((-1) ^ k) P HP) as HQ. split; [intro; now apply (poly_cont k)|]. split.
    + intros t Ht. unfold resolved, resolved_chebyshev. apply (poly_mono k); auto. lia.
    + intros x Hx. specialize (Hp k (acos (- x))). pose proof (acos_bound (- x)). rewrite cos_acos, Ropp_involutive in Hp by lra. rewrite Hp by lra. f_equal. rewrite E. f_equal. rewrite cos_acos by lra. ring.
Qed.
Lemma psi_cont k x : continuous (psi k) x.
Proof.
  destruct (phi_poly k) as (q & Cq & _ & E). pose proof lo_hi. apply (continuous_ext (fun y => q (clamp lo0 hi0 y))).
  - intro y. symmetry. apply E. apply clamp_range. lra.
  - apply (continuous_comp (clamp lo0 hi0) q); [apply clamp_cont|apply Cq].
Qed.
Lemma psi_in k x : lo0 <= x <= hi0 -> psi k x = phi k x. Proof. intro H. unfold psi. now rewrite clamp_in. Qed.
(** at the nodes every function of the series is one of the resolved ones, up to a factor *)
Lemma alias_nodes t k : exists r s, (r < M t)%nat /\ Rabs s <= 1 /\ ((k < M t)%nat -> r = k /\ s = 1) /\ forall i, (i < M t)%nat -> phi k (pos (node t i)) = s * phi r (pos (node t i)).
Proof.
  pose proof n2 as Hn. destruct (alias N ltac:(lia) t k 1 0) as (r & A & B & s0 & Hr & Hrk & Ex & EA & EB & Ept & _).
  assert (B = 0) as -> by (rewrite Rabs_R0 in EB; destruct (Req_dec B 0) as [|Z]; auto; pose proof (Rabs_pos_lt B Z); lra). rewrite Rabs_R1 in EA.
  assert (forall i, cos (INR k * node t i) = A * cos (INR r * node t i)) as Ec0 by (intro i; specialize (Ept i); unfold m1 in Ept; lra). rewrite M_val.
  set (u := fun j : nat => match kk with Chebyshev => (-1) ^ j | _ => 1 end).
  assert (forall j, Rabs (u j) = 1 /\ u j * u j = 1) as Hu.
  { intro j. unfold u. destruct kk; rewrite ?Rabs_R1; [lra|lra|]. rewrite pm1_abs. split; [auto|]. rewrite <- Rpow_mult_distr. replace (-1 * -1) with 1 by ring. apply pow1. }
  assert (forall i, (i < M t)%nat -> phi k (pos (node t i)) = u k * A * u r * phi r (pos (node t i))) as Ep.
  { intros i Hi. pose proof (node_range t i Hi). rewrite !phi_pos by auto. fold (u k) (u r). rewrite Ec0. transitivity (u k * A * (u r * u r) * cos (INR r * node t i)); [|ring]. rewrite (Logic.proj2 (Hu r)). ring. }
  rewrite M_val in Ep. destruct (le_lt_dec (if t then n else (n - 1)%nat) r) as [Hm|Hm].
  - (* the cosine of the top mode vanishes at the dual nodes *)
    destruct t; [lia|]. assert (r = n - 1)%nat as -> by lia. exists 0%nat, 0. split; [lia|]. split; [rewrite Rabs_R0; lra|]. split; [intro; lia|]. intros i Hi. rewrite (Ep i Hi).
    pose proof (node_range false i) as Q. rewrite M_val in Q. rewrite (phi_pos (n - 1)) by auto.
    assert (cos (INR (n - 1) * node false i) = 0) as ->; [|ring].
    pose proof (n_pt N ltac:(lia) false i 1) as E. rewrite Nat.mul_1_l in E. cbn [INR] in E. rewrite Rmult_1_l, mult_INR, plus_INR, mult_INR in E. cbn [INR] in E.
    replace (INR (n - 1) * node false i) with (INR i * PI + PI / 2) by lra. rewrite cos_add_pi, cos_PI2. ring.
  - exists r, (u k * A * u r). split; [auto|]. split; [rewrite !Rabs_mult, (Logic.proj1 (Hu k)), (Logic.proj1 (Hu r)), EA; lra|]. split; [|exact Ep].
    intro Hk. destruct Ex as (-> & -> & _); [destruct t; lia|]. split; auto. transitivity (u k * u k); [ring|apply Hu].
Qed.

Variables (f : R -> R) (a : nat -> R).
Hypothesis Hf : expansion kk a f.
Hypothesis Ha : ex_series (fun k => Rabs (a k)).
Notation w := (fun k => Rabs (a k)).
Definition F (x : R) : R := f (clamp lo0 hi0 x).
Lemma F_in x : lo0 <= x <= hi0 -> F x = f x. Proof. intro H. unfold F. now rewrite clamp_in. Qed.
Lemma F_series x : is_series (fun k => a k * psi k x) (F x).
Proof.
  pose proof lo_hi. pose proof (clamp_range lo0 hi0 x ltac:(lra)) as Hx. unfold F, psi, phi. revert Hx. generalize (clamp lo0 hi0 x). intros y Hy. unfold lo0, hi0 in Hy.
  unfold expansion, cosine_series, chebyshev_series in Hf. destruct kk; [congruence| |]; now apply Hf.
Qed.
Lemma term_bound k x : Rabs (a k * psi k x) <= w k.
Proof. rewrite Rabs_mult. rewrite <- (Rmult_1_r (Rabs (a k))) at 2. apply Rmult_le_compat_l; [apply Rabs_pos|apply phi_bound]. Qed.
Lemma term_cont k x : continuous (fun y => a k * psi k y) x.
Proof. apply (continuous_scal_r (V := R_NormedModule) (a k) (psi k)). apply psi_cont. Qed.
Lemma F_integral p q : is_series (fun k => RInt (fun y => a k * psi k y) p q) (RInt F p q).
Proof. exact (sum_integral (fun k y => a k * psi k y) w F F_series term_bound Ha term_cont p q). Qed.
Lemma bound1 s y k : Rabs s <= 1 -> Rabs y <= 1 -> Rabs (a k * (s * y)) <= w k.
Proof. intros Hs Hy. rewrite Rabs_mult, <- (Rmult_1_r (Rabs (a k))) at 1. rewrite Rmult_1_r. rewrite <- (Rmult_1_r (Rabs (a k))) at 2. apply Rmult_le_compat_l; [apply Rabs_pos|]. rewrite Rabs_mult. pose proof (Rabs_pos s). pose proof (Rabs_pos y). nra. Qed.
Lemma nodes_k t k : exists r s q, (forall x, lo0 <= x <= hi0 -> phi r x = q x) /\ (forall x, continuous q x) /\ resolved kk n 0 t q /\ Rabs s <= 1 /\ ((k < M t)%nat -> r = k /\ s = 1) /\
  tab (M t) (fun i => a k * psi k (pos (node t i))) = proj c 0 t (fun x => a k * s * q x).
Proof.
  destruct (alias_nodes t k) as (r & s & Hr & Hs & Hk & E). destruct (phi_poly r) as (q & Cq & Rq & Eq). exists r, s, q. repeat (split; [solve [auto]|]).
  rewrite P_nodes. apply tab_ext. intros i Hi. pose proof (pos_range _ (node_range t i Hi)). rewrite psi_in by auto. rewrite E, Eq by auto. ring.
Qed.
Lemma resolved_scal t s q : resolved kk n 0 t q -> resolved kk n 0 t (fun x => s * q x).
Proof. unfold resolved, resolved_regular, resolved_chebyshev. destruct kk; [congruence| |]; intro H; [exact (cosp_scal _ s q H)|now apply poly_scal]. Qed.

Theorem conv_hodge t : exists v, hget close (default_grid kk n) 0 t (proj c 0 t f) = Ok v /\ length v = M t /\
  forall i, (i < M t)%nat -> Rabs (nth i v 0 - nth i (proj c 1 (negb t) f) 0) <= 2 * nth i (proj c 1 (negb t) (fun _ => 1)) 0 * tail w (M t).
Proof.
  assert (length (proj c 0 t f) = M t) as L by (rewrite P_nodes; apply length_tab).
  exists (h close kk n 0 t (proj c 0 t f)). split.
  { destruct (h_get close kk n Hw 0 t _ ltac:(lia) L) as (o & Eo & Ev). unfold hget. rewrite (default_kd close kk n Hw), Eo. exact Ev. }
  split; [rewrite (h_len close kk n Hw 0 t) by auto; apply M_edges|]. intros i Hi.
  rewrite (P_ext0 t f F) by (intros; symmetry; now apply F_in). rewrite (P_ext1 t f F) by (intros; symmetry; now apply F_in).
  destruct (e_range t i Hi) as (H1 & H2 & H3). pose proof (pos_mono _ _ H1 H2 H3) as Hab. pose proof (pos_range (ea t i) ltac:(lra)) as Ra. pose proof (pos_range (eb t i) ltac:(lra)) as Rb.
  rewrite !P_edges, !nth_tab by auto. rewrite (P_nodes t F). rewrite RInt_const. change (scal ?x 1) with (x * 1). rewrite Rmult_1_r. set (x0 := pos (ea t i)) in *. set (x1 := pos (eb t i)) in *.
  rewrite <- tail_scal.
  assert (forall g b, (forall x, continuous g x) -> (forall x, lo0 <= x <= hi0 -> Rabs (g x) <= b) -> Rabs (RInt g x0 x1) <= (x1 - x0) * b) as Bd.
  { intros g b Cg Hb. apply abs_RInt_le_const; [lra| |intros y Hy; apply Hb; lra]. now apply ex_RInt_cont_all. }
  apply (functional_error (M t) (fun v => nth i (h close kk n 0 t v) 0) (fun k j => a k * psi k (pos (node t j))) (fun j => F (pos (node t j))) (fun k => RInt (fun y => a k * psi k y) x0 x1)).
  - pose proof (h_lin close kk n Hw 0 t ltac:(lia)) as Hl. cbn [Nat.sub] in Hl. rewrite (M_edges t) in Hl. exact (lin_lf (M t) (M t) (h close kk n 0 t) i Hl).
  - intros j _. apply F_series.
  - apply F_integral.
  - now apply (Convergence.ex_scal).
  - intros k Hk. destruct (nodes_k t k) as (r & s & q & Eq & Cq & Rq & Hs & Er & ->). destruct (Er Hk) as [-> ->].
    rewrite (h_exact close kk n Hw c 0 t) by (auto; now apply resolved_scal). cbn [Nat.sub]. rewrite P_edges, nth_tab by auto. fold x0 x1. apply RInt_ext. intros y Hy. rewrite Rmin_left, Rmax_right in Hy by auto.
    rewrite psi_in by lra. rewrite Eq by lra. match goal with |- @eq _ ?u ?v => change (@eq R u v) end. ring.
  - intros k _. cbv beta. destruct (nodes_k t k) as (r & s & q & Eq & Cq & Rq & Hs & Er & ->).
    rewrite (h_exact close kk n Hw c 0 t) by (auto; now apply resolved_scal). cbn [Nat.sub]. rewrite P_edges, nth_tab by auto. fold x0 x1.
    rewrite Rmult_assoc. apply diff_bound; apply Bd.
    + intro y. apply (continuous_scal_r (V := R_NormedModule) (a k * s) q). apply Cq.
    + intros y Hy. rewrite <- Eq by auto. rewrite Rmult_assoc. apply bound1; auto. apply phi_bound.
    + intro y. apply term_cont.
    + intros y Hy. apply term_bound.
Qed.

Lemma rec_lf t x : lo0 <= x <= hi0 -> exists y, lf (M t) y /\ forall v, length v = M t -> R_form (basis_of kk n) (grid_N kk n) 0 t v x = Some (y v).
Proof.
  pose proof n2 as Hn. pose proof (lf_lin n N (fun v => interp v x) _ (lf_interp N x) (lin_mirror0 (A := R) n 1 ltac:(lia))) as _.
  assert (forall s, lf n (fun v => interp (mirror0 1 v) s)) as L0 by (intro s; exact (lf_lin n N (fun v => interp v s) _ (lf_interp N s) (lin_mirror0 (A := R) n 1 ltac:(lia)))).
  assert (forall s, lf (n - 1) (fun v => interp (mirror1 1 v) s)) as L1 by (intro s; exact (lf_lin (n - 1) N (fun v => interp v s) _ (lf_interp N s) (lin_mirror1 (A := R) (n - 1) 1))).
  intro Hx. rewrite M_val. unfold lo0, hi0 in Hx. destruct kk; [congruence| |]; cbn [basis_of grid_N]; destruct t.
  - eexists. split; [exact (L0 x)|]. intros v Lv. now apply (Rr0 n Hn).
  - eexists. split; [exact (L1 (x - hstep N / 2))|]. intros v Lv. now apply (Rr0d n Hn).
  - eexists. split; [exact (L0 (acos (- x)))|]. intros v Lv. now apply (Rc0_val n Hn).
  - eexists. split; [exact (L1 (acos (- x) - hstep N / 2))|]. intros v Lv. now apply (Rc0d_val n Hn).
Qed.
Lemma rec_exact t x q : lo0 <= x <= hi0 -> resolved kk n 0 t q -> R_form (basis_of kk n) (grid_N kk n) 0 t (proj c 0 t q) x = Some (q x).
Proof.
  pose proof n2 as Hn. pose proof (default_cells _ c (default_ext close kk n Hw) Ec) as Hc. rewrite (default_kd close kk n Hw), (default_sz close kk n Hw) in Hc. intros Hx Hq. unfold lo0, hi0 in Hx.
  destruct kk; [congruence| |]; cbn [basis_of grid_N resolved] in *; [apply reg_R; auto; lia|apply cheb_R; auto; lia].
Qed.
Theorem conv_rec t x : lo0 <= x <= hi0 -> exists y, R_form (basis_of kk n) (grid_N kk n) 0 t (proj c 0 t f) x = Some y /\ Rabs (y - f x) <= 2 * tail w (M t).
Proof.
  intro Hx. destruct (rec_lf t x Hx) as (y & Ly & Ey). exists (y (proj c 0 t f)). split; [apply Ey; rewrite P_nodes; apply length_tab|].
  rewrite (P_ext0 t f F) by (intros; symmetry; now apply F_in). rewrite <- (F_in x Hx), (P_nodes t F), <- tail_scal.
  assert (forall q, resolved kk n 0 t q -> y (proj c 0 t q) = q x) as Yq.
  { intros q Rq. pose proof (rec_exact t x q Hx Rq) as E. rewrite Ey in E by (rewrite P_nodes; apply length_tab). now injection E. }
  apply (functional_error (M t) y (fun k j => a k * psi k (pos (node t j))) (fun j => F (pos (node t j))) (fun k => a k * psi k x)).
  - exact Ly.
  - intros j _. apply F_series.
  - apply F_series.
  - now apply (Convergence.ex_scal).
  - intros k Hk. destruct (nodes_k t k) as (r & s & q & Eq & Cq & Rq & Hs & Er & ->). destruct (Er Hk) as [-> ->]. rewrite Yq by now apply resolved_scal. rewrite psi_in, Eq by auto. ring.
  - intros k _. destruct (nodes_k t k) as (r & s & q & Eq & Cq & Rq & Hs & Er & ->). rewrite Yq by now apply resolved_scal. apply diff_bound; [|apply term_bound].
    rewrite <- Eq by auto. rewrite Rmult_assoc. apply bound1; auto. apply phi_bound.
Qed.
End S.

Lemma is_default g : default_extent g -> g = default_grid (kd g) (sz g).
Proof. destruct g as [k m l u]. unfold default_extent, default_grid. cbn. destruct k; intros [-> ->]; reflexivity. Qed.

Section C103.
Variable close : C -> C -> bool.
Variable heap : nat -> grid (list R).
(** the Hodge star of the discretisation of any such function; the error on a cell is bounded by its length *)
Theorem C103_hodge r g c t f a : refers close heap r g c -> default_extent g -> works close (kd g) (sz g) -> expansion (kd g) a f -> ex_series (fun k => Rabs (a k)) ->
  exists v, form_H heap (form r c 0 t f) = Ok (MkForm 1 (negb t) r v) /\ length v = grid_N (kd g) (sz g) 0 t /\
  forall i, (i < grid_N (kd g) (sz g) 0 t)%nat -> Rabs (nth i v 0 - nth i (proj c 1 (negb t) f) 0) <= 2 * nth i (proj c 1 (negb t) (fun _ => 1)) 0 * tail (fun k => Rabs (a k)) (grid_N (kd g) (sz g) 0 t).
Proof.
  intros [Eh E] He Hw Hf Ha. assert (kd g <> Periodic) as Kp by (intro Z; rewrite Z in Hf; exact Hf). rewrite (is_default g He) in E.
  destruct (conv_hodge close (kd g) (sz g) c Kp Hw E f a Hf Ha t) as (v & Ev & L & B). exists v. split; [|auto].
  rewrite <- (is_default g He) in Ev. unfold hget in Ev. unfold form_H, form. cbn [degree isprimal gref array]. rewrite Eh. cbn [gH grid_1d gdim].
  destruct (tget (Common.dH (dec_of close (kd g))) (0%nat, t)) as [o|]; [|discriminate]. cbn [bind] in *. rewrite Ev. reflexivity.
Qed.
(** reconstructing the discretisation, anywhere on the domain *)
Theorem C103_reconstruction r g c t f a x : refers close heap r g c -> default_extent g -> works close (kd g) (sz g) -> expansion (kd g) a f -> ex_series (fun k => Rabs (a k)) ->
  inside (kd g) 0 x -> exists y, form_R heap (form r c 0 t f) [x] = Ok (Some [y]) /\ Rabs (y - f x) <= 2 * tail (fun k => Rabs (a k)) (grid_N (kd g) (sz g) 0 t).
Proof.
  intros [Eh E] He Hw Hf Ha Hx. assert (kd g <> Periodic) as Kp by (intro Z; rewrite Z in Hf; exact Hf). pose proof E as E'. rewrite (is_default g He) in E.
  destruct (conv_rec close (kd g) (sz g) c Kp Hw E f a Hf Ha t x) as (y & Ey & B); [unfold lo0, hi0; clear - Hx Kp; destruct (kd g); [congruence| |]; exact Hx|]. exists y. split; [|auto].
  destruct (works_ok _ _ _ Hw) as [Hb _]. apply (form_R_val close heap r (kd g) (sz g)); auto. apply proj_length; auto.
Qed.
(** the bounds vanish as the grid is refined *)
Theorem C103_bound_vanishes (kk : kind1) (t : bool) (w : nat -> R) (eps : R) : (forall k, 0 <= w k) -> ex_series w -> 0 < eps ->
  exists n0, forall n, (n0 <= n)%nat -> 0 <= tail w (grid_N kk n 0 t) < eps.
Proof.
  intros Hp Ew He. destruct (tail_small w Hp Ew (mkposreal eps He)) as [m Hm]. exists (S m). intros n Hn. apply Hm. destruct kk, t; unfold grid_N, sizes_periodic, sizes_interval; cbn -[Nat.sub]; lia.
Qed.

(** an instance: f(x) = (64 - 8x)/(65 - 16x) on the Chebyshev grid, and f(cos x) on the regular grid; the error is at most 16/7 8^-m with m vertices *)
Definition rung (x : R) : R := (64 - 8 * x) / (65 - 16 * x).
Lemma rung_series : chebyshev_series (fun k => (/ 8) ^ k) rung /\ cosine_series (fun k => (/ 8) ^ k) bell.
Proof.
  split; intros x Hx.
  - pose proof (bell_series (acos x)) as H. unfold bell in H. rewrite cos_acos in H by auto. eapply is_series_ext; [|exact H]. intro k. unfold mode_at. match goal with |- @eq _ ?u ?v => change (@eq R u v) end. ring.
  - eapply is_series_ext; [|exact (bell_series x)]. intro k. unfold mode_at. match goal with |- @eq _ ?u ?v => change (@eq R u v) end. ring.
Qed.
Lemma geom_tail m : ex_series (fun k => Rabs ((/ 8) ^ k)) /\ tail (fun k => Rabs ((/ 8) ^ k)) m = 8 / 7 * (/ 8) ^ m.
Proof.
  split.
  - apply (ex_series_ext (fun k => (/ 8) ^ k)); [intro k; symmetry; apply Rabs_pos_eq, pow_le; lra|]. eexists. exact geom8.
  - rewrite <- bell_tail. unfold tail. apply Series_ext. intro k. rewrite bell_amplitude. apply Rabs_pos_eq, pow_le. lra.
Qed.
Example C103_instance r g c t x : refers close heap r g c -> default_extent g -> works close (kd g) (sz g) -> kd g <> Periodic -> inside (kd g) 0 x ->
  let f := match kd g with Chebyshev => rung | _ => bell end in let m := grid_N (kd g) (sz g) 0 t in
  (exists y, form_R heap (form r c 0 t f) [x] = Ok (Some [y]) /\ Rabs (y - f x) <= 2 * (8 / 7 * (/ 8) ^ m)) /\
  (exists v, form_H heap (form r c 0 t f) = Ok (MkForm 1 (negb t) r v) /\
     forall i, (i < m)%nat -> Rabs (nth i v 0 - nth i (proj c 1 (negb t) f) 0) <= 2 * nth i (proj c 1 (negb t) (fun _ => 1)) 0 * (8 / 7 * (/ 8) ^ m)).
Proof.
  intros Hr He Hw Kp Hx f m. destruct (geom_tail m) as [Ex Et]. assert (expansion (kd g) (fun k => (/ 8) ^ k) f) as Hf by (unfold expansion, f; destruct (kd g); [congruence|apply rung_series|apply rung_series]).
  split.
  - destruct (C103_reconstruction r g c t f _ x Hr He Hw Hf Ex Hx) as (y & E & B). exists y. fold m in B. rewrite Et in B. auto.
  - destruct (C103_hodge r g c t f _ Hr He Hw Hf Ex) as (v & E & _ & B). exists v. fold m in B. rewrite Et in B. auto.
Qed.
End C103.
