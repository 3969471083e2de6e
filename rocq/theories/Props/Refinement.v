(** C31-C35: refinement and wedge product. *)
From Coq Require Import ZArith Reals List Lia Lra Arith Bool.
From Coq Require Import ZifyNat.
From Verif Require Import Model.Sym.
From Coquelicot Require Import Coquelicot.
From Verif Require Import Proofs.Cheb2 Proofs.ChebGuard Proofs.ChebPoly Proofs.ChebRefine Spec.Poly Proofs.RegularBasis.
From Verif Require Import Model.Num Model.Np Model.Spectral Model.Basis Model.Grids1 Model.Regular Model.Chebyshev Model.Common Spec.Trig Proofs.ListLemmas Proofs.Sums
  Proofs.Fourier Proofs.RIntLemmas Proofs.Kernels Proofs.Trig Proofs.Ops Proofs.Exact Proofs.BasisP Proofs.Grids1P Proofs.GridsThm Proofs.PeriodicBasis Proofs.TrigAlg Proofs.Lin Proofs.TableLin Proofs.Refine Proofs.Leibniz
  Props.Decform Props.Chebyshev.
Import ListNotations.
Local Open Scope R_scope.
Ltac Zify.zify_post_hook ::= Z.div_mod_to_equations.

(** C31.  T[d, p], U[d, p]: the entries of the refinement tables *)
Lemma T_periodic_sample N d p f : (1 <= N)%nat -> (d <= 1)%nat -> length f = N -> exists T, tget (rT refine_periodic) (d, p) = Ok T /\
  T f = Ok (tab (N + N) (fun j => match d, p with O, true => interp f (xg (N + N) j) | O, false => interp f (xg (N + N) j - hstep N / 2)
    | _, true => histo f (xg (N + N) j - hstep N / 2) | _, false => histo f (xg (N + N) j) end)).
Proof.
  intros HN Hd L. destruct d as [|[|d]]; [| |lia]; destruct p; (eexists; split; [reflexivity|]); [apply T0_val|apply T0d_val|apply T1_val|apply T1d_val]; auto.
Qed.
Theorem C31_round_trip N d p f : (1 <= N)%nat -> (d <= 1)%nat -> length f = N ->
  exists T U g, tget (rT refine_periodic) (d, p) = Ok T /\ tget (rU refine_periodic) (d, p) = Ok U /\
  T f = Ok g /\ length g = (2 * N)%nat /\ U g = Ok f.
Proof.
  intros HN Hd L. destruct (T_periodic_sample N d p f HN Hd L) as (T & ET & EV).
  assert (exists U, tget (rU refine_periodic) (d, p) = Ok U /\ bind (T f) U = Ok f) as (U & EU & E).
  { destruct d as [|[|d]]; [| |lia]; destruct p; (eexists; split; [reflexivity|]); injection ET as <-; [apply (U0_T0 N)|apply (U0d_T0d N)|apply (U1_T1 N)|apply (U1d_T1d N)]; auto. }
  rewrite EV in E. cbn [bind] in E. eexists T, U, _. split; [exact ET|]. split; [exact EU|]. split; [exact EV|]. split; [rewrite length_tab; lia|exact E].
Qed.
(** the refined array holds the values of the reconstructed form at the points of the grid *)
Theorem C31_samples_reconstruction N d p f : (1 <= N)%nat -> (d <= 1)%nat -> length f = N ->
  exists T g pts, tget (rT refine_periodic) (d, p) = Ok T /\ T f = Ok g /\ points (periodic_default N) = Ok pts /\
  map (R_form (B_periodic N) (sizes_periodic N) d p f) pts = map Some g.
Proof.
  intros HN Hd L. destruct (T_periodic_sample N d p f HN Hd L) as (T & ET & EV). pose proof (hstep_pos N ltac:(lia)) as Hh.
  eexists T, _, (tab (N + N) (xg (N + N))). split; [exact ET|]. split; [exact EV|]. split.
  - rewrite pd_cells by lia. unfold points. cbn [verts verts_dual]. rewrite !length_tab.
    replace ((N + N + 1) / 2)%nat with N by lia. replace ((N + N) / 2)%nat with N by lia. rewrite Nat.eqb_refl. cbn [andb]. f_equal.
    apply (weave_tab N N); [lia| |]; intros i Hi; [now rewrite xg_e by lia|now rewrite xg_o by lia].
  - rewrite !map_tab. apply tab_ext. intros j Hj. fold (R_periodic N).
    assert (0 <= xg (N + N) j <= 2 * PI - hstep (N + N)) as Hr by (apply xg_range; lia). pose proof (hstep_pos (N + N) ltac:(lia)) as Hh2.
    subst N. destruct d as [|[|d]]; [| |lia]; destruct p.
    + apply R0_val; [lia|]. lra.
    + apply R0d_val; [lia|]. lra.
    + now apply R1_val.
    + now apply R1d_val.
Qed.
Example C31_instance : exists T U g, tget (rT refine_periodic) (1%nat, true) = Ok T /\ tget (rU refine_periodic) (1%nat, true) = Ok U /\
  T [3; -1; 4; 1] = Ok g /\ length g = 8%nat /\ U g = Ok [3; -1; 4; 1].
Proof. apply (C31_round_trip 4 1 true [3; -1; 4; 1]); auto; lia. Qed.

(** C34: for 0-forms a, b of the same kind p (primal or dual); w0 multiplies two 0-forms, w a 0-form and a 1-form *)
Definition D_per (p : bool) : list R -> list R := if p then grid_D0 Periodic else grid_D0d Periodic.
Lemma zipw_len_tab (op : R -> R -> R) n (a b : list R) : length a = n -> length b = n -> zipw op a b = tab n (fun i => op (nth i a 0) (nth i b 0)).
Proof. intros La Lb. rewrite (list_tab 0 a) at 1. rewrite (list_tab 0 b) at 1. rewrite La, Lb. apply zipw_tab. Qed.
Theorem C34_leibniz N (p : bool) a b : (1 <= N)%nat -> length a = N -> length b = N ->
  exists w0 w ab x y,
    dget wkey_eqb (wedge refine_periodic) ((0%nat, p), (0%nat, p), p) = Ok w0 /\
    dget wkey_eqb (wedge refine_periodic) ((0%nat, p), (1%nat, p), p) = Ok w /\
    w0 a b = Ok ab /\ w a (D_per p b) = Ok x /\ w b (D_per p a) = Ok y /\
    D_per p ab = zipw Rplus x y.
Proof.
  intros HN La Lb. assert (0 < N)%nat as HN' by lia.
  destruct (ti_deriv N HN' (interp a)) as (A' & DA & TA & IA1 & IA2); [rewrite <- La; apply interp_trig; lia|].
  destruct (ti_deriv N HN' (interp b)) as (B' & DB & TB & IB1 & IB2); [rewrite <- Lb; apply interp_trig; lia|].
  assert (forall t, continuous A' t) as CA by (intro; now apply (td_cont (N / 2))). assert (forall t, continuous B' t) as CB by (intro; now apply (td_cont (N / 2))).
  set (c := if p then 0%Z else 1%Z). destruct (leib N HN' a b A' B' c La Lb DA DB) as (P & K' & HK & HP & EP & IP).
  exists (np_bin Rmult), (get_w refine_periodic 0 p 1 p p), (zipw Rmult a b).
  assert (length (D_per p b) = N /\ length (D_per p a) = N) as (LDb & LDa) by (unfold D_per; destruct p; unfold grid_D0, grid_D0d; rewrite ?len_D0, ?len_D0d; auto).
  destruct (get_w_val never Periodic N 0 p 1 p p a (D_per p b) HN Logic.I ltac:(discriminate) ltac:(lia) La LDb) as (t0 & t1 & u & TAv & TBv & x & E0 & E1 & Eu & EA & EB & Ex & Wx & L1 & L2 & Lx).
  destruct (get_w_val never Periodic N 0 p 1 p p b (D_per p a) HN Logic.I ltac:(discriminate) ltac:(lia) Lb LDa) as (t0' & t1' & u' & TAv' & TBv' & y & E0' & E1' & Eu' & EA' & EB' & Ey & Wy & L1' & L2' & Ly).
  cbn [refine_of grid_N sizes_periodic refined Nat.add] in *.
  rewrite E0 in E0'; injection E0' as <-. rewrite E1 in E1'; injection E1' as <-. rewrite Eu in Eu'; injection Eu' as <-.
  exists x, y. split; [destruct p; reflexivity|]. split; [destruct p; reflexivity|].
  split; [apply np_bin_eq; lia|]. split; [exact Wx|]. split; [exact Wy|].
  (* the four refined arrays *)
  destruct (T_periodic_sample N 0 p a HN ltac:(lia) La) as (q1 & Q1 & V1). rewrite E0 in Q1; injection Q1 as <-. rewrite EA in V1; injection V1 as V1.
  destruct (T_periodic_sample N 0 p b HN ltac:(lia) Lb) as (q2 & Q2 & V2). rewrite E0 in Q2; injection Q2 as <-. rewrite EA' in V2; injection V2 as V2.
  destruct (T_periodic_sample N 1 p (D_per p b) HN ltac:(lia) LDb) as (q3 & Q3 & V3). rewrite E1 in Q3; injection Q3 as <-. rewrite EB in V3; injection V3 as V3.
  destruct (T_periodic_sample N 1 p (D_per p a) HN ltac:(lia) LDa) as (q4 & Q4 & V4). rewrite E1 in Q4; injection Q4 as <-. rewrite EB' in V4; injection V4 as V4.
  assert (zipw Rplus (zipw Rmult TAv TBv) (zipw Rmult TAv' TBv') = tab (N + N) (fun j => P (xg (N + N) j))) as EZ.
  { rewrite V1, V2, V3, V4, !zipw_tab. apply tab_ext. intros j Hj. rewrite EP. cbv zeta. unfold c, D_per. destruct p; cbn [grid_D0 grid_D0d].
    - rewrite (histo_D0 N HN' b B'), (histo_D0 N HN' a A') by auto. simpl IZR. rewrite Rmult_0_l, Rminus_0_r. reflexivity.
    - rewrite (histo_D0d N HN' b B'), (histo_D0d N HN' a A') by auto. simpl IZR. rewrite Rmult_1_l. reflexivity. }
  destruct (table_U_lin never Periodic N 1 p HN ltac:(lia) ltac:(discriminate)) as (u' & Eu' & (g & Lg & Eg)). cbn [refine_of refined grid_N sizes_periodic] in *. rewrite Eu in Eu'; injection Eu' as <-.
  set (Z1 := zipw Rmult TAv TBv) in *. set (Z2 := zipw Rmult TAv' TBv') in *.
  assert (length Z1 = (N + N)%nat) as LZ1 by (unfold Z1; rewrite length_zipw; lia). assert (length Z2 = (N + N)%nat) as LZ2 by (unfold Z2; rewrite length_zipw; lia).
  assert (u (zipw Rplus Z1 Z2) = Ok (zipw Rplus x y)) as EU.
  { rewrite Eg in Ex, Ey by auto. injection Ex as <-. injection Ey as <-.
    assert (forall X Y : list R, length X = length Y -> axpy 1 X Y = zipw Rplus X Y) as AX.
    { intros X Y LX. unfold axpy. rewrite (zipw_len_tab _ (length X)), (zipw_len_tab Rplus (length X)) by auto. apply tab_ext. intros. cbn. ring. }
    rewrite Eg by (rewrite length_zipw; lia). f_equal. rewrite <- !AX by (rewrite ?(lin_len _ _ _ _ Lg LZ1), ?(lin_len _ _ _ _ Lg LZ2); lia). apply Lg; auto. }
  rewrite EZ in EU. assert (length (zipw Rmult a b) = N) as Lab by (rewrite length_zipw; lia).
  assert (forall i, (i < N)%nat -> nth i (zipw Rmult a b) 0 = nth i a 0 * nth i b 0) as nab by (intros i Hi; apply nth_zipw; lia).
  assert (forall i, (i < N)%nat -> nth i (D_per p (zipw Rmult a b)) 0 = let x := if p then xg N i else xg N i - hstep N in interp a (x + hstep N) * interp b (x + hstep N) - interp a x * interp b x) as DV.
  { intros i Hi. unfold D_per. destruct p; cbn [grid_D0 grid_D0d]; cbv zeta.
    - rewrite nth_D0 with (N := N) by auto. assert (nxt N i < N)%nat by (unfold nxt; destruct (Nat.eqb_spec (i + 1) N); lia). rewrite !nab by auto.
      rewrite !interp_nxt by auto. replace (interp a (xg N i)) with (nth i a 0) by (rewrite <- La; symmetry; apply interp_grid; lia). replace (interp b (xg N i)) with (nth i b 0) by (rewrite <- Lb; symmetry; apply interp_grid; lia). reflexivity.
    - rewrite nth_D0d with (N := N) by auto. assert (prv N i < N)%nat by (unfold prv; destruct (Nat.eqb_spec i 0); lia). rewrite !nab by auto.
      rewrite !interp_prv by auto. replace (xg N i - hstep N + hstep N) with (xg N i) by ring. replace (interp a (xg N i)) with (nth i a 0) by (rewrite <- La; symmetry; apply interp_grid; lia). replace (interp b (xg N i)) with (nth i b 0) by (rewrite <- Lb; symmetry; apply interp_grid; lia). reflexivity. }
  assert (u (tab (N + N) (fun j => P (xg (N + N) j))) = Ok (tab N (fun i => let x := if p then xg N i else xg N i - hstep N in interp a (x + hstep N) * interp b (x + hstep N) - interp a x * interp b x))) as EU2.
  { unfold c in *. destruct p; injection Eu as <-.
    - rewrite (U1_val N HN' P K') by auto. apply (f_equal (@Ok (list R))), tab_ext. intros i Hi. cbv zeta. rewrite <- IP. apply RInt_Rplus0; simpl IZR; ring.
    - rewrite (U1d_val N HN' P K') by auto. apply (f_equal (@Ok (list R))), tab_ext. intros i Hi. cbv zeta. rewrite <- IP. apply RInt_Rplus0; simpl IZR; field. }
  rewrite EU in EU2. injection EU2 as EU2. rewrite EU2. symmetry. apply tab_nth; [unfold D_per; destruct p; cbn [grid_D0 grid_D0d]; rewrite ?len_D0, ?len_D0d; auto|]. intros i Hi. rewrite DV by auto. reflexivity.
Qed.
Example C34_instance : exists w0 w ab x y,
    dget wkey_eqb (wedge refine_periodic) ((0%nat, true), (0%nat, true), true) = Ok w0 /\
    dget wkey_eqb (wedge refine_periodic) ((0%nat, true), (1%nat, true), true) = Ok w /\
    w0 [1; 2; -3; 5] [0; 4; 4; 1] = Ok ab /\ w [1; 2; -3; 5] (D_per true [0; 4; 4; 1]) = Ok x /\ w [0; 4; 4; 1] (D_per true [1; 2; -3; 5]) = Ok y /\
    D_per true ab = zipw Rplus x y.
Proof. apply (C34_leibniz 4 true); auto. Qed.

(** C32.  fourier_K_inv (used by T[1, True]) compares numbers with [close]: exactly, or with numpy.isclose, which works up to n = 927 *)
Definition guard_ok (close : C -> C -> bool) (n : nat) : Prop :=
  (forall u v, close u v = true -> u = v) \/ (close = np_isclose /\ (n <= 927)%nat).
Lemma guard_ok_guarded close n : (2 <= n)%nat -> guard_ok close n -> guarded close Chebyshev n.
Proof. intros Hn [H|[-> H]]; cbn [guarded]; [now apply guard_exact|apply guard_small; auto; lia]. Qed.
(** projection of a function on the cells of kind (d, p) *)
Definition proj (c : cells1) (d : nat) (p : bool) (f : R -> R) : list R :=
  match d, p with O, true => P0 c f | O, false => P0d c f | _, true => P1 c f | _, false => P1d c f end.
(** the refined array holds the values at g.points of the polynomial with the given projection, of degree (number of entries) - 1;
    the restriction gives back the projections of polynomials of degree up to 2n-3 *)
Theorem C32_samples_polynomial close n d p f : (2 <= n)%nat -> guard_ok close n -> (d <= 1)%nat -> length f = sizes_interval n d p ->
  exists T c pts q, tget (rT (refine_cheb close)) (d, p) = Ok T /\ chebyshev_default n = Ok c /\ points c = Ok pts /\ length pts = (2 * n - 1)%nat /\
  polynomial (sizes_interval n d p - 1) q /\ proj c d p q = f /\ T f = Ok (map q pts).
Proof.
  intros Hn G Hd L. pose proof (guard_ok_guarded close n Hn G) as G'. cbn [guarded] in G'.
  destruct (cd_cells n Hn) as (c & Ec & _). destruct (cd_cells (2 * n - 1) ltac:(lia)) as (c' & Ec' & Ev' & _).
  assert (forall q : R -> R, P0 c' q = map q (verts c')) as EP by reflexivity.
  assert (length (verts c') = (2 * n - 1)%nat) as Lp by (rewrite Ev'; apply length_tab).
  pose proof (points_c n Hn c c' Ec Ec') as Pt.
  destruct d as [|[|d]]; [| |lia]; destruct p; cbn [sizes_interval] in L; eexists _, c, (verts c').
  - destruct (T0_c n Hn c c' Ec Ec' f L) as (q & Hq & E1 & E2 & _). exists q. repeat (split; [first [reflexivity|assumption]|]). exact E2.
  - destruct (T0d_c n Hn c c' Ec Ec' f L) as (q & Hq & E1 & E2 & _). exists q. cbn [sizes_interval]. replace (n - 1 - 1)%nat with (n - 2)%nat by lia. repeat (split; [first [reflexivity|assumption]|]). exact E2.
  - destruct (T1_c n Hn c c' Ec Ec' close f L G') as (q & Hq & E1 & E2). exists q. cbn [sizes_interval]. replace (n - 1 - 1)%nat with (n - 2)%nat by lia. repeat (split; [first [reflexivity|assumption]|]). exact E2.
  - destruct (T1d_c n Hn c c' Ec Ec' f L) as (q & Hq & E1 & E2). exists q. repeat (split; [first [reflexivity|assumption]|]). exact E2.
Qed.
Theorem C32_restriction_integrates close n d p q : (2 <= n)%nat -> (d <= 1)%nat -> (d = 0%nat \/ polynomial (2 * n - 3) q) ->
  exists U c pts, tget (rU (refine_cheb close)) (d, p) = Ok U /\ chebyshev_default n = Ok c /\ points c = Ok pts /\ U (map q pts) = Ok (proj c d p q).
Proof.
  intros Hn Hd Hq. destruct (cd_cells n Hn) as (c & Ec & Ev & _ & Evd & _). destruct (cd_cells (2 * n - 1) ltac:(lia)) as (c' & Ec' & Ev' & _).
  assert (forall q : R -> R, P0 c' q = map q (verts c')) as EP by reflexivity.
  pose proof (points_c n Hn c c' Ec Ec') as Pt. pose proof (P0_c' n Hn c' Ec' q) as Eq. rewrite EP in Eq. replace (2 * (n - 1) + 2 * (n - 1))%nat with ((2 * (n - 1)) + (2 * (n - 1)))%nat in Eq by lia.
  destruct d as [|[|d]]; [| |lia]; destruct p; eexists _, c, (verts c'); (split; [reflexivity|]); (split; [assumption|]); (split; [assumption|]).
  - rewrite Eq. unfold U0_cheb, proj, P0, proj0. rewrite Ev, map_tab, evens_tab. replace ((2 * n - 1 + 1) / 2)%nat with n by lia. apply (f_equal (@Ok (list R))), tab_ext. intros i Hi. now rewrite xg_e by lia.
  - rewrite Eq. unfold U0d_cheb, proj, P0d, proj0. rewrite Evd, map_tab, odds_tab. replace ((2 * n - 1) / 2)%nat with (n - 1)%nat by lia. apply (f_equal (@Ok (list R))), tab_ext. intros i Hi. now rewrite xg_o by lia.
  - destruct Hq as [?|Hq]; [discriminate|]. exact (U1_c n Hn c c' Ec Ec' q Hq).
  - destruct Hq as [?|Hq]; [discriminate|]. exact (U1d_c n Hn c c' Ec Ec' q Hq).
Qed.
Theorem C32_round_trip close n d p f : (2 <= n)%nat -> guard_ok close n -> (d <= 1)%nat -> length f = sizes_interval n d p ->
  exists T U g, tget (rT (refine_cheb close)) (d, p) = Ok T /\ tget (rU (refine_cheb close)) (d, p) = Ok U /\
  T f = Ok g /\ length g = (2 * n - 1)%nat /\ U g = Ok f.
Proof.
  intros Hn G Hd L. destruct (C32_samples_polynomial close n d p f Hn G Hd L) as (T & c & pts & q & ET & Ec & Ept & Lp & Hq & Ef & E).
  assert (d = 0%nat \/ polynomial (2 * n - 3) q) as Hq'.
  { right. revert Hq. apply poly_mono. destruct d, p; cbn [sizes_interval]; lia. }
  destruct (C32_restriction_integrates close n d p q Hn Hd Hq') as (U & c0 & pts0 & EU & Ec0 & Ept0 & EV). rewrite Ec in Ec0; injection Ec0 as <-. rewrite Ept in Ept0; injection Ept0 as <-.
  exists T, U, (map q pts). split; [exact ET|]. split; [exact EU|]. split; [exact E|]. split; [now rewrite map_length|]. rewrite EV. now rewrite Ef.
Qed.
(** beyond n = 927 the refinement of primal 1-forms raises *)
Theorem C32_large_raises n f : (928 <= n)%nat -> length f = (n - 1)%nat -> exists T, tget (rT (refine_cheb np_isclose)) (1%nat, true) = Ok T /\ T f = Err ValueError.
Proof.
  intros Hn L. eexists. split; [reflexivity|]. unfold T1_cheb. rewrite (proj2 (C26_isclose_threshold f)) by lia. reflexivity.
Qed.
Example C32_instance : exists T U g, tget (rT (refine_cheb np_isclose)) (1%nat, true) = Ok T /\ tget (rU (refine_cheb np_isclose)) (1%nat, true) = Ok U /\
  T [3; -1; 4] = Ok g /\ length g = 7%nat /\ U g = Ok [3; -1; 4].
Proof. apply (C32_round_trip np_isclose 4 1 true [3; -1; 4]); auto; try lia. right. split; [auto|lia]. Qed.

(** C35.  W[(d0,p0),(d1,p1),p2] on the periodic and Chebyshev grids *)
Definition usable (close : C -> C -> bool) (k : kind1) (n : nat) : Prop :=
  match k with Periodic => (1 <= n)%nat | Regular => False | Chebyshev => (2 <= n)%nat /\ guard_ok close n end.
Lemma usable_ok close k n : usable close k n -> big_enough k n /\ guarded close k n /\ k <> Regular.
Proof. destruct k; cbn [usable big_enough guarded]; [intuition discriminate|tauto|]. intros [Hn G]. split; auto. split; [now apply guard_ok_guarded|discriminate]. Qed.
Theorem C35_commutative close k n d0 p0 d1 p1 p2 a b : usable close k n -> (d0 + d1 <= 1)%nat -> length a = grid_N k n d0 p0 -> length b = grid_N k n d1 p1 ->
  exists w w' c, dget wkey_eqb (wedge (refine_of close k)) ((d0, p0), (d1, p1), p2) = Ok w /\ dget wkey_eqb (wedge (refine_of close k)) ((d1, p1), (d0, p0), p2) = Ok w' /\
  w a b = Ok c /\ w' b a = Ok c /\ length c = grid_N k n (d0 + d1) p2.
Proof.
  intros Hu Hd La Lb. destruct (usable_ok _ _ _ Hu) as (Hn & Hg & Hk). rewrite !W_entry by lia.
  assert (direct d1 p1 d0 p0 p2 = direct d0 p0 d1 p1 p2) as -> by (destruct d0 as [|[|]], d1 as [|[|]], p0, p1, p2; reflexivity || lia).
  destruct (direct d0 p0 d1 p1 p2) eqn:Dr.
  - unfold direct in Dr. rewrite !andb_true_iff, !eqb_true_iff, !Nat.eqb_eq in Dr. destruct Dr as [[[-> ->] ->] ->].
    eexists _, _, _. split; [reflexivity|]. split; [reflexivity|]. split; [apply np_bin_eq; lia|]. split; [rewrite np_bin_eq by lia; now rewrite zipw_comm|]. rewrite length_zipw. cbn [Nat.add]. lia.
  - destruct (get_w_val close k n d0 p0 d1 p1 p2 a b Hn Hg Hk Hd La Lb) as (t0 & t1 & u & A & B & c & E0 & E1 & Eu & EA & EB & Ec & E & _ & _ & L).
    destruct (get_w_val close k n d1 p1 d0 p0 p2 b a Hn Hg Hk ltac:(lia) Lb La) as (t0' & t1' & u' & A' & B' & c' & E0' & E1' & Eu' & EA' & EB' & Ec' & E' & _).
    rewrite E1 in E0'. injection E0' as <-. rewrite E0 in E1'. injection E1' as <-. rewrite Nat.add_comm, Eu in Eu'. injection Eu' as <-. rewrite EB in EA'; injection EA' as <-. rewrite EA in EB'; injection EB' as <-.
    rewrite zipw_comm, Ec in Ec'. injection Ec' as <-. eexists _, _, c. repeat (split; [first [reflexivity|eassumption]|]). assumption.
Qed.
(** c*x + y *)
Definition comb (c : R) (x y : list R) : list R := zipw (fun u v => c * u + v) x y.
Theorem C35_bilinear close k n d0 p0 d1 p1 p2 r a a' b : usable close k n -> (d0 + d1 <= 1)%nat -> length a = grid_N k n d0 p0 -> length a' = grid_N k n d0 p0 -> length b = grid_N k n d1 p1 ->
  exists w w' c c', dget wkey_eqb (wedge (refine_of close k)) ((d0, p0), (d1, p1), p2) = Ok w /\ dget wkey_eqb (wedge (refine_of close k)) ((d1, p1), (d0, p0), p2) = Ok w' /\
  w a b = Ok c /\ w a' b = Ok c' /\ w (comb r a a') b = Ok (comb r c c') /\
  w' b a = Ok c /\ w' b a' = Ok c' /\ w' b (comb r a a') = Ok (comb r c c').
Proof.
  intros Hu Hd La La' Lb. destruct (usable_ok _ _ _ Hu) as (Hn & Hg & Hk).
  assert (length (comb r a a') = grid_N k n d0 p0) as Lc by (unfold comb; rewrite length_zipw; lia).
  destruct (C35_commutative close k n d0 p0 d1 p1 p2 a b Hu Hd La Lb) as (w & w' & c & Ew & Ew' & E1 & E2 & L1).
  destruct (C35_commutative close k n d0 p0 d1 p1 p2 a' b Hu Hd La' Lb) as (w0 & w0' & c' & Ew0 & Ew0' & E1' & E2' & L2). rewrite Ew in Ew0; injection Ew0 as <-. rewrite Ew' in Ew0'; injection Ew0' as <-.
  destruct (C35_commutative close k n d0 p0 d1 p1 p2 (comb r a a') b Hu Hd Lc Lb) as (w0 & w0' & e & Ew0 & Ew0' & E3 & E4 & L3). rewrite Ew in Ew0; injection Ew0 as <-. rewrite Ew' in Ew0'; injection Ew0' as <-.
  assert (e = comb r c c') as ->; [|exists w, w', c, c'; repeat split; auto].
  rewrite W_entry in Ew by auto. injection Ew as <-. destruct (direct d0 p0 d1 p1 p2) eqn:Dr.
  - unfold direct in Dr. rewrite !andb_true_iff, !eqb_true_iff, !Nat.eqb_eq in Dr. destruct Dr as [[[-> ->] ->] ->].
    rewrite np_bin_eq in E1, E1', E3 by lia. injection E1 as <-. injection E1' as <-. injection E3 as <-. set (m := grid_N k n 0 p2) in *.
    unfold comb. rewrite !(zipw_len_tab _ m) by (rewrite ?length_zipw; lia). apply tab_ext. intros i Hi. rewrite !nth_tab by auto. ring.
  - destruct (get_w_val close k n d0 p0 d1 p1 p2 a b Hn Hg Hk Hd La Lb) as (t0 & t1 & u & A & B & x & T0 & T1 & Tu & EA & EB & Ex & E & LA & LB & _). rewrite E1 in E. injection E as <-.
    destruct (get_w_val close k n d0 p0 d1 p1 p2 a' b Hn Hg Hk Hd La' Lb) as (t0' & t1' & u' & A' & B' & x' & T0' & T1' & Tu' & EA' & EB' & Ex' & E & LA' & LB' & _). rewrite E1' in E. injection E as <-.
    rewrite T0 in T0'; injection T0' as <-. rewrite T1 in T1'; injection T1' as <-. rewrite Tu in Tu'; injection Tu' as <-. rewrite EB in EB'; injection EB' as <-.
    destruct (get_w_val close k n d0 p0 d1 p1 p2 (comb r a a') b Hn Hg Hk Hd Lc Lb) as (t0' & t1' & u' & A3 & B' & x' & T0' & T1' & Tu' & EA3 & EB' & Ex3 & E & LA3 & _). rewrite E3 in E. injection E as <-.
    rewrite T0 in T0'; injection T0' as <-. rewrite T1 in T1'; injection T1' as <-. rewrite Tu in Tu'; injection Tu' as <-. rewrite EB in EB'; injection EB' as <-.
    destruct (table_T_lin close k n d0 p0 Hn Hg ltac:(lia) Hk) as (t0' & T0' & (g & Lg & Eg)). rewrite T0 in T0'; injection T0' as <-.
    destruct (table_U_lin close k n (d0 + d1) p2 Hn Hd Hk) as (u' & Tu' & (gu & Lgu & Egu)). rewrite Tu in Tu'; injection Tu' as <-.
    assert (A3 = comb r A A') as ->.
    { rewrite Eg in EA, EA', EA3 by auto. injection EA as <-. injection EA' as <-. injection EA3 as <-. apply Lg; auto. }
    rewrite Egu in Ex, Ex', Ex3 by (rewrite length_zipw; lia). injection Ex as <-. injection Ex' as <-. injection Ex3 as <-.
    transitivity (gu (comb r (zipw Rmult A B) (zipw Rmult A' B))); [|apply Lgu; rewrite length_zipw; lia]. f_equal.
    set (m := refined k n) in *. unfold comb. rewrite !(zipw_len_tab _ m) by (rewrite ?length_zipw; lia). apply tab_ext. intros i Hi. rewrite !nth_tab by auto. ring.
Qed.
(** the constant 1 is neutral, whatever its kind, when the result has the kind of the other argument *)
Lemma T_one close k n p : usable close k n -> exists t, tget (rT (refine_of close k)) (0%nat, p) = Ok t /\ t (tab (grid_N k n 0 p) (fun _ => 1)) = Ok (tab (refined k n) (fun _ => 1)).
Proof.
  intro Hu. destruct k; [| |]; cbn [usable] in Hu; [|tauto|].
  - destruct (T_periodic_sample n 0 p (tab n (fun _ => 1)) Hu ltac:(lia) (length_tab _ _)) as (T & ET & EV). exists T. split; [exact ET|].
    change (grid_N Periodic n 0 p) with n. change (refined Periodic n) with (n + n)%nat. rewrite EV. apply (f_equal (@Ok (list R))), tab_ext. intros j Hj.
    assert (forall t, interp (tab n (fun _ => 1)) t = 1) as E1.
    { intro t. transitivity (Rsum n (fun m => alphaS n (t - xg n m))); [|apply repro_one; lia]. unfold interp. rewrite length_tab. apply Rsum_ext. intros i Hi. rewrite nth_tab by auto. ring. }
    destruct p; apply E1.
  - destruct Hu as (Hn & _). destruct (cd_cells n Hn) as (c & Ec & Ev & _ & Evd & _). destruct (cd_cells (2 * n - 1) ltac:(lia)) as (c' & Ec' & _).
    set (f := tab (grid_N Chebyshev n 0 p) (fun _ => 1)). destruct p; cbn [grid_N sizes_interval] in f; eexists; (split; [reflexivity|]).
    + assert (length f = n) as L by apply length_tab. destruct (T0_c n Hn c c' Ec Ec' f L) as (q & Hq & E1 & E2 & _). rewrite E2. rewrite (P0_c' n Hn c' Ec'). cbn [refined]. apply (f_equal (@Ok (list R))), tab_ext. intros i Hi.
      rewrite (poly_g0 n Hn q f Hq L). 2:{ intros j Hj. rewrite <- E1. unfold P0, proj0. rewrite Ev, map_tab. now rewrite nth_tab. }
      symmetry. apply (poly_g0 n Hn (fun _ => 1) f (poly_const _ 1) L). intros j Hj. unfold f. now rewrite nth_tab.
    + assert (length f = (n - 1)%nat) as L by apply length_tab. destruct (T0d_c n Hn c c' Ec Ec' f L) as (q & Hq & E1 & E2 & _). rewrite E2. rewrite (P0_c' n Hn c' Ec'). cbn [refined]. apply (f_equal (@Ok (list R))), tab_ext. intros i Hi.
      replace (n - 2)%nat with (n - 1 - 1)%nat in Hq by lia.
      rewrite (poly_g1 n Hn q f Hq L). 2:{ intros j Hj. rewrite <- E1. unfold P0d, proj0. rewrite Evd, map_tab. now rewrite nth_tab. }
      symmetry. apply (poly_g1 n Hn (fun _ => 1) f (poly_const _ 1) L). intros j Hj. unfold f. now rewrite nth_tab.
Qed.
Lemma round_trip close k n d p f : usable close k n -> (d <= 1)%nat -> length f = grid_N k n d p ->
  exists T U g, tget (rT (refine_of close k)) (d, p) = Ok T /\ tget (rU (refine_of close k)) (d, p) = Ok U /\ T f = Ok g /\ length g = refined k n /\ U g = Ok f.
Proof.
  intros Hu Hd L. destruct k; cbn [usable] in Hu; [|tauto|].
  - destruct (C31_round_trip n d p f Hu Hd L) as (T & U & g & H1 & H2 & H3 & H4 & H5). exists T, U, g. repeat (split; [assumption|]). split; [cbn [refined]; lia|auto].
  - destruct Hu as (Hn & G). exact (C32_round_trip close n d p f Hn G Hd L).
Qed.
Theorem C35_one_neutral close k n p d q b : usable close k n -> (d <= 1)%nat -> length b = grid_N k n d q ->
  exists w, dget wkey_eqb (wedge (refine_of close k)) ((0%nat, p), (d, q), q) = Ok w /\ w (ones (grid_N k n 0 p)) b = Ok b.
Proof.
  intros Hu Hd Lb. destruct (usable_ok _ _ _ Hu) as (Hn & Hg & Hk). rewrite W_entry by lia. eexists. split; [reflexivity|].
  assert (forall m, @ones R _ m = tab m (fun _ => 1)) as EO.
  { intro m. unfold ones. apply list_eq_nth with (d := 0); rewrite repeat_length, ?length_tab; auto. intros i Hi. rewrite nth_tab by auto. now rewrite (nth_indep _ 0 1), nth_repeat by (now rewrite repeat_length). }
  rewrite EO. assert (forall B : list R, zipw Rmult (tab (length B) (fun _ => 1)) B = B) as E1.
  { intro B. rewrite (zipw_len_tab _ (length B)) by (rewrite ?length_tab; auto). apply tab_nth; auto. intros j Hj. rewrite nth_tab by auto. ring. }
  destruct (direct 0 p d q q) eqn:Dr.
  - unfold direct in Dr. rewrite !andb_true_iff, !eqb_true_iff, !Nat.eqb_eq in Dr. destruct Dr as [[[-> _] <-] _].
    rewrite np_bin_eq by (rewrite length_tab; lia). now rewrite <- Lb, E1.
  - destruct (get_w_val close k n 0 p d q q (tab (grid_N k n 0 p) (fun _ => 1)) b Hn Hg Hk Hd (length_tab _ _) Lb) as (t0 & t1 & u & A & B & c & T0 & T1 & Tu & EA & EB & Ec & E & LA & LB & _).
    rewrite E. destruct (T_one close k n p Hu) as (t & Et & EV). rewrite T0 in Et; injection Et as <-. rewrite EV in EA. injection EA as <-.
    destruct (round_trip close k n d q b Hu Hd Lb) as (T & U & g & H1 & H2 & H3 & H4 & H5). rewrite T1 in H1; injection H1 as <-. cbn [Nat.add] in Tu. rewrite Tu in H2; injection H2 as <-. rewrite EB in H3; injection H3 as <-.
    rewrite <- LB, E1, H5 in Ec. now injection Ec as <-.
Qed.

(** the wedge product is exact on polynomials (Chebyshev) and on trigonometric polynomials (periodic) of small enough degree *)
Lemma T_poly close n c c' d p q : (2 <= n)%nat -> guard_ok close n -> (d <= 1)%nat -> chebyshev_default n = Ok c -> chebyshev_default (2 * n - 1) = Ok c' ->
  polynomial (sizes_interval n d p - 1) q -> exists T, tget (rT (refine_cheb close)) (d, p) = Ok T /\ T (proj c d p q) = Ok (P0 c' q).
Proof.
  intros Hn G Hd Ec Ec' Hq. pose proof (guard_ok_guarded close n Hn G) as G'. cbn [guarded] in G'.
  destruct (c_cells n Hn c Ec) as (Ev & _ & Evd & _).
  assert (forall q : R -> R, length (P0 c q) = n) as L0 by (intro; unfold P0, proj0; now rewrite Ev, map_length, length_tab).
  assert (forall q : R -> R, length (P0d c q) = (n - 1)%nat) as L0d by (intro; unfold P0d, proj0; now rewrite Evd, map_length, length_tab).
  assert (forall q : R -> R, polynomial (n - 1) q -> T0_cheb (P0 c q) = Ok (P0 c' q)) as A0.
  { intros q' Hq'. destruct (T0_c n Hn c c' Ec Ec' (P0 c q') (L0 q')) as (r & Hr & E1 & E2 & _). rewrite E2. apply (f_equal (@Ok (list R))). rewrite !(P0_c' n Hn c' Ec'). apply tab_ext. intros i Hi.
    assert (forall s, polynomial (n - 1) s -> P0 c s = P0 c q' -> forall t, s (- cos t) = g0 (P0 c q') t) as X.
    { intros s Hs Es. apply (poly_g0 n Hn); auto. intros j Hj. rewrite <- Es. unfold P0, proj0. rewrite Ev, map_tab. now rewrite nth_tab. }
    rewrite (X r), (X q') by auto. reflexivity. }
  assert (forall q : R -> R, polynomial (n - 2) q -> T0d_cheb (P0d c q) = Ok (P0 c' q)) as A0d.
  { intros q' Hq'. destruct (T0d_c n Hn c c' Ec Ec' (P0d c q') (L0d q')) as (r & Hr & E1 & E2 & _). rewrite E2. apply (f_equal (@Ok (list R))). rewrite !(P0_c' n Hn c' Ec'). apply tab_ext. intros i Hi.
    assert (forall s, polynomial (n - 2) s -> P0d c s = P0d c q' -> forall t, s (- cos t) = Cheb2.g1 n (P0d c q') t) as X.
    { intros s Hs Es. apply (poly_g1 n Hn); auto; [now replace (n - 1 - 1)%nat with (n - 2)%nat by lia|]. intros j Hj. rewrite <- Es. unfold P0d, proj0. rewrite Evd, map_tab. now rewrite nth_tab. }
    rewrite (X r), (X q') by auto. reflexivity. }
  destruct d as [|[|d]]; [| |lia]; destruct p; cbn [sizes_interval] in Hq; (eexists; split; [reflexivity|]); cbn [proj].
  - now apply A0.
  - apply A0d. now replace (n - 2)%nat with (n - 1 - 1)%nat by lia.
  - replace (n - 1 - 1)%nat with (n - 2)%nat in Hq by lia. unfold T1_cheb. pose proof (Cheb1.H1_H0d n Hn close (P0d c q) G' (L0d q)) as X. rewrite (H0d_poly n c) in X by auto. cbn [bind] in X. rewrite X. cbn [bind]. now apply A0d.
  - unfold T1d_cheb. pose proof (Cheb3.H1d_H0 n Hn (P0 c q) (L0 q)) as X. destruct (H0_is_P_R n Hn (P0 c q) (L0 q)) as (c0 & E & H). rewrite Ec in E. injection E as <-.
    assert (H0_cheb (P0 c q) = Ok (P1d c q)) as E0.
    { rewrite H. f_equal. destruct (R0_poly n Hn (P0 c q) (L0 q)) as (r & Hr & Eg & Ex). destruct (c_cells n Hn c Ec) as (_ & _ & _ & Ee). unfold P1d, Grids1.proj1. rewrite Ee. cbn [fst snd]. rewrite !zipw_tab. apply tab_ext. intros i Hi.
      rewrite (RInt_R_poly (R_cheb n 0 true (P0 c q)) r (n - 1)) by auto.
      transitivity (RInt (fun t => q (- cos t) * sin t) (tdual n i) (tdual n (S i))); [|symmetry; apply (RInt_R_poly (fun x => Some (q x)) q (n - 1)); auto].
      apply RInt_ext. intros t _. f_equal. rewrite <- Eg. symmetry. apply (poly_g0 n Hn); auto. intros j Hj. unfold P0, proj0. rewrite Ev, map_tab. now rewrite nth_tab. }
    rewrite E0 in X. cbn [bind] in X. rewrite X. cbn [bind]. now apply A0.
Qed.
Theorem C35_exact_polynomial close n d0 p0 d1 p1 p2 f g : (2 <= n)%nat -> guard_ok close n -> (d0 + d1 <= 1)%nat ->
  polynomial (sizes_interval n d0 p0 - 1) f -> polynomial (sizes_interval n d1 p1 - 1) g ->
  (d0 + d1 = 0)%nat \/ polynomial (2 * n - 3) (fun x => f x * g x) ->
  exists c w, chebyshev_default n = Ok c /\ dget wkey_eqb (wedge (refine_cheb close)) ((d0, p0), (d1, p1), p2) = Ok w /\
  w (proj c d0 p0 f) (proj c d1 p1 g) = Ok (proj c (d0 + d1) p2 (fun x => f x * g x)).
Proof.
  intros Hn G Hd Hf Hg Hfg. destruct (cd_cells n Hn) as (c & Ec & Ev & Ee & Evd & Eed). destruct (cd_cells (2 * n - 1) ltac:(lia)) as (c' & Ec' & Ev' & _).
  exists c. rewrite W_entry by auto. eexists. split; [exact Ec|]. split; [reflexivity|].
  assert (forall d p (h : R -> R), (d <= 1)%nat -> length (proj c d p h) = grid_N Chebyshev n d p) as LP.
  { intros d p h Hd'. destruct d as [|[|d]]; [| |lia]; destruct p; cbn [proj grid_N sizes_interval]; unfold P0, P0d, P1, P1d, proj0, Grids1.proj1; rewrite ?Ev, ?Evd, ?Ee, ?Eed; cbn [fst snd]; rewrite ?map_length, ?length_zipw, ?length_tab; lia. }
  destruct (direct d0 p0 d1 p1 p2) eqn:Dr.
  { unfold direct in Dr. rewrite !andb_true_iff, !eqb_true_iff, !Nat.eqb_eq in Dr. destruct Dr as [[[-> ->] ->] ->].
    rewrite np_bin_eq by (rewrite !LP; lia). f_equal. cbn [Nat.add]. destruct p2; cbn [proj]; unfold P0, P0d, proj0; rewrite ?Ev, ?Evd; now rewrite !map_tab, zipw_tab. }
  destruct (get_w_val close Chebyshev n d0 p0 d1 p1 p2 (proj c d0 p0 f) (proj c d1 p1 g) Hn (guard_ok_guarded _ _ Hn G) ltac:(discriminate) Hd (LP d0 p0 f ltac:(lia)) (LP d1 p1 g ltac:(lia))) as (t0 & t1 & u & A & B & e & T0 & T1 & Tu & EA & EB & Ee' & E & _).
  cbn [refine_of] in *. rewrite E. rewrite <- Ee'.
  destruct (T_poly close n c c' d0 p0 f Hn G ltac:(lia) Ec Ec' Hf) as (T & ET & EV). rewrite T0 in ET; injection ET as <-. rewrite EA in EV; injection EV as ->.
  destruct (T_poly close n c c' d1 p1 g Hn G ltac:(lia) Ec Ec' Hg) as (T & ET & EV). rewrite T1 in ET; injection ET as <-. rewrite EB in EV; injection EV as ->.
  assert (zipw Rmult (P0 c' f) (P0 c' g) = P0 c' (fun x => f x * g x)) as -> by (rewrite !(P0_c' n Hn c' Ec'), zipw_tab; reflexivity).
  destruct (C32_restriction_integrates close n (d0 + d1) p2 (fun x => f x * g x) Hn Hd Hfg) as (U & c0 & pts & EU & Ec0 & Ept & EV). rewrite Ec in Ec0; injection Ec0 as <-. rewrite (points_c n Hn c c' Ec Ec') in Ept. injection Ept as <-. rewrite Tu in EU; injection EU as <-. exact EV.
Qed.
(** functions sampled or integrated on the cells of the periodic grid *)
Lemma T_trig N d p q K : (1 <= N)%nat -> (d <= 1)%nat -> trig_degree K q -> (2 * K < N)%nat ->
  length (proj (periodic_default N) d p q) = N /\
  exists T, tget (rT refine_periodic) (d, p) = Ok T /\ T (proj (periodic_default N) d p q) = Ok (tab (N + N) (fun j => q (xg (N + N) j))).
Proof.
  intros HN Hd Hq HK. assert (0 < N)%nat as HN' by lia.
  assert (forall s, trig_interpolant N (fun t => q (t + s))) as I by (intro s; apply (trig_degree_interpolant N K); auto; now apply td_shift).
  assert (trig_interpolant N q) as I0 by now apply (trig_degree_interpolant N K). assert (forall t, continuous q t) as Cq by (intro; now apply (td_cont K)).
  set (f := proj (periodic_default N) d p q). assert (f = tab N (fun i => match d, p with O, true => q (xg N i) | O, false => q (xg N i + hstep N / 2)
    | _, true => RInt q (xg N i) (xg N i + hstep N) | _, false => RInt q (xg N i - hstep N / 2) (xg N i + hstep N / 2) end)) as Ef.
  { unfold f. rewrite pd_cells by auto. destruct d as [|[|d]]; [| |lia]; destruct p; cbn [proj]; unfold P0, P0d, P1, P1d, proj0, Grids1.proj1; cbn [verts edges verts_dual edges_dual fst snd]; rewrite ?map_tab, ?zipw_tab; auto.
    apply tab_ext. intros i Hi. now rewrite xg_S. }
  assert (length f = N) as L by (rewrite Ef; apply length_tab). split; auto.
  destruct (T_periodic_sample N d p f HN Hd L) as (T & ET & EV). exists T. split; [exact ET|]. rewrite EV. apply (f_equal (@Ok (list R))), tab_ext. intros j Hj.
  destruct d as [|[|d]]; [| |lia]; destruct p.
  - symmetry. apply (interp_unique f q); try lia; rewrite ?L; auto. rewrite Ef. now apply samples_tab.
  - transitivity (q (xg (N + N) j - hstep N / 2 + hstep N / 2)); [|f_equal; ring]. symmetry. apply (interp_unique f (fun t => q (t + hstep N / 2))); try lia; rewrite ?L; auto. rewrite Ef. now apply (samples_tab N (fun t => q (t + hstep N / 2))).
  - rewrite (histo_of N HN' f (fun t => q (t + hstep N / 2))); auto; [f_equal; ring|]. intros i Hi. rewrite Ef, nth_tab by auto. rewrite RInt_shift by auto. apply RInt_Rplus0; field.
  - apply (histo_of N HN' f q); auto. intros i Hi. now rewrite Ef, nth_tab.
Qed.
Lemma U_trig N d p q K : (1 <= N)%nat -> (d <= 1)%nat -> trig_degree K q -> (K < N)%nat -> exists U, tget (rU refine_periodic) (d, p) = Ok U /\
  U (tab (N + N) (fun j => q (xg (N + N) j))) = Ok (proj (periodic_default N) d p q).
Proof.
  intros HN Hd Hq HK. assert (0 < N)%nat as HN' by lia. rewrite pd_cells by auto.
  destruct d as [|[|d]]; [| |lia]; destruct p; (eexists; split; [reflexivity|]); cbn [proj]; unfold P0, P0d, P1, P1d, proj0, Grids1.proj1; cbn [verts edges verts_dual edges_dual fst snd]; rewrite ?map_tab, ?zipw_tab.
  - unfold U0_periodic. rewrite evens_tab. replace ((N + N + 1) / 2)%nat with N by lia. apply (f_equal (@Ok (list R))), tab_ext. intros i Hi. now rewrite xg_e.
  - unfold U0d_periodic. rewrite odds_tab. replace ((N + N) / 2)%nat with N by lia. apply (f_equal (@Ok (list R))), tab_ext. intros i Hi. now rewrite xg_o.
  - rewrite (U1_val N HN' q K) by (auto; lia). apply (f_equal (@Ok (list R))), tab_ext. intros i Hi. now rewrite xg_S.
  - rewrite (U1d_val N HN' q K) by (auto; lia). reflexivity.
Qed.
Theorem C35_exact_trigonometric N d0 p0 d1 p1 p2 f g K L : (1 <= N)%nat -> (d0 + d1 <= 1)%nat ->
  trig_degree K f -> trig_degree L g -> (2 * K < N)%nat -> (2 * L < N)%nat ->
  exists w, dget wkey_eqb (wedge refine_periodic) ((d0, p0), (d1, p1), p2) = Ok w /\
  w (proj (periodic_default N) d0 p0 f) (proj (periodic_default N) d1 p1 g) = Ok (proj (periodic_default N) (d0 + d1) p2 (fun x => f x * g x)).
Proof.
  intros HN Hd Hf Hg HK HL. rewrite W_entry by auto. eexists. split; [reflexivity|].
  destruct (T_trig N d0 p0 f K HN ltac:(lia) Hf HK) as (L0 & T & ET & EV). destruct (T_trig N d1 p1 g L HN ltac:(lia) Hg HL) as (L1 & T' & ET' & EV').
  destruct (direct d0 p0 d1 p1 p2) eqn:Dr.
  - unfold direct in Dr. rewrite !andb_true_iff, !eqb_true_iff, !Nat.eqb_eq in Dr. destruct Dr as [[[-> ->] ->] ->].
    rewrite np_bin_eq by lia. f_equal. cbn [Nat.add]. rewrite pd_cells by lia. destruct p2; cbn [proj]; unfold P0, P0d, proj0; cbn [verts verts_dual]; now rewrite !map_tab, zipw_tab.
  - destruct (get_w_val never Periodic N d0 p0 d1 p1 p2 (proj (periodic_default N) d0 p0 f) (proj (periodic_default N) d1 p1 g) HN Logic.I ltac:(discriminate) Hd L0 L1) as (t0 & t1 & u & A & B & e & T0 & T1 & Tu & EA & EB & Ee' & E & _).
    cbn [refine_of] in *. rewrite E, <- Ee'. rewrite T0 in ET; injection ET as <-. rewrite EA in EV; injection EV as ->. rewrite T1 in ET'; injection ET' as <-. rewrite EB in EV'; injection EV' as ->. rewrite zipw_tab.
    destruct (U_trig N (d0 + d1) p2 (fun x => f x * g x) (K + L) HN Hd (td_mult _ _ _ _ Hf Hg) ltac:(lia)) as (U & EU & EV). rewrite Tu in EU; injection EU as <-. exact EV.
Qed.

(** not associative: (a /\ b) /\ e and a /\ (b /\ e) differ for suitable primal 0-forms a, b and a primal 1-form e *)
Lemma td_cos1 : trig_degree 1 (fun t => cos t).
Proof. apply (td_ext 1 _ (fun t => cos (INR 1 * t + 0))); [intro t; f_equal; simpl; ring|]. now apply td_cos_nat. Qed.
Lemma P0_eq c (f g : R -> R) : (forall i, (i < length (verts c))%nat -> f (nth i (verts c) 0) = g (nth i (verts c) 0)) -> P0 c f = P0 c g.
Proof. intro H. unfold P0, proj0. apply map_ext_in. intros x Hx. apply (In_nth _ _ 0) in Hx. destruct Hx as (i & Hi & <-). auto. Qed.
Theorem C35_not_associative close k : k = Periodic \/ (k = Chebyshev /\ guard_ok close 2) ->
  exists n a b e w00 w01 ab be l r, usable close k n /\ length a = grid_N k n 0 true /\ length b = grid_N k n 0 true /\ length e = grid_N k n 1 true /\
  dget wkey_eqb (wedge (refine_of close k)) ((0%nat, true), (0%nat, true), true) = Ok w00 /\
  dget wkey_eqb (wedge (refine_of close k)) ((0%nat, true), (1%nat, true), true) = Ok w01 /\
  w00 a b = Ok ab /\ w01 ab e = Ok l /\ w01 b e = Ok be /\ w01 a be = Ok r /\ l <> r.
Proof.
  intros [->|[-> G]]; cbn [refine_of].
  - set (c := periodic_default 3). set (f := fun t : R => cos t). set (u := fun _ : R => 1). set (v := fun t : R => / 2 + / 2 * cos t).
    assert (trig_degree 1 f) as Hf by apply td_cos1. assert (trig_degree 0 u) as Hu by apply td_const.
    assert (trig_degree 1 v) as Hv. { apply (td_plus 1 (fun _ => / 2) (fun t => / 2 * cos t)); [apply td_const|apply (td_scal 1 (/ 2) (fun t => cos t)), td_cos1]. }
    destruct (C35_exact_trigonometric 3 0 true 0 true true f f 1 1) as (w00 & W0 & E1); auto; try lia.
    destruct (C35_exact_trigonometric 3 0 true 1 true true v u 1 0) as (w01 & W1 & E2); auto; try lia.
    destruct (C35_exact_trigonometric 3 0 true 1 true true f u 1 0) as (w01' & W1' & E3); auto; try lia. rewrite W1 in W1'; injection W1' as <-.
    destruct (C35_exact_trigonometric 3 0 true 1 true true f (fun x => f x * u x) 1 1) as (w01' & W1' & E4); auto; try lia. { apply (td_mult 1 0 f u); auto. }
    rewrite W1 in W1'; injection W1' as <-.
    assert (forall d h, (d <= 1)%nat -> length (proj c d true h) = 3%nat) as LP.
    { intros d h Hd. unfold c. rewrite pd_cells by lia. destruct d as [|[|d]]; [reflexivity|reflexivity|lia]. }
    exists 3%nat, (proj c 0 true f), (proj c 0 true f), (proj c 1 true u), w00, w01, (proj c 0 true v), (proj c 1 true (fun x => f x * u x)), (proj c 1 true (fun x => v x * u x)), (proj c 1 true (fun x => f x * (f x * u x))).
    split; [cbn; lia|]. do 3 (split; [apply LP; lia|]). split; [exact W0|]. split; [exact W1|]. split; [|split; [exact E2|split; [exact E3|split; [exact E4|]]]].
    + fold c in E1. rewrite E1. apply (f_equal (@Ok (list R))). cbn [Nat.add proj]. apply P0_eq. unfold c. rewrite pd_cells by lia. cbn [verts]. rewrite length_tab. intros i Hi. rewrite nth_tab by auto. unfold f, v.
      assert (cos (xg 3 i) = 1 \/ cos (xg 3 i) = - / 2) as [-> | ->]; [|lra|lra]. unfold xg, hstep.
      destruct i as [|[|[|i]]]; [| | |lia].
      * left. rewrite <- cos_0. f_equal. simpl. lra.
      * right. transitivity (cos (2 * (PI / 3))); [f_equal; simpl; lra|]. rewrite cos_2PI3. lra.
      * right. transitivity (cos (2 * PI - 2 * (PI / 3))); [f_equal; simpl; lra|]. rewrite cos_minus, cos_2PI, sin_2PI, cos_2PI3. lra.
    + fold c. cbn [proj]. unfold c. rewrite pd_cells by lia. unfold P1, Grids1.proj1. cbn [edges fst snd]. rewrite !zipw_tab. intro X. apply (f_equal (fun l => nth 0 l 0)) in X. rewrite !nth_tab in X by lia.
      assert (RInt (fun x => v x * u x) (xg 3 0) (xg 3 1) = (/ 2 * xg 3 1 + / 2 * sin (xg 3 1)) - (/ 2 * xg 3 0 + / 2 * sin (xg 3 0))) as EA.
      { apply is_RInt_unique, (is_RInt_der (fun x => / 2 * x + / 2 * sin x)); intro x; unfold v, u; [auto_derive; [auto|ring]|apply continuous_derivable; auto_derive; auto]. }
      assert (RInt (fun x => f x * (f x * u x)) (xg 3 0) (xg 3 1) = (/ 2 * xg 3 1 + / 2 * (sin (xg 3 1) * cos (xg 3 1))) - (/ 2 * xg 3 0 + / 2 * (sin (xg 3 0) * cos (xg 3 0)))) as EB.
      { apply is_RInt_unique, (is_RInt_der (fun x => / 2 * x + / 2 * (sin x * cos x))); intro x; unfold f, u; [auto_derive; [auto|]; generalize (sin2_cos2 x); unfold Rsqr; intro; nra|apply continuous_derivable; auto_derive; auto]. }
      rewrite EA, EB in X. assert (xg 3 0 = 0) as Z0 by (unfold xg; simpl; lra). rewrite Z0, sin_0 in X.
      assert (xg 3 1 = 2 * (PI / 3)) as Z1 by (unfold xg, hstep; simpl; lra). rewrite Z1 in X. rewrite sin_2PI3, cos_2PI3 in X.
      assert (0 < sqrt 3) by (apply sqrt_lt_R0; lra). lra.
  - destruct (C35_exact_polynomial close 2 0 true 0 true true (fun x => -1 * x) (fun x => -1 * x)) as (c & w00 & Ec & W0 & E1); auto; try lia.
    { apply (poly_scal 1 (-1) (fun x => x)), (poly_ext _ _ (fun x => x * 1)); [intro; ring|]. apply (poly_mulx 0 (fun _ => 1)), poly_const. }
    { apply (poly_scal 1 (-1) (fun x => x)), (poly_ext _ _ (fun x => x * 1)); [intro; ring|]. apply (poly_mulx 0 (fun _ => 1)), poly_const. }
    assert (polynomial 1 (fun x => -1 * x)) as Hp.
    { apply (poly_scal 1 (-1) (fun x => x)), (poly_ext _ _ (fun x => x * 1)); [intro; ring|]. apply (poly_mulx 0 (fun _ => 1)), poly_const. }
    destruct (C35_exact_polynomial close 2 0 true 1 true true (fun x => 1) (fun x => 1)) as (c' & w01 & Ec' & W1 & E2); auto; try lia; try apply poly_const. { right. apply poly_const. }
    rewrite Ec in Ec'; injection Ec' as <-.
    destruct (C35_exact_polynomial close 2 0 true 1 true true (fun x => -1 * x) (fun x => 1)) as (c' & w01' & Ec' & W1' & E3); auto; try lia; try apply poly_const. { right. apply (poly_ext _ _ (fun x => -1 * x)); auto. intro; ring. }
    rewrite Ec in Ec'; injection Ec' as <-. rewrite W1 in W1'; injection W1' as <-.
    destruct (C35_exact_polynomial close 2 0 true 1 true true (fun x => -1 * x) (fun x => 0)) as (c' & w01' & Ec' & W1' & E4); auto; try lia; try apply poly_const. { right. apply (poly_ext _ _ (fun x => 0)); [intro; ring|apply poly_const]. }
    rewrite Ec in Ec'; injection Ec' as <-. rewrite W1 in W1'; injection W1' as <-.
    destruct (c_cells 2 ltac:(lia) c Ec) as (Ev & Ee & _).
    assert (xg (2 * (2 - 1)) 0 = 0) as X0 by (unfold xg; simpl; lra). assert (xg (2 * (2 - 1)) 1 = PI) as X1 by (unfold xg, hstep; simpl; lra).
    assert (forall h : R -> R, P1 c h = [RInt h (-1) 1]) as EP.
    { intro h. unfold P1, Grids1.proj1. rewrite Ee. cbn [fst snd]. rewrite zipw_tab. unfold tab. cbn [seq map Nat.sub]. change (2 - 1)%nat with 1%nat in *. rewrite X0, X1, cos_0, cos_PI. now replace (- -1) with 1 by lra. }
    assert (forall h : R -> R, P0 c h = [h (-1); h 1]) as EP0.
    { intro h. unfold P0, proj0. rewrite Ev. rewrite map_tab. unfold tab. cbn [seq map Nat.sub]. change (2 - 1)%nat with 1%nat in *. rewrite X0, X1, cos_0, cos_PI. now replace (- -1) with 1 by lra. }
    cbn [Nat.add proj] in E1, E2, E3, E4. rewrite !EP0 in *. rewrite !EP in *.
    assert (RInt (fun x => -1 * x * 1) (-1) 1 = 0) as I1.
    { replace 0 with ((- / 2 * 1 ^ 2) - (- / 2 * (-1) ^ 2)) by lra. apply is_RInt_unique, (is_RInt_der (fun x => - / 2 * x ^ 2)); intro x; [auto_derive; [auto|lra]|apply continuous_derivable; auto_derive; auto]. }
    assert (forall a : R, RInt (fun _ => a) (-1) 1 = 2 * a) as I2 by (intro a; rewrite (is_RInt_unique _ _ _ _ (is_RInt_const_R a (-1) 1)); lra).
    assert (RInt (fun x => -1 * x * 0) (-1) 1 = 0) as I3.
    { transitivity (RInt (fun _ => 0) (-1) 1); [apply RInt_ext; intros; match goal with |- ?l = ?r => change (@eq R l r) end; ring|]. rewrite I2. lra. }
    assert (RInt (fun x => 1 * 1) (-1) 1 = 2) as I4 by (rewrite I2; lra).
    rewrite I1, I2 in E3. rewrite I2, I3 in E4. rewrite I2, I4 in E2.
    exists 2%nat, [-1 * -1; -1 * 1], [-1 * -1; -1 * 1], [2 * 1], w00, w01, [1; 1], [0], [2], [0].
    split; [split; [lia|exact G]|]. do 3 (split; [reflexivity|]). split; [exact W0|]. split; [exact W1|].
    split; [rewrite E1; apply (f_equal (@Ok (list R))); f_equal; [lra|f_equal; lra]|].
    split; [exact E2|]. split; [exact E3|]. split; [now rewrite Rmult_0_r in E4|]. intro X. injection X. lra.
Qed.
(** the hypotheses of the C35 theorems hold for concrete grids and functions *)
Example C35_instance : usable np_isclose Chebyshev 5 /\ usable np_isclose Periodic 4 /\ grid_N Chebyshev 5 1 false = 5%nat /\
  polynomial (sizes_interval 5 0 true - 1) (fun x => x * 1) /\ trig_degree 1 (fun t => cos t).
Proof. repeat split; try (cbn; lia); [right; split; auto; lia| |apply td_cos1]. apply (poly_mulx 3), poly_const. Qed.
