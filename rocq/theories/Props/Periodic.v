(** C15-C19: basis functions, reconstruction and Hodge star of the periodic grid. *)
From Coq Require Import ZArith Reals List Lia Lra Arith.
From Coq Require Import ZifyNat.
From Coquelicot Require Import Coquelicot.
From Verif Require Import Model.Num Model.Np Model.Spectral Model.Basis Model.Grids1 Spec.Trig Proofs.ListLemmas Proofs.Sums
  Proofs.Fourier Proofs.RIntLemmas Proofs.Kernels Proofs.Trig Proofs.Ops Proofs.Exact Proofs.BasisP Proofs.Grids1P Proofs.GridsThm Proofs.PeriodicBasis.
Import ListNotations.
Local Open Scope R_scope.

(** C15 *)
Theorem C15_alpha_cardinal n i j : (i < n)%nat -> (j < n)%nat -> let c := periodic_default n in
  phi0 n i (nth j (verts c) 0) = Some (if Nat.eqb i j then 1 else 0) /\
  phid0 n i (nth j (verts_dual c) 0) = Some (if Nat.eqb i j then 1 else 0).
Proof. apply phi_card. Qed.
(** where alpha0 is a number it is the Dirichlet sum over the N frequencies -(N//2) .. (N-1)//2; it is not
    a number exactly at the non-zero multiples of 2 pi *)
Theorem C15_alpha_dirichlet N x : (0 < N)%nat ->
  (alpha0 N x = None <-> exists k, k <> 0%Z /\ x = 2 * PI * IZR k) /\
  (forall y, alpha0 N x = Some y -> y = / INR N * Rsum N (fun i => cos (IZR (Z.of_nat i - Z.of_nat (N / 2)) * x))).
Proof.
  intro HN. split; [now apply alpha0_none|]. intros y. rewrite alpha0_spec by auto.
  destruct (Req_EM_T x 0); [intro E; now injection E|]. destruct (Req_EM_T (sin (x/2)) 0); [discriminate|intro E; now injection E].
Qed.
Example C15_instance : phi0 5 2 (nth 2 (verts (periodic_default 5)) 0) = Some 1 /\ phi0 5 2 (nth 4 (verts (periodic_default 5)) 0) = Some 0.
Proof. split; [apply (C15_alpha_cardinal 5 2 2); lia|apply (C15_alpha_cardinal 5 2 4); lia]. Qed.

(** C16 *)
Theorem C16_beta_histopolates n i j : (i < n)%nat -> (j < n)%nat -> let c := periodic_default n in
  RInt (phi1 n i) (nth j (fst (edges c)) 0) (nth j (snd (edges c)) 0) = (if Nat.eqb i j then 1 else 0) /\
  RInt (phid1 n i) (nth j (fst (edges_dual c)) 0) (nth j (snd (edges_dual c)) 0) = (if Nat.eqb i j then 1 else 0).
Proof. apply phi1_card. Qed.
Theorem C16_beta_continuous n i x : (i < n)%nat -> continuous (phi1 n i) x /\ continuous (phid1 n i) x.
Proof.
  intro Hi. split.
  - apply (continuous_ext (fun x => betaS n (x - (xg n i + hstep n / 2)))); [intro; symmetry; now apply phi1_val|].
    apply (continuous_comp (fun x => x - (xg n i + hstep n / 2)) (betaS n)); [|apply betaS_cont].
    apply continuous_derivable. auto_derive. auto.
  - apply (continuous_ext (fun x => betaS n (x - xg n i))); [intro; symmetry; now apply phid1_val|].
    apply (continuous_comp (fun x => x - xg n i) (betaS n)); [|apply betaS_cont].
    apply continuous_derivable. auto_derive. auto.
Qed.
Example C16_instance : RInt (phi1 4 1) (nth 1 (fst (edges (periodic_default 4))) 0) (nth 1 (snd (edges (periodic_default 4))) 0) = 1.
Proof. apply (C16_beta_histopolates 4 1 1); lia. Qed.

(** C17: R_periodic n deg isprimal a is the function returned by g.reconstruction() applied to a *)
Theorem C17_projection_reconstruction (a : list R) : (0 < length a)%nat ->
  let n := length a in let c := periodic_default n in
  let R := R_form (B_periodic n) (sizes_periodic n) in
  P0 c (R 0%nat true a) = map Some a /\
  P0d c (R 0%nat false a) = map Some a /\
  P1 c (tot (R 1%nat true a)) = a /\
  P1d c (tot (R 1%nat false a)) = a.
Proof. apply PR_id. Qed.
Example C17_instance : P1 (periodic_default 3) (tot (R_form (B_periodic 3) (sizes_periodic 3) 1 true [2;-1;7])) = [2;-1;7].
Proof. apply (C17_projection_reconstruction [2;-1;7]). simpl. lia. Qed.

(** C18 *)
Theorem C18_hodge_is_P_R (a : list R) : (0 < length a)%nat ->
  let n := length a in let c := periodic_default n in
  let R := R_form (B_periodic n) (sizes_periodic n) in
  P1d c (tot (R 0%nat true a)) = H0_periodic a /\
  P1 c (tot (R 0%nat false a)) = H0d_periodic a /\
  P0d c (R 1%nat true a) = map Some (H1_periodic a) /\
  P0 c (R 1%nat false a) = map Some (H1d_periodic a).
Proof. apply Hodge_PR. Qed.
(** the matrices of hodge_star_matrix: column j is the FFT operator applied to the j-th unit vector *)
Theorem C18_hodge_star_matrix n : (0 < n)%nat ->
  let c := periodic_default n in let B := basis_fn (B_periodic n) (sizes_periodic n) in
  let e := fun j => tab n (fun i => if Nat.eqb i j then 1 else 0) in
  hodge_star_matrix c (B 0%nat true) (B 1%nat true) (B 0%nat false) (B 1%nat false) =
  (map (fun j => H0_periodic (e j)) (seq 0 n), map (fun j => map Some (H1_periodic (e j))) (seq 0 n),
   map (fun j => H0d_periodic (e j)) (seq 0 n), map (fun j => map Some (H1d_periodic (e j))) (seq 0 n)).
Proof.
  intros Hn c B e. pose proof (hstep_pos n Hn) as Hh. unfold hodge_star_matrix, B, basis_fn, sizes_periodic. rewrite !map_map.
  assert (forall j, length (e j) = n) as Le by (intro; apply length_tab).
  assert (forall j, In j (seq 0 n) -> (j < n)%nat) as Hs by (intros j Hj; apply in_seq in Hj; lia).
  f_equal; [f_equal; [f_equal|]|]; apply map_ext_in; intros j Hj; apply Hs in Hj;
   destruct (Hodge_PR (e j)) as (H1 & H2 & H3 & H4); rewrite ?Le; auto; rewrite ?Le in H1, H2, H3, H4.
  - rewrite <- H1. unfold c. rewrite pd_cells by auto. unfold P1d, proj1. cbn [edges_dual fst snd]. rewrite !zipw_tab.
    apply tab_ext. intros i Hi. pose proof (xg_range n i Hi). apply RInt_ext. intros x Hx. rewrite Rmin_left, Rmax_right in Hx by lra.
    unfold tot, R_periodic. assert (R_form (B_periodic n) (sizes_periodic n) 0 true (e j) x = B_periodic n 0 true j x) as ->; [|reflexivity].
    apply (R_unit (B_periodic n) (sizes_periodic n) 0 true j x Hj).
    intros k Hk. simpl. rewrite phi0_val by (auto; lra). congruence.
  - rewrite <- H3. unfold c. rewrite pd_cells by auto. unfold P0d, proj0. cbn [verts_dual]. rewrite !map_tab.
    apply tab_ext. intros i Hi. unfold R_periodic. symmetry. apply (R_unit (B_periodic n) (sizes_periodic n) 1 true j _ Hj).
    intros k Hk. simpl. unfold somef. congruence.
  - rewrite <- H2. unfold c. rewrite pd_cells by auto. unfold P1, proj1. cbn [edges fst snd]. rewrite !zipw_tab.
    apply tab_ext. intros i Hi. pose proof (xg_range n i Hi). apply RInt_ext. intros x Hx. rewrite xg_S in Hx. rewrite Rmin_left, Rmax_right in Hx by lra.
    unfold tot, R_periodic. assert (R_form (B_periodic n) (sizes_periodic n) 0 false (e j) x = B_periodic n 0 false j x) as ->; [|reflexivity].
    apply (R_unit (B_periodic n) (sizes_periodic n) 0 false j x Hj).
    intros k Hk. simpl. rewrite phid0_val by (auto; lra). congruence.
  - rewrite <- H4. unfold c. rewrite pd_cells by auto. unfold P0, proj0. cbn [verts]. rewrite !map_tab.
    apply tab_ext. intros i Hi. unfold R_periodic. symmetry. apply (R_unit (B_periodic n) (sizes_periodic n) 1 false j _ Hj).
    intros k Hk. simpl. unfold somef. congruence.
Qed.
Example C18_instance : P1d (periodic_default 3) (tot (R_form (B_periodic 3) (sizes_periodic 3) 0 true [2;-1;7])) = opH [2;-1;7].
Proof. apply (C18_hodge_is_P_R [2;-1;7]). simpl. lia. Qed.

(** C19: the discrete Hodge star of a sampled constant is the vector of its dual edge integrals only if
    the grid has length 2 pi *)
Theorem C19_hodge_extent n xmin xmax k : (1 <= n)%nat -> xmin < xmax -> k <> 0 ->
  forall c, make_cells Periodic n xmin xmax = Ok c ->
  (H0_periodic (P0 c (fun _ => k)) = P1d c (fun _ => k) <-> xmax - xmin = 2 * PI).
Proof.
  intros Hn Hx Hk c Ec. simpl in Ec. destruct n as [|n']; [lia|]. set (n := S n') in *. injection Ec as <-.
  assert (INR n <> 0) by (apply INR_neq0; lia).
  rewrite periodic_cells_tab by (lia || lra). unfold P0, P1d, proj0, proj1. cbn [verts edges_dual fst snd]. rewrite map_tab, zipw_tab.
  assert (H0_periodic (tab n (fun _ => k)) = tab n (fun _ => k * hstep n)) as E.
  { unfold H0_periodic. rewrite (exact_H (tab n (fun _ => k)) (fun _ => k)); rewrite ?length_tab; try lia.
    - apply tab_ext. intros i Hi. rewrite RInt_const. unfold scal. simpl. unfold mult. simpl. field.
    - apply (trig_degree_interpolant n 0); [lia|]. exists (fun _ => k), (fun _ => 0). intro x. unfold trig. simpl. ring.
    - intros j Hj. rewrite length_tab in *. now rewrite nth_tab. }
  rewrite E. assert (forall i, RInt (fun _ => k) (pp n xmin xmax i - / 2 * ((xmax - xmin) / INR n)) (pp n xmin xmax i + / 2 * ((xmax - xmin) / INR n)) = k * ((xmax - xmin) / INR n)) as Ei.
  { intro i. rewrite RInt_const. unfold scal. simpl. unfold mult. simpl. field; auto. }
  split.
  - intro Eq. assert (nth 0 (tab n (fun _ => k * hstep n)) 0 = k * ((xmax - xmin) / INR n)) as E0.
    { rewrite Eq. rewrite nth_tab by lia. apply Ei. }
    rewrite nth_tab in E0 by lia. apply Rmult_eq_reg_l in E0; auto. unfold hstep in E0.
    apply (Rmult_eq_reg_r (/ INR n)); [|now apply Rinv_neq_0_compat]. symmetry. exact E0.
  - intro Ex. apply tab_ext. intros i Hi. rewrite Ei, Ex. reflexivity.
Qed.
(** hence it fails on Grid_1D.periodic(n, 0, 1) *)
Theorem C19_hodge_extent_refuted n : (1 <= n)%nat -> exists c, make_cells Periodic n 0 1 = Ok c /\
  H0_periodic (P0 c (fun _ => 1)) <> P1d c (fun _ => 1).
Proof.
  intro Hn. exists (periodic_cells n 0 1). assert (make_cells Periodic n 0 1 = Ok (periodic_cells n 0 1)) as E by (simpl; destruct n; [lia|reflexivity]).
  split; [exact E|]. intro H. apply (C19_hodge_extent n 0 1 1) in H; auto; try lra.
  pose proof PI2_1. pose proof PI_RGT_0. lra.
Qed.
Example C19_instance : exists c, make_cells Periodic 4 3 (3 + 2 * PI) = Ok c /\ H0_periodic (P0 c (fun _ => 5)) = P1d c (fun _ => 5).
Proof.
  eexists. split; [reflexivity|]. apply (C19_hodge_extent 4 3 (3 + 2 * PI) 5); try lia; try lra; [pose proof PI_RGT_0; lra|reflexivity].
Qed.
