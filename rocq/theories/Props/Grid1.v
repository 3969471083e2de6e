(** C01-C08: cells, Stokes and the discrete derivative of the 1D grids. *)
From Coq Require Import ZArith Reals List Lia Lra Arith Ring.
From Coquelicot Require Import Coquelicot.
From Verif Require Import Model.Num Model.Np Model.Grids1 Spec.Tiling
  Proofs.ListLemmas Proofs.RingSums Proofs.Sums Proofs.GridsThm Proofs.Deriv.
Import ListNotations.
Local Open Scope R_scope.

(** The smallest n for which the constructors build a grid with at least one primal edge. *)
Definition smallest_n (k : kind1) : nat := match k with Periodic => 1 | Regular => 2 | Chebyshev => 2 end.
Lemma smallest k n : (smallest_n k <= n)%nat -> (min_n k <= n)%nat.
Proof. destruct k; auto. Qed.

(** C01: the primal edges tile [xmin, xmax], edge j starts at vertex j and ends at vertex j+1. *)
Theorem C01_primal_cells_tile k n xmin xmax : (smallest_n k <= n)%nat -> xmin < xmax ->
  exists c, make_cells k n xmin xmax = Ok c /\
    tiles xmin xmax (fst (edges c)) (snd (edges c)) /\
    lengths_of (delta_p c) (fst (edges c)) (snd (edges c)) /\
    length (verts c) = grid_N k n 0 true /\
    length (fst (edges c)) = grid_N k n 1 true /\
    (forall j, (j < grid_N k n 1 true)%nat -> nth j (fst (edges c)) 0 = nth j (verts c) 0) /\
    (forall j, (S j < grid_N k n 0 true)%nat -> nth j (snd (edges c)) 0 = nth (S j) (verts c) 0).
Proof. intros H. apply cells_primal. now apply smallest. Qed.
Example C01_instance : exists c, make_cells Chebyshev 5 (-3) 7 = Ok c /\ tiles (-3) 7 (fst (edges c)) (snd (edges c)).
Proof. destruct (C01_primal_cells_tile Chebyshev 5 (-3) 7) as (c & E & T & _); [simpl; lia|lra|eauto]. Qed.

(** C01: the constructors fail exactly on a periodic grid of no points (IndexError), on a Chebyshev grid of no
    points (ValueError) and on a regular grid whose extent is empty or reversed (AssertionError) *)
Theorem C01_construction_outcome k n xmin xmax :
  match make_cells k n xmin xmax with
  | Ok _ => (k = Regular -> xmin < xmax) /\ (k <> Regular -> n <> 0%nat)
  | Err e => (k = Periodic /\ n = 0%nat /\ e = IndexError) \/ (k = Chebyshev /\ n = 0%nat /\ e = ValueError) \/
             (k = Regular /\ ~ xmin < xmax /\ e = AssertionError)
  end.
Proof.
  destruct k; cbn [make_cells].
  - destruct n; [left; auto|split; [discriminate|intros _; discriminate]].
  - unfold regular_cells. destruct (Rlt_dec xmin xmax); [|right; right; auto].
    split; [auto|intros H; exfalso; now apply H].
  - unfold chebyshev_cells. destruct n; [right; left; auto|split; [discriminate|intros _; discriminate]].
Qed.
Example C01_construction_instance : make_cells Regular 5 2 1 = Err AssertionError /\
  make_cells Periodic 0 1 2 = Err IndexError /\ exists c, make_cells Periodic 3 2 1 = Ok c.
Proof.
  split; [|split; [reflexivity|eexists; reflexivity]].
  cbn [make_cells]. unfold regular_cells. destruct (Rlt_dec 2 1); [lra|reflexivity].
Qed.

(** C02 on regular and Chebyshev grids *)
Theorem C02_dual_cells_tile k n xmin xmax : k = Regular \/ k = Chebyshev -> (2 <= n)%nat -> xmin < xmax ->
  exists c, make_cells k n xmin xmax = Ok c /\
    tiles xmin xmax (fst (edges_dual c)) (snd (edges_dual c)) /\
    lengths_of (delta_d c) (fst (edges_dual c)) (snd (edges_dual c)) /\
    length (verts_dual c) = grid_N k n 0 false /\
    length (fst (edges_dual c)) = grid_N k n 1 false /\
    (forall i, (i < n)%nat -> nth i (fst (edges_dual c)) 0 <= nth i (verts c) 0 <= nth i (snd (edges_dual c)) 0) /\
    (forall i, (0 < i < n - 1)%nat -> nth i (fst (edges_dual c)) 0 < nth i (verts c) 0 < nth i (snd (edges_dual c)) 0) /\
    (forall j, (j < n - 1)%nat -> nth j (fst (edges c)) 0 < nth j (verts_dual c) 0 < nth j (snd (edges c)) 0).
Proof. intros [-> | ->]; apply cells_dual_interval; congruence. Qed.
(** C02 on the periodic grid: dual edges centred at the vertices, of total length xmax - xmin *)
Theorem C02_dual_cells_tile_periodic n xmin xmax : (1 <= n)%nat -> xmin < xmax ->
  exists c, make_cells Periodic n xmin xmax = Ok c /\
    tiles (xmin - (xmax - xmin) / INR n / 2) (xmax - (xmax - xmin) / INR n / 2) (fst (edges_dual c)) (snd (edges_dual c)) /\
    lengths_of (delta_d c) (fst (edges_dual c)) (snd (edges_dual c)) /\
    length (verts_dual c) = n /\ length (fst (edges_dual c)) = n /\
    (forall i, (i < n)%nat -> nth i (verts c) 0 = (nth i (fst (edges_dual c)) 0 + nth i (snd (edges_dual c)) 0) / 2) /\
    (forall j, (j < n)%nat -> nth j (verts_dual c) 0 = (nth j (fst (edges c)) 0 + nth j (snd (edges c)) 0) / 2).
Proof. apply cells_dual_periodic. Qed.
Example C02_instance : exists c, make_cells Regular 4 1 2 = Ok c /\ tiles 1 2 (fst (edges_dual c)) (snd (edges_dual c)).
Proof. destruct (C02_dual_cells_tile Regular 4 1 2) as (c & E & T & _); [auto|lia|lra|eauto]. Qed.
Example C02_instance_periodic : exists c, make_cells Periodic 4 1 2 = Ok c /\
  tiles (1 - (2 - 1) / INR 4 / 2) (2 - (2 - 1) / INR 4 / 2) (fst (edges_dual c)) (snd (edges_dual c)).
Proof. destruct (C02_dual_cells_tile_periodic 4 1 2) as (c & E & T & _); [lia|lra|eauto]. Qed.

(** C03 *)
Theorem C03_points_sorted_union k n xmin xmax : (smallest_n k <= n)%nat -> xmin < xmax ->
  exists c p, make_cells k n xmin xmax = Ok c /\ points c = Ok p /\
    length p = (grid_N k n 0 true + grid_N k n 0 false)%nat /\
    (forall i, (i < grid_N k n 0 true)%nat -> nth (2 * i) p 0 = nth i (verts c) 0) /\
    (forall i, (i < grid_N k n 0 false)%nat -> nth (2 * i + 1) p 0 = nth i (verts_dual c) 0) /\
    increasing p.
Proof. intros H. apply points_ok. now apply smallest. Qed.
Example C03_instance : exists c p, make_cells Periodic 3 0 1 = Ok c /\ points c = Ok p /\ length p = 6%nat.
Proof. destruct (C03_points_sorted_union Periodic 3 0 1) as (c & p & E & P & L & _); [simpl; lia|lra|eauto]. Qed.

(** C04: D(P0 f) = P1 f' *)
Theorem C04_stokes_primal k n xmin xmax c (f f' : R -> R) :
  (smallest_n k <= n)%nat -> xmin < xmax -> make_cells k n xmin xmax = Ok c ->
  (forall x, xmin <= x <= xmax -> is_derive f x (f' x)) -> (forall x, xmin <= x <= xmax -> continuous f' x) ->
  (k = Periodic -> f xmax = f xmin) -> grid_D0 k (P0 c f) = P1 c f'.
Proof. intros H. apply stokes_primal. now apply smallest. Qed.
Example C04_instance : exists c, make_cells Chebyshev 6 (-1) 1 = Ok c /\ grid_D0 Chebyshev (P0 c (fun x => x ^ 2)) = P1 c (fun x => 2 * x).
Proof.
  destruct (C01_primal_cells_tile Chebyshev 6 (-1) 1) as (c & E & _); [simpl; lia|lra|]. exists c. split; [exact E|].
  apply (C04_stokes_primal Chebyshev 6 (-1) 1); auto; try (simpl; lia); try lra; try congruence.
  - intros x _. auto_derive; [auto|]. ring.
  - intros x _. apply (ex_derive_continuous (fun x => 2 * x)). auto_derive. auto.
Qed.

(** C05: D~(P0d f) + boundary_condition(f) = P1d f' *)
Theorem C05_stokes_dual k n xmin xmax c (f f' : R -> R) :
  k = Regular \/ k = Chebyshev -> (2 <= n)%nat -> xmin < xmax -> make_cells k n xmin xmax = Ok c ->
  (forall x, xmin <= x <= xmax -> is_derive f x (f' x)) -> (forall x, xmin <= x <= xmax -> continuous f' x) ->
  exists bc, boundary_condition n xmin xmax f = Ok bc /\ vadd (grid_D0d k (P0d c f)) bc = P1d c f'.
Proof. intros [-> | ->]; apply stokes_dual_interval; congruence. Qed.
Theorem C05_stokes_dual_periodic n xmin xmax c (f f' : R -> R) :
  (1 <= n)%nat -> xmin < xmax -> make_cells Periodic n xmin xmax = Ok c ->
  (forall x, f (x + (xmax - xmin)) = f x) ->
  (forall x, is_derive f x (f' x)) -> (forall x, continuous f' x) ->
  grid_D0d Periodic (P0d c f) = P1d c f'.
Proof. apply stokes_dual_periodic. Qed.
(** with n = 1 the identity fails: f(x) = x on the one-cell regular grid over [-1, 1] *)
Theorem C05_single_vertex_refuted : exists c bc,
  make_cells Regular 1 (-1) 1 = Ok c /\ boundary_condition 1 (-1) 1 (fun x => x) = Ok bc /\
  vadd (grid_D0d Regular (P0d c (fun x => x))) bc <> P1d c (fun _ => 1).
Proof.
  simpl. unfold regular_cells. destruct (Rlt_dec (-1) 1); [|lra]. eexists _, _. split; [reflexivity|]. split; [reflexivity|].
  unfold P0d, P1d, proj0, proj1, D0d_interval; simpl. intro E. injection E as E. rewrite RInt_const in E.
  unfold scal in E. simpl in E. unfold mult in E. simpl in E. lra.
Qed.
(** with a single vertex the boundary correction only holds f(xmax): the sum misses the integral over the dual cell by f(xmin) *)
Theorem C05_single_vertex xmin xmax (f f' : R -> R) : xmin < xmax ->
  (forall x, xmin <= x <= xmax -> is_derive f x (f' x)) -> (forall x, xmin <= x <= xmax -> continuous f' x) ->
  boundary_condition 0 xmin xmax f = Err IndexError /\ boundary_condition 1 xmin xmax f = Ok [f xmax] /\
  exists c, make_cells Regular 1 xmin xmax = Ok c /\ vadd (grid_D0d Regular (P0d c f)) [f xmax] = [f xmax] /\ P1d c f' = [f xmax - f xmin].
Proof.
  intros H D Cn. split; [reflexivity|]. split; [reflexivity|]. simpl. unfold regular_cells. destruct (Rlt_dec xmin xmax); [|lra]. eexists. split; [reflexivity|]. split.
  - unfold P0d, proj0, D0d_interval; simpl. unfold vadd; simpl. f_equal. ring.
  - unfold P1d, proj1; simpl. f_equal. match goal with |- RInt _ ?a ?b = _ => replace a with xmin by (try field; lra); replace b with xmax by (try field; lra) end.
    apply is_RInt_unique. apply (is_RInt_derive f f'); intros x Hx; rewrite Rmin_left, Rmax_right in Hx by lra; auto.
Qed.
Example C05_instance : exists c bc, make_cells Regular 3 0 1 = Ok c /\ boundary_condition 3 0 1 (fun x => x ^ 2) = Ok bc /\
  vadd (grid_D0d Regular (P0d c (fun x => x ^ 2))) bc = P1d c (fun x => 2 * x).
Proof.
  destruct (C01_primal_cells_tile Regular 3 0 1) as (c & E & _); [simpl; lia|lra|]. exists c.
  destruct (C05_stokes_dual Regular 3 0 1 c (fun x => x ^ 2) (fun x => 2 * x)) as (bc & Eb & H); eauto; try lia; try lra.
  - intros x _. auto_derive; [auto|]. ring.
  - intros x _. apply (ex_derive_continuous (fun x => 2 * x)). auto_derive. auto.
Qed.
Example C05_instance_periodic : exists c, make_cells Periodic 3 0 (2 * PI) = Ok c /\
  grid_D0d Periodic (P0d c sin) = P1d c cos.
Proof.
  eexists. split; [reflexivity|]. apply (C05_stokes_dual_periodic 3 0 (2 * PI)).
  - lia. - pose proof PI_RGT_0; lra. - reflexivity.
  - intro x. rewrite Rminus_0_r. apply (sin_period x 1 : sin (x + 2 * 1 * PI) = _) || (replace (x + 2 * PI) with (x + 2 * INR 1 * PI) by (simpl; ring); apply sin_period).
  - intro x. auto_derive; [auto|ring].
  - intro x. apply (ex_derive_continuous cos). auto_derive. auto.
Qed.

(** C06: sum(D(f)*g) = - sum(f*D~(g)), over any commutative ring *)
Theorem C06_negative_adjoint {A} {NA : Num A} {LA : NumLaws A} (k : kind1) (n : nat) (f g : list A) :
  (smallest_n k <= n)%nat -> length f = grid_N k n 0 true -> length g = grid_N k n 0 false ->
  lsum (vmul (grid_D0 k f) g) = nopp (lsum (vmul f (grid_D0d k g))).
Proof.
  intros Hn Lf Lg. destruct k; simpl in *.
  - apply adjoint_periodic; unfold sizes_periodic in *; lia.
  - apply adjoint_interval; lia.
  - apply adjoint_interval; lia.
Qed.
Example C06_instance : lsum (vmul (grid_D0 Regular [1;5;-2]%Z) [4;7]%Z) = (- lsum (vmul [1;5;-2] (grid_D0d Regular [4;7])))%Z
  /\ lsum (vmul (grid_D0 Regular [1;5;-2]%Z) [4;7]%Z) = (-33)%Z.
Proof. split; [exact (C06_negative_adjoint Regular 3 [1;5;-2]%Z [4;7]%Z (le_S _ _ (le_n 2)) eq_refl eq_refl)|reflexivity]. Qed.

(** C07 *)
Theorem C07_kernel_constants {A} {NA : Num A} {LA : NumLaws A} (k : kind1) (n : nat) (f : list A) :
  (smallest_n k <= n)%nat -> length f = grid_N k n 0 true ->
  (grid_D0 k f = zeros (grid_N k n 1 true) <->
   forall i j, (i < length f)%nat -> (j < length f)%nat -> nth i f nzero = nth j f nzero).
Proof.
  intros Hn Lf. destruct k; simpl in *; unfold sizes_periodic in *; rewrite <- Lf.
  - apply kernel_periodic. lia.
  - apply kernel_interval.
  - apply kernel_interval.
Qed.
Theorem C07_image_periodic {A} {NA : Num A} {LA : NumLaws A} (g : list A) : (1 <= length g)%nat ->
  ((exists f, length f = length g /\ grid_D0 Periodic f = g) <-> lsum g = nzero).
Proof. intro. apply image_periodic. lia. Qed.
Theorem C07_image_interval {A} {NA : Num A} {LA : NumLaws A} (k : kind1) (n : nat) (g : list A) :
  k = Regular \/ k = Chebyshev -> (2 <= n)%nat -> length g = grid_N k n 1 true ->
  exists f, length f = grid_N k n 0 true /\ grid_D0 k f = g.
Proof.
  intros Hk Hn L. destruct (image_interval g) as [f [Lf E]]. exists f.
  destruct Hk as [-> | ->]; simpl in *; split; auto; lia.
Qed.
Theorem C07_dual_injective {A} {NA : Num A} {LA : NumLaws A} (k : kind1) (f g : list A) :
  k = Regular \/ k = Chebyshev -> length f = length g -> grid_D0d k f = grid_D0d k g -> f = g.
Proof. intros [-> | ->]; apply dual_injective. Qed.
Example C07_instance : grid_D0 Periodic [7;7;7]%Z = zeros 3 /\ lsum [3;-1;-2]%Z = 0%Z /\ grid_D0 Periodic [0;3;2]%Z = [3;-1;-2]%Z.
Proof. repeat split. Qed.

(** C08: the two sparse matrices are the matrices of D[0,True] and D[0,False], and the second is minus the
    transpose of the first *)
Theorem C08_derivative_matrix (f : list R) : (1 <= length f)%nat ->
  let n := length f in
  grid_D0 Periodic f = tab n (fun i => Rsum n (fun j => IZR (fst (derivative_matrix n) i j) * nth j f 0)) /\
  grid_D0d Periodic f = tab n (fun i => Rsum n (fun j => IZR (snd (derivative_matrix n) i j) * nth j f 0)) /\
  (forall i j, (i < n)%nat -> (j < n)%nat -> snd (derivative_matrix n) i j = (- fst (derivative_matrix n) j i)%Z).
Proof. intros H n. destruct (derivative_matrix_ok f) as [H1 H2]; [lia|]. repeat split; auto. Qed.
Example C08_instance : tab 3 (fun i => tab 3 (fun j => fst (derivative_matrix 3) i j)) = [[-1;1;0];[0;-1;1];[1;0;-1]]%Z.
Proof. reflexivity. Qed.

