(** C95, continued: the cartesian product of points, the numeric integration of helper functions, and calls that always fail. *)
From Coq Require Import ZArith Reals List Lia Lra Arith.
From Coquelicot Require Import Coquelicot.
From Verif Require Import Model.Num Model.Np Model.Spectral Model.Grids1 Model.Regular Model.Common Model.Grid2 Model.Integrate Model.Records Proofs.ListLemmas Proofs.Grids1P Proofs.Arr2 Proofs.Grid2P.
Import ListNotations.
Local Open Scope R_scope.
Set Warnings "-ambiguous-paths".

(** entry k of the product of X and Y is (X[k mod len X], Y[k / len X]): x runs fastest *)
Theorem C95_cartesian X Y : length (fst (cartesian_product X Y)) = (length Y * length X)%nat /\ length (snd (cartesian_product X Y)) = (length Y * length X)%nat /\
  (forall i j, (i < length X)%nat -> (j < length Y)%nat -> nth (j * length X + i) (fst (cartesian_product X Y)) 0 = nth i X 0 /\ nth (j * length X + i) (snd (cartesian_product X Y)) 0 = nth j Y 0) /\
  (forall p, In p (combine (fst (cartesian_product X Y)) (snd (cartesian_product X Y))) <-> In (fst p) X /\ In (snd p) Y).
Proof.
  assert (fst (cartesian_product X Y) = flat (length Y) (length X) (fun i j => nth j X 0)) as E1 by reflexivity.
  assert (snd (cartesian_product X Y) = flat (length Y) (length X) (fun i j => nth i Y 0)) as E2 by reflexivity.
  rewrite E1, E2. clear E1 E2. split; [apply length_flat|]. split; [apply length_flat|]. split; [intros i j Hi Hj; now rewrite !Grid2P.nth_flat|].
  intros [a b]. cbn [fst snd]. split.
  - intro H. split; [apply in_combine_l in H|apply in_combine_r in H]; apply (In_nth _ _ 0) in H as (k & Hk & E); rewrite length_flat in Hk; destruct (idx_div _ _ _ Hk) as [H1 H2]; assert (0 < length X)%nat as NX by lia;
      rewrite <- (idx_eq (length X) k NX) in E; rewrite Grid2P.nth_flat in E by auto; rewrite <- E; now apply nth_In.
  - intros [HX HY]. apply (In_nth _ _ 0) in HX as (i & Hi & <-). apply (In_nth _ _ 0) in HY as (j & Hj & <-).
    assert (j * length X + i < length Y * length X)%nat as Hk by nia.
    replace (nth i X 0, nth j Y 0) with (nth (j * length X + i) (combine (flat (length Y) (length X) (fun i j => nth j X 0)) (flat (length Y) (length X) (fun i j => nth i Y 0))) (0, 0)).
    + apply nth_In. rewrite combine_length, !length_flat. lia.
    + rewrite combine_nth by (now rewrite !length_flat). now rewrite !Grid2P.nth_flat.
Qed.
(** P1 of n_integration_1d and slow_integration: the increments of an antiderivative, cell by cell; scalars are broadcast, other lengths raise ValueError *)
Theorem C95_quadrature (f F : R -> R) x0 x1 : (forall x, is_derive F x (f x)) -> (forall x, continuous f x) ->
  n_P0 f x0 = map f x0 /\ (length x0 = length x1 -> n_P1 f x0 x1 = Ok (zipw (fun a b => F b - F a) x0 x1) /\ slow_integration x0 x1 f = zipw (fun a b => F b - F a) x0 x1) /\
  (forall a b, n_P1 f [a] [b] = Ok [F b - F a]) /\ (forall a, n_P1 f [a] x1 = Ok (map (fun b => F b - F a) x1)) /\ (forall b, n_P1 f x0 [b] = Ok (map (fun a => F b - F a) x0)) /\
  (length x0 <> length x1 -> length x0 <> 1%nat -> length x1 <> 1%nat -> n_P1 f x0 x1 = Err ValueError).
Proof.
  intros HD HC. assert (forall a b, RInt f a b = F b - F a) as E. { intros a b. apply is_RInt_unique. apply (is_RInt_derive F f); auto. }
  assert (forall u v, zipw (fun a b => RInt f a b) u v = zipw (fun a b => F b - F a) u v) as Z.
  { induction u as [|a u IH]; intros [|b v]; cbn [zipw]; auto. now rewrite E, IH. }
  split; [reflexivity|]. split; [intro L; unfold n_P1, np_bin, slow_integration; rewrite L, Nat.eqb_refl, !Z; auto|].
  split; [intros a b; unfold n_P1, np_bin; cbn [length Nat.eqb zipw]; now rewrite E|]. split; [|split].
  - intro a. unfold n_P1, np_bin. destruct (Nat.eqb_spec (length [a]) (length x1)) as [L|L]; [destruct x1 as [|b [|? ?]]; try discriminate; cbn [zipw map]; now rewrite E|]. f_equal. apply map_ext. intro b. apply E.
  - intro b. unfold n_P1, np_bin. destruct (Nat.eqb_spec (length x0) (length [b])) as [L|L]; [destruct x0 as [|a [|? ?]]; try discriminate; cbn [zipw map]; now rewrite E|].
    destruct x0 as [|a [|? ?]]; [reflexivity|now cbn in L|]. f_equal. apply map_ext. intro c. apply E.
  - intros L A B. unfold n_P1, np_bin. destruct (Nat.eqb_spec (length x0) (length x1)); [contradiction|]. destruct x0 as [|a [|? ?]]; cbn in *; try congruence; destruct x1 as [|b [|? ?]]; cbn in *; congruence.
Qed.
(** adjacent cells add up: the integrals over [a, b] and [b, c] sum to that over [a, c], and exchanging the limits changes the sign *)
Theorem C95_quadrature_additive (f : R -> R) a b c : (forall x, continuous f x) ->
  exists u v w, n_P1 f [a] [b] = Ok [u] /\ n_P1 f [b] [c] = Ok [v] /\ n_P1 f [a] [c] = Ok [w] /\ u + v = w /\ n_P1 f [b] [a] = Ok [- u].
Proof.
  intro HC. assert (forall p q, ex_RInt f p q) as Ex by (intros; apply (ex_RInt_continuous (V := R_CompleteNormedModule)); auto).
  exists (RInt f a b), (RInt f b c), (RInt f a c). split; [reflexivity|]. split; [reflexivity|]. split; [reflexivity|]. split; [apply (RInt_Chasles f a b c); auto|]. unfold n_P1, np_bin; cbn. do 2 f_equal. symmetry. apply (opp_RInt_swap f); auto.
Qed.
(** Omega and Omega_d sample the sine at the vertices and the dual vertices of the periodic grid over [0, 2 pi] *)
Theorem C95_omega N : (1 <= N)%nat -> exists c, make_cells Periodic N 0 (2 * PI) = Ok c /\ Omega N = map sin (verts c) /\ Omega_d N = map sin (verts_dual c).
Proof.
  intro HN. exists (periodic_cells N 0 (2 * PI)). split; [destruct N; [lia|reflexivity]|]. pose proof PI_RGT_0 as P. assert (INR N <> 0) as NN by (apply not_0_INR; lia).
  rewrite periodic_cells_tab by (lia || lra). cbn [verts verts_dual]. rewrite !map_tab. unfold Omega, Omega_d. split; apply tab_ext; intros i Hi; unfold pp, hstep; f_equal; field; exact NN.
Qed.
Example C95_instance_arrays : cartesian_product [0; 1] [2; 3] = ([0; 1; 0; 1], [2; 2; 3; 3]) /\ n_P1 (fun x => x) [0; 1] [1; 4] = Ok [1 / 2; 15 / 2] /\ exists c, make_cells Periodic 3 0 (2 * PI) = Ok c /\ Omega 3 = map sin (verts c).
Proof.
  split; [reflexivity|]. split.
  - destruct (C95_quadrature (fun x => x) (fun x => x ^ 2 / 2) [0; 1] [1; 4]) as (_ & H & _); [intro x; auto_derive; [auto|]; field|intro x; apply continuous_id|]. rewrite (Logic.proj1 (H eq_refl)). cbn. do 2 f_equal; [|f_equal]; field.
  - destruct (C95_omega 3) as (c & E & H & _); [lia|]. eauto.
Qed.
