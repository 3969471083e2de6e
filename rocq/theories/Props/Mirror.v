(** C20-C21: mirroring and extension of arrays. *)
From Coq Require Import ZArith Reals List Lia Lra Arith.
From Coq Require Import ZifyNat.
From Coquelicot Require Import Complex.
From Verif Require Import Model.Num Model.Np Model.Spectral Spec.Trig Proofs.ListLemmas Proofs.Sums Proofs.Fourier Proofs.Kernels Proofs.Trig Proofs.RingSums Proofs.Mirror.
Import ListNotations.
Ltac Zify.zify_post_hook ::= Z.div_mod_to_equations.

(** C20, over any commutative ring of array elements (instances: Z, R, C) *)
Theorem C20_mirror_round_trip {A} `{NumLaws A} (s : A) (f : list A) :
  unmirror0 (mirror0 s f) = f /\ unmirror1 (mirror1 s f) = f.
Proof. split; [apply unmirror0_mirror0|apply unmirror1_mirror1]. Qed.
(** mirror0 has length 2n-2 and reflects about 0 and n-1; mirror1 has length 2n and reflects about -1/2 and
    n-1/2, with the given sign (s = 1 or s = -1) *)
Theorem C20_mirror_parity {A} `{NumLaws A} (s : A) (f : list A) : nmul s s = none ->
  let n := length f in
  ((2 <= n)%nat -> length (mirror0 s f) = (2 * n - 2)%nat /\
     (forall j, (j < n)%nat -> nth j (mirror0 s f) nzero = nth j f nzero) /\
     (forall j, (1 <= j < 2 * n - 2)%nat -> j <> (n - 1)%nat ->
        nth j (mirror0 s f) nzero = nmul s (nth (2 * n - 2 - j) (mirror0 s f) nzero))) /\
  (length (mirror1 s f) = (2 * n)%nat /\
     (forall j, (j < n)%nat -> nth j (mirror1 s f) nzero = nth j f nzero) /\
     (forall j, (j < 2 * n)%nat -> nth j (mirror1 s f) nzero = nmul s (nth (2 * n - 1 - j) (mirror1 s f) nzero))).
Proof.
  intros Hs n. 
  assert (forall x, x = nmul s (nmul s x)) as Ess.
  { intro x. pose proof num_ring as R. rewrite (Rmul_assoc R), Hs, (Rmul_1_l R). reflexivity. }
  split.
  - intro Hn. rewrite length_mirror0' by auto. split; [fold n; lia|]. split.
    + intros j Hj. rewrite nth_mirror0 by (fold n; lia). fold n. destruct (Nat.ltb_spec j n); [auto|lia].
    + intros j Hj Hne. rewrite !nth_mirror0 by (fold n; lia). fold n.
      destruct (Nat.ltb_spec j n), (Nat.ltb_spec (2 * n - 2 - j) n); try lia.
      * replace (2 * n - 2 - (2 * n - 2 - j))%nat with j by lia. apply Ess.
      * reflexivity.
  - rewrite length_mirror1. split; [reflexivity|]. split.
    + intros j Hj. rewrite nth_mirror1 by (fold n; lia). fold n. destruct (Nat.ltb_spec j n); [auto|lia].
    + intros j Hj. rewrite !nth_mirror1 by (fold n; lia). fold n.
      destruct (Nat.ltb_spec j n), (Nat.ltb_spec (2 * n - 1 - j) n); try lia.
      * replace (2 * n - 1 - (2 * n - 1 - j))%nat with j by lia. apply Ess.
      * reflexivity.
Qed.
(** conversely an array with the symmetry is the mirror of its first part *)
Theorem C20_unmirror_mirror {A} `{NumLaws A} (s : A) (x : list A) k : length x = (2 * k)%nat -> (1 <= k)%nat ->
  ((forall j, (k < j < 2 * k)%nat -> nth j x nzero = nmul s (nth (2 * k - j) x nzero)) -> mirror0 s (unmirror0 x) = x) /\
  ((forall j, (k <= j < 2 * k)%nat -> nth j x nzero = nmul s (nth (2 * k - 1 - j) x nzero)) -> mirror1 s (unmirror1 x) = x).
Proof. intros L K. split; intro E; [now apply (mirror0_unmirror0 s x k)|now apply (mirror1_unmirror1 s x k)]. Qed.
Example C20_instance : mirror0 (-1)%Z [1;2;3;4]%Z = [1;2;3;4;-3;-2]%Z /\ mirror1 (-1)%Z [1;2;3]%Z = [1;2;3;-3;-2;-1]%Z
  /\ unmirror0 [1;2;3;2]%Z = [1;2;3]%Z /\ mirror0 1%Z (unmirror0 [1;2;3;2]%Z) = [1;2;3;2]%Z.
Proof. repeat split. Qed.

Local Open Scope R_scope.
(** C21 *)
Theorem C21_unextend_extend (f : list C) n : (1 <= n <= length f)%nat -> unextend (extend f n) n = Ok f.
Proof. apply unextend_extend. Qed.
Theorem C21__unextend__extend {A} `{NumLaws A} (f : list A) n : (1 <= n <= length f)%nat -> _unextend (_extend f n) n = Ok f.
Proof. apply _unextend_extend. Qed.
(** extending by nothing cannot be undone: f[0:-0] is empty *)
Theorem C21_unextend_0_refuted (f : list C) : (2 <= length f)%nat -> unextend (extend f 0) 0 = Err ValueError.
Proof. intro L. apply unextend_0. rewrite length_extend. lia. Qed.
(** every array is sampled by exactly one q with frequencies freq(N); E_space(n) samples it at N+2n points,
    E_space_inv(n) samples it at N-2n points *)
Theorem C21_E_space_resamples (f : list C) : (0 < length f)%nat ->
  exists q, (ctrig_interpolant (length f) q /\ csamples f q) /\
   (forall p, ctrig_interpolant (length f) p -> csamples f p -> forall t, p t = q t) /\
   (forall n, length (E_space n f) = (length f + 2 * n)%nat /\ csamples (E_space n f) q) /\
   (forall n, (1 <= n)%nat -> (3 * n <= length f)%nat ->
      exists u, E_space_inv n f = Ok u /\ length u = (length f - 2 * n)%nat /\ csamples u q).
Proof.
  intro L. exists (tpC f). split; [split; [apply tpC_interp|apply tpC_samples]|]. split; [intros p; now apply ctrig_coeffs|]. split.
  - intro n. split; [apply length_E_space|]. intros j. rewrite length_E_space. intro Hj. rewrite nth_E_space by auto.
    rewrite xg_eq by lia. reflexivity.
  - intros n Hn Hl. destruct (E_space_inv_ok n f Hn Hl) as (u & E & Lu & Nu). exists u. split; [exact E|]. split; [exact Lu|].
    intros j. rewrite Lu. intro Hj. rewrite Nu by auto. rewrite xg_eq by lia. reflexivity.
Qed.
Theorem C21_E_space_round_trip (f : list C) n : (1 <= n <= length f)%nat -> E_space_inv n (E_space n f) = Ok f.
Proof.
  intro Hn. unfold E_space_inv, E_space. rewrite F_Finv. rewrite unextend_extend by (now rewrite length_F). simpl. now rewrite Finv_F.
Qed.
Example C21_instance : _extend [1;2;3;4]%Z 2 = [0;0;1;2;3;4;0;0]%Z /\ _unextend [0;1;2;3;4;5;6;7]%Z 2 = Ok [8;10;4;6]%Z /\
  E_space_inv 1 (E_space 1 [RtoC 3; RtoC 5]) = Ok [RtoC 3; RtoC 5].
Proof. split; [reflexivity|]. split; [reflexivity|]. apply C21_E_space_round_trip. simpl. lia. Qed.
