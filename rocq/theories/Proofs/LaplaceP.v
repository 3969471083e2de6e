(** Kernel and image of the derivatives and Hodge stars of 1D grids, for the discrete Poisson problem *)
From Coq Require Import ZArith Reals List Lia Lra Arith Bool.
From Coq Require Import ZifyNat.
From Verif Require Import Model.Sym.
From Coquelicot Require Import Coquelicot.
From Verif Require Import Model.Num Model.Np Model.Spectral Model.Basis Model.Grids1 Model.Regular Model.Chebyshev Model.Common Model.Decform Model.Grid2 Model.Laplacian Spec.Trig Spec.Poly Spec.Resolved Spec.Tiling
  Proofs.ListLemmas Proofs.RingSums Proofs.Sums Proofs.RIntLemmas Proofs.Grids1P Proofs.GridsThm Proofs.TrigAlg Proofs.Lin Proofs.TableLin Proofs.ChebPoly Proofs.Grid2P.
From Verif Require Import Props.Grid1 Props.Lagrange Props.Basis2 Props.Grid2 Proofs.Exact1 Props.Exact1 Props.Complete1.
Import ListNotations.
Local Open Scope R_scope.
Ltac Zify.zify_post_hook ::= Z.div_mod_to_equations.

(** ** lists *)
Definition cst (m : nat) (c : R) : list R := repeat c m.
Lemma length_cst m c : length (cst m c) = m. Proof. apply repeat_length. Qed.
Lemma nth_cst m c i : (i < m)%nat -> nth i (cst m c) 0 = c.
Proof. intro H. unfold cst. rewrite (nth_indep _ 0 c) by (rewrite repeat_length; lia). apply nth_repeat. Qed.
Lemma nth_axpyR c (u v : list R) i : length u = length v -> nth i (axpy c u v) 0 = c * nth i u 0 + nth i v 0.
Proof. intro L. exact (nth_axpy c u v i L). Qed.
Lemma bsum_zeroR m (f : nat -> R) : (forall i, (i < m)%nat -> f i = 0) -> bsum m f = 0.
Proof. intro H. exact (bsum_zero m f H). Qed.
Lemma axpy_cst m c c' : axpy c (cst m 1) (cst m c') = cst m (c + c').
Proof.
  apply (nth_ext _ _ 0 0); [rewrite length_axpy, !length_cst; rewrite ?length_cst; lia|]. intros i Hi. rewrite length_axpy in Hi by now rewrite !length_cst. rewrite length_cst in Hi.
  rewrite nth_axpyR by (rewrite ?length_cst; lia). rewrite !nth_cst by auto. ring.
Qed.
Lemma lin_zeros m n (h : list R -> list R) : lin m n h -> h (cst m 0) = cst n 0.
Proof.
  intros [L H]. pose proof (H (-1) (cst m 0) (cst m 0) (length_cst _ _) (length_cst _ _)) as E.
  assert (axpy (-1) (cst m 0) (cst m 0) = cst m 0) as E0.
  { apply (nth_ext _ _ 0 0); [rewrite length_axpy, !length_cst; rewrite ?length_cst; lia|]. intros i Hi. rewrite length_axpy in Hi by now rewrite !length_cst. rewrite length_cst in Hi.
    rewrite nth_axpyR by (rewrite ?length_cst; lia). rewrite !nth_cst by auto. ring. }
  assert (length (h (cst m 0)) = n) as Lh by (apply L, length_cst).
  rewrite <- E0, E. apply (nth_ext _ _ 0 0); [rewrite length_axpy by reflexivity; now rewrite length_cst|]. intros i Hi. rewrite length_axpy in Hi by reflexivity.
  rewrite nth_axpyR by (rewrite ?length_cst; lia). rewrite nth_cst by lia. ring.
Qed.
Lemma lin_shift m n (h : list R -> list R) c v : lin m n h -> length v = m -> h (axpy c (cst m 1) v) = axpy c (h (cst m 1)) (h v).
Proof. intros [_ H] L. apply H; [apply length_cst|exact L]. Qed.
Lemma lsum_axpy m c (u v : list R) : length u = m -> length v = m -> lsum (axpy c u v) = c * lsum u + lsum v.
Proof. intros L L'. exact (lf_lsum (A := R) m c u v L L'). Qed.
Lemma lsum_cst0 m : lsum (cst m 0) = 0.
Proof. rewrite (lsum_bsum _ 0), length_cst. apply bsum_zeroR. intros i Hi. now apply nth_cst. Qed.
Lemma lin_cst m n (h : list R -> list R) c : lin m n h -> lsum (h (cst m c)) = c * lsum (h (cst m 1)).
Proof.
  intro H. replace (cst m c) with (axpy c (cst m 1) (cst m 0)) by (rewrite axpy_cst; f_equal; ring).
  rewrite (lin_shift m n) by (auto; apply length_cst). rewrite (lin_zeros m n h H). rewrite (lsum_axpy n) by (try apply length_cst; apply (lin_len m n h _ H), length_cst). rewrite lsum_cst0. ring.
Qed.
Lemma constant_cst (u : list R) m : length u = m -> (forall i j, (i < length u)%nat -> (j < length u)%nat -> nth i u 0 = nth j u 0) -> u = cst m (nth 0 u 0).
Proof. intros L H. apply (nth_ext _ _ 0 0); [rewrite length_cst; lia|]. intros i Hi. rewrite nth_cst by lia. apply H; lia. Qed.
Lemma cst_constant m c i j : (i < length (cst m c))%nat -> (j < length (cst m c))%nat -> nth i (cst m c) 0 = nth j (cst m c) 0.
Proof. rewrite length_cst. intros. now rewrite !nth_cst. Qed.
Lemma axpy_zero (u v : list R) m : length u = m -> length v = m -> axpy (-1) u v = cst m 0 -> u = v.
Proof.
  intros L L' E. apply (nth_ext _ _ 0 0); [lia|]. intros i Hi. pose proof (f_equal (fun l => nth i l 0) E) as Q. cbv beta in Q.
  rewrite nth_axpyR, nth_cst in Q by lia. lra.
Qed.
Lemma axpy_self (u : list R) m : length u = m -> axpy (-1) u u = cst m 0.
Proof.
  intro L. apply (nth_ext _ _ 0 0); [rewrite length_axpy, length_cst; lia|]. intros i Hi. rewrite length_axpy in Hi by reflexivity.
  rewrite nth_axpyR by (rewrite ?length_cst; lia). rewrite nth_cst by lia. ring.
Qed.

(** ** derivatives *)
Section D.
Variables (k : kind1) (n : nat).
Hypothesis Hn : big_enough k n.
Notation N d t := (grid_N k n d t).
Lemma smallest : (smallest_n k <= n)%nat. Proof. destruct k; cbn in *; lia. Qed.
Lemma one_le : (1 <= n)%nat. Proof. destruct k; cbn in *; lia. Qed.
Lemma D0_cst c : grid_D0 k (cst (N 0 true) c) = cst (N 1 true) 0.
Proof. destruct (C07_kernel_constants (A := R) k n (cst (N 0 true) c) smallest (length_cst _ _)) as [_ H]. apply H. intros. now apply cst_constant. Qed.
Lemma D0_ker (u : list R) : length u = N 0 true -> grid_D0 k u = cst (N 1 true) 0 -> u = cst (N 0 true) (nth 0 u 0).
Proof. intros L E. apply constant_cst; auto. destruct (C07_kernel_constants (A := R) k n u smallest L) as [H _]. exact (H E). Qed.
Lemma len_D0 (u : list R) : length u = N 0 true -> length (grid_D0 k u) = N 1 true.
Proof. intro L. exact (lin_len _ _ _ u (lin_D0 k n) L). Qed.
Lemma len_D0d (u : list R) : length u = N 0 false -> length (grid_D0d k u) = N 1 false.
Proof. intro L. exact (lin_len _ _ _ u (lin_D0d k n one_le) L). Qed.
Lemma lsum_zero_l (u v : list R) m : u = cst m 0 -> lsum (vmul u v) = 0.
Proof.
  intros ->. rewrite (lsum_bsum _ 0). apply bsum_zeroR. intros i Hi. unfold vmul in *. rewrite length_zipw, length_cst in Hi.
  rewrite (nth_zipw _ _ _ _ 0 0 0) by (rewrite ?length_cst; lia). rewrite nth_cst by lia. cbn. ring.
Qed.
Lemma sum_D0d (v : list R) : length v = N 0 false -> lsum (grid_D0d k v) = 0.
Proof.
  intro L. pose proof (C06_negative_adjoint k n (cst (N 0 true) 1) v smallest (length_cst _ _) L) as E. rewrite D0_cst, (lsum_zero_l _ v (N 1 true) eq_refl) in E.
  assert (vmul (cst (N 0 true) 1) (grid_D0d k v) = grid_D0d k v) as E1.
  { pose proof (len_D0d v L) as Ld. assert (N 0 true = N 1 false) as EN by (destruct k; reflexivity). apply (nth_ext _ _ 0 0); unfold vmul; [rewrite length_zipw, length_cst; lia|].
    intros i Hi. rewrite length_zipw, length_cst in Hi. rewrite (nth_zipw _ _ _ _ 0 0 0) by (rewrite ?length_cst; lia). rewrite nth_cst by lia. cbn. ring. }
  rewrite E1 in E. cbn in E. lra.
Qed.
Lemma sum_D0_periodic (v : list R) : k = Periodic -> length v = N 0 true -> lsum (grid_D0 k v) = 0.
Proof.
  intros Hk L. pose proof (len_D0 v L) as LD. pose proof one_le as H1. subst k. apply (Logic.proj1 (C07_image_periodic (grid_D0 Periodic v) ltac:(rewrite LD; cbn; exact H1))). exists v. split; auto. rewrite LD, L. reflexivity.
Qed.
Lemma roll_roll (f : list R) : roll 1 (roll (-1) f) = f.
Proof.
  apply (nth_ext _ _ 0 0); [now rewrite !length_roll|]. intros i Hi. rewrite !length_roll in Hi. rewrite nth_roll_1 by now rewrite length_roll. rewrite length_roll.
  destruct (Nat.eqb_spec i 0) as [->|Hi0]; rewrite nth_roll_m1 by lia.
  - destruct (Nat.eqb_spec (length f - 1 + 1) (length f)); [reflexivity|lia].
  - destruct (Nat.eqb_spec (i - 1 + 1) (length f)); [lia|]. f_equal. lia.
Qed.
Lemma roll_inj (f g : list R) : roll 1 f = roll 1 g -> f = g.
Proof.
  intro E. assert (length f = length g) as L by (apply (f_equal (@length R)) in E; now rewrite !length_roll in E).
  apply (nth_ext _ _ 0 0); [exact L|]. intros i Hi. pose proof (f_equal (fun l => nth (if Nat.eqb (i + 1) (length f) then 0 else i + 1)%nat l 0) E) as Q. cbv beta in Q.
  destruct (Nat.eqb_spec (i + 1) (length f)) as [Hl|Hl]; rewrite !nth_roll_1 in Q by lia.
  - cbn [Nat.eqb] in Q. replace (length f - 1)%nat with i in Q by lia. replace (length g - 1)%nat with i in Q by lia. exact Q.
  - destruct (Nat.eqb_spec (i + 1) 0); [lia|]. replace (i + 1 - 1)%nat with i in Q by lia. exact Q.
Qed.
Lemma roll_cst j m c : roll j (cst m c) = cst m c.
Proof.
  apply (nth_ext _ _ 0 0); [apply length_roll|]. intros i Hi. rewrite length_roll, length_cst in Hi. rewrite nth_roll by (rewrite length_cst; lia). rewrite (nth_cst m c i) by lia. apply nth_cst. rewrite length_cst. pose proof (Z.mod_pos_bound (Z.of_nat i - j) (Z.of_nat m) ltac:(lia)). lia.
Qed.
(** periodic: the kernel is the constants; bounded: the kernel is 0 *)
Lemma D0d_ker_periodic (v : list R) : k = Periodic -> length v = N 0 false -> grid_D0d k v = cst (N 1 false) 0 -> v = cst (N 0 false) (nth 0 v 0).
Proof.
  intros Hk L E. apply constant_cst; auto. assert (grid_D0 k v = cst (N 1 true) 0) as E'.
  { rewrite Hk in *. cbn [grid_D0 grid_D0d grid_N] in *. apply roll_inj. unfold D0d_periodic in E. rewrite E, roll_cst. reflexivity. }
  destruct (C07_kernel_constants (A := R) k n v smallest ltac:(rewrite L, Hk; reflexivity)) as [H _]. exact (H E').
Qed.
Lemma D0d_cst_periodic c : k = Periodic -> grid_D0d k (cst (N 0 false) c) = cst (N 1 false) 0.
Proof.
  intro Hk. pose proof (D0_cst c) as E. rewrite Hk in *. cbn [grid_D0 grid_D0d grid_N] in *. change (sizes_periodic n 0 false) with (sizes_periodic n 0 true). change (sizes_periodic n 1 false) with (sizes_periodic n 1 true). unfold D0d_periodic. rewrite E. apply roll_cst.
Qed.
Lemma D0d_ker_interval (v : list R) : k <> Periodic -> length v = N 0 false -> grid_D0d k v = cst (N 1 false) 0 -> v = cst (N 0 false) 0.
Proof.
  intros Hk L E. apply (C07_dual_injective k); [destruct k; auto; congruence|rewrite length_cst; exact L|]. rewrite E. symmetry. exact (lin_zeros _ _ _ (lin_D0d k n one_le)).
Qed.
(** images *)
Lemma lsum_consR a (l : list R) : lsum (a :: l) = a + lsum l.
Proof.
  assert (forall c, fold_left Rplus l c = c + fold_left Rplus l 0) as H. { induction l as [|x l IH]; intro c; cbn [fold_left]; [ring|]. rewrite IH, (IH (0 + x)). ring. }
  change (fold_left Rplus l (0 + a) = a + fold_left Rplus l 0). rewrite H. ring.
Qed.
Lemma lsum_snocR a (l : list R) : lsum (l ++ [a]) = lsum l + a.
Proof. induction l as [|x l IH]; [cbn; ring|]. cbn [app]. rewrite !lsum_consR, IH. ring. Qed.
Lemma diff_image (g : list R) : forall s, exists f, length f = (length g - 1)%nat /\ (g = [] \/ diff (s :: f ++ [s + lsum g]) = g).
Proof.
  induction g as [|a [|b g] IH]; intro s.
  - exists []. split; [reflexivity|now left].
  - exists []. split; [reflexivity|]. right. rewrite lsum_consR. change (lsum (@nil R)) with 0. change ([s + (a + 0) - s] = [a]). f_equal. ring.
  - destruct (IH (s + a)) as (f & Lf & Ef). destruct Ef as [Ef|Ef]; [discriminate|]. exists ((s + a) :: f). split; [cbn [length] in *; lia|]. right.
    change (diff (s :: ((s + a) :: f) ++ [s + lsum (a :: b :: g)])) with ((s + a - s) :: diff ((s + a) :: f ++ [s + lsum (a :: b :: g)])).
    assert (s + lsum (a :: b :: g) = s + a + lsum (b :: g)) as -> by (rewrite !lsum_consR; ring). rewrite Ef. f_equal. ring.
Qed.
Lemma D0d_image (g : list R) : length g = N 1 false -> lsum g = 0 -> exists f, length f = N 0 false /\ grid_D0d k f = g.
Proof.
  intros L S0. pose proof one_le as H1. destruct k eqn:Hk.
  - destruct (proj2 (C07_image_periodic (roll (-1) g) ltac:(rewrite length_roll, L; cbn; exact H1))) as (f & Lf & Ef).
    + assert (lsum (roll (-1) g) = lsum g) as E. 2:{ change nzero with 0. rewrite E. exact S0. }
      destruct g as [|a g]; [reflexivity|]. assert (roll (-1) (a :: g) = g ++ [a]) as ->.
      { apply (nth_ext _ _ 0 0); [rewrite length_roll, app_length; cbn; lia|]. intros i Hi. rewrite length_roll in Hi. rewrite nth_roll_m1 by auto. cbn [length] in *. destruct (Nat.eqb_spec (i + 1) (S (length g))) as [Q|Q].
        - rewrite app_nth2 by lia. replace (i - length g)%nat with 0%nat by lia. reflexivity.
        - rewrite app_nth1 by lia. replace (i + 1)%nat with (S i) by lia. reflexivity. }
      rewrite lsum_snocR, lsum_consR. ring.
    + exists f. split; [rewrite Lf, length_roll, L; reflexivity|]. cbn [grid_D0d grid_D0] in *. unfold D0d_periodic. rewrite Ef. apply roll_roll.
  - destruct (diff_image g 0) as (f & Lf & [Ef|Ef]); [subst g; cbn in L; cbn in Hn; lia|]. exists f. split; [rewrite Lf, L; reflexivity|].
    cbn [grid_D0d]. unfold D0d_interval. rewrite S0 in Ef. replace (0 + 0) with 0 in Ef by ring. exact Ef.
  - destruct (diff_image g 0) as (f & Lf & [Ef|Ef]); [subst g; cbn in L; cbn in Hn; lia|]. exists f. split; [rewrite Lf, L; reflexivity|].
    cbn [grid_D0d]. unfold D0d_interval. rewrite S0 in Ef. replace (0 + 0) with 0 in Ef by ring. exact Ef.
Qed.
Lemma D0_image (g : list R) : length g = N 1 true -> (k = Periodic -> lsum g = 0) -> exists f, length f = N 0 true /\ grid_D0 k f = g.
Proof.
  intros L S0. pose proof one_le as H1. destruct k eqn:Hk.
  - destruct (proj2 (C07_image_periodic g ltac:(rewrite L; cbn; exact H1)) (S0 eq_refl)) as (f & Lf & Ef). exists f. split; auto. rewrite Lf, L. reflexivity.
  - apply C07_image_interval; auto.
  - apply C07_image_interval; auto.
Qed.
End D.
