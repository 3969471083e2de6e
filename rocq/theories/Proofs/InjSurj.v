(** An injective linear map of R^n into itself is onto; rows and columns of arrays. *)
From Coq Require Import ZArith Reals List Lia Lra Arith Bool.
From Coq Require Import ZifyNat ZifyBool.
From Verif Require Import Model.Sym.
From Coquelicot Require Import Coquelicot.
From Verif Require Import Model.Num Model.Np Model.Spectral Model.Grids1 Model.Common Model.Decform Model.Grid2
  Proofs.ListLemmas Proofs.RingSums Proofs.Sums Proofs.Grids1P Proofs.GridsThm Proofs.Lin Proofs.LinAlg Proofs.TableLin Proofs.Arr2 Proofs.Grid2P Proofs.Grid2Ops Proofs.LaplaceP.
Import ListNotations.
Local Open Scope R_scope.
Ltac Zify.zify_post_hook ::= Z.div_mod_to_equations.

Lemma inj_surj n (g : list R -> list R) : lin n n g -> (forall f, length f = n -> g f = repeat 0 n -> f = repeat 0 n) -> forall b, length b = n -> exists f, length f = n /\ g f = b.
Proof.
  intros Lg Inj b Lb. destruct (@dependent R NumR LawsR field_R R1_neq_R0 n (fun i j => if Nat.ltb i n then nth j (g (unit n i)) 0 else nth j b 0)) as (c & (i0 & Hi0 & Ci0) & S0).
  assert (forall (u : list R) j, length u = n -> (j < n)%nat -> nth j (g u) 0 = bsum n (fun i => nth i u 0 * nth j (g (unit n i)) 0)) as Mx.
  { intros u j Lu Hj. pose proof (lin_matrix (A := R) n n g u Lg Lu) as E. rewrite E at 1. change (@nzero R _) with 0. rewrite nth_tab by auto. apply (bsum_ext (A := R)). intros i Hi. apply Rmult_comm. }
  assert (forall j, (j < n)%nat -> nth j (g (tab n c)) 0 = - (c n * nth j b 0)) as Key.
  { intros j Hj. specialize (S0 j Hj). rewrite (bsum_S_r (A := R)) in S0. destruct (Nat.ltb_spec n n); [lia|]. rewrite Mx by (auto; apply length_tab).
    assert (bsum n (fun i => nth i (tab n c) 0 * nth j (g (unit n i)) 0) = bsum n (fun i => nmul (c i) (if Nat.ltb i n then nth j (g (unit n i)) 0 else nth j b 0))) as ->.
    { apply (bsum_ext (A := R)). intros i Hi. rewrite nth_tab by auto. destruct (Nat.ltb_spec i n); [reflexivity|lia]. }
    cbn [nadd nmul nzero NumR] in S0 |- *. lra. }
  destruct (Req_dec (c n) 0) as [Z|Z].
  - exfalso. assert (tab n c = repeat 0 n) as E.
    { apply Inj; [apply length_tab|]. apply (nth_ext _ _ 0 0); [rewrite (lin_len _ _ g _ Lg (length_tab _ _)); now rewrite repeat_length|]. intros j Hj. rewrite (lin_len _ _ g _ Lg (length_tab _ _)) in Hj. rewrite nth_repeat, Key by auto. rewrite Z. ring. }
    apply Ci0. destruct (Nat.eq_dec i0 n) as [->|Hn]; [exact Z|]. rewrite <- (nth_tab n c i0 0) by lia. rewrite E. apply nth_repeat.
  - exists (tab n (fun i => - / c n * c i)). split; [apply length_tab|]. apply (nth_ext _ _ 0 0); [rewrite (lin_len _ _ g _ Lg (length_tab _ _)); auto|]. intros j Hj. rewrite (lin_len _ _ g _ Lg (length_tab _ _)) in Hj.
    rewrite Mx by (auto; apply length_tab). pose proof (Key j Hj) as K. rewrite Mx in K by (auto; apply length_tab).
    assert (bsum n (fun i => nth i (tab n (fun i => - / c n * c i)) 0 * nth j (g (unit n i)) 0) = - / c n * bsum n (fun i => nth i (tab n c) 0 * nth j (g (unit n i)) 0)) as ->.
    { rewrite !bsum_Rsum, <- Rsum_scal. apply Rsum_ext. intros i Hi. rewrite !nth_tab by auto. ring. }
    rewrite K. field. exact Z.
Qed.
Lemma lin_rows r m n g : lin m n g -> lin (A := R) (r * m) (r * n) (fun f => flat r n (onrows m g (ent m f))).
Proof.
  intro Lg. split; [intros; apply length_flat|]. intros c f f' Lf Lf'. unfold axpy at 2. rewrite flat_zip. apply flat_ext. intros i j Hi Hj. unfold onrows.
  assert (tab m (ent m (axpy c f f') i) = axpy c (tab m (ent m f i)) (tab m (ent m f' i))) as ->.
  { apply (nth_ext _ _ 0 0); [rewrite length_axpy; rewrite !length_tab; auto|]. intros k Hk. rewrite length_tab in Hk. rewrite nth_axpyR by now rewrite !length_tab. rewrite !nth_tab by auto. unfold ent. rewrite nth_axpyR by congruence. reflexivity. }
  exact (lin_lf (A := R) m n g j Lg c _ _ (length_tab _ _) (length_tab _ _)).
Qed.
Lemma lin_cols c m n g : lin m n g -> lin (A := R) (m * c) (n * c) (fun f => flat n c (oncols m g (ent c f))).
Proof.
  intro Lg. split; [intros; apply length_flat|]. intros a f f' Lf Lf'. unfold axpy at 2. rewrite flat_zip. apply flat_ext. intros i j Hi Hj. unfold oncols.
  assert (tab m (fun i => ent c (axpy a f f') i j) = axpy a (tab m (fun i => ent c f i j)) (tab m (fun i => ent c f' i j))) as ->.
  { apply (nth_ext _ _ 0 0); [rewrite length_axpy; rewrite !length_tab; auto|]. intros k Hk. rewrite length_tab in Hk. rewrite nth_axpyR by now rewrite !length_tab. rewrite !nth_tab by auto. unfold ent. rewrite nth_axpyR by congruence. reflexivity. }
  exact (lin_lf (A := R) m n g i Lg a _ _ (length_tab _ _) (length_tab _ _)).
Qed.
