(** Rounding and truncation. *)
From Coq Require Import ZArith Reals List Lia Lra Bool.
From Verif Require Import Model.Sym.
From Coquelicot Require Import Coquelicot.
From Verif Require Import Model.Num Model.Np Model.Helper.
Local Open Scope R_scope.

Lemma floor_spec x : IZR (floor x) <= x < IZR (floor x) + 1.
Proof. unfold floor. destruct (archimed x) as [H1 H2]. rewrite minus_IZR. lra. Qed.
Lemma floor_unique x n : IZR n <= x < IZR n + 1 -> floor x = n.
Proof.
  intros [H1 H2]. destruct (floor_spec x) as [H3 H4].
  assert (floor x < n + 1)%Z by (apply lt_IZR; rewrite plus_IZR; lra). assert (n < floor x + 1)%Z by (apply lt_IZR; rewrite plus_IZR; lra). lia.
Qed.
Lemma floor_IZR n : floor (IZR n) = n.
Proof. apply floor_unique. lra. Qed.
Lemma rint_close x : Rabs (x - IZR (rint x)) <= 1 / 2.
Proof.
  unfold rint. destruct (floor_spec x) as [H1 H2]. cbv zeta. destruct (Rlt_dec _ _); [apply Rabs_le; lra|]. destruct (Rlt_dec _ _); [rewrite plus_IZR; apply Rabs_le; lra|].
  destruct (Z.even _); [|rewrite plus_IZR]; apply Rabs_le; lra.
Qed.
Lemma rint_IZR n : rint (IZR n) = n.
Proof. unfold rint. rewrite floor_IZR. cbv zeta. destruct (Rlt_dec _ _); [reflexivity|lra]. Qed.
Lemma rint_zero x : rint x = 0%Z <-> Rabs x <= 1 / 2.
Proof.
  split.
  - intro H. pose proof (rint_close x) as K. rewrite H in K. now rewrite Rminus_0_r in K.
  - intro H. apply Rabs_le_between in H. destruct (floor_spec x) as [H1 H2]. unfold rint. cbv zeta.
    assert (floor x = 0 \/ floor x = -1)%Z as [E|E].
    { assert (floor x < 1)%Z by (apply lt_IZR; lra). assert (-2 < floor x)%Z by (apply lt_IZR; lra). lia. }
    + rewrite E in *. destruct (Rlt_dec _ _); [reflexivity|]. destruct (Rlt_dec _ _); [lra|reflexivity].
    + rewrite E in *. destruct (Rlt_dec _ _); [lra|]. destruct (Rlt_dec _ _); reflexivity.
Qed.
Lemma rounded_close k a b : rounded k a = rounded k b -> Rabs (a - b) <= / 10 ^ k.
Proof.
  unfold rounded. intro E. pose proof (rint_close (a * 10 ^ k)) as Ha. pose proof (rint_close (b * 10 ^ k)) as Hb. rewrite E in Ha.
  assert (0 < 10 ^ k) as P by (apply pow_lt; lra). apply Rabs_le_between in Ha. apply Rabs_le_between in Hb.
  apply Rabs_le. set (r := IZR (rint (b * 10 ^ k))) in *. assert (- 1 <= (a - b) * 10 ^ k <= 1) as [K1 K2] by lra. split.
  - apply Rmult_le_reg_r with (10 ^ k); auto. rewrite Ropp_mult_distr_l_reverse, Rinv_l by lra. lra.
  - apply Rmult_le_reg_r with (10 ^ k); auto. rewrite Rinv_l by lra. lra.
Qed.
Lemma rounded_zero k x : rounded k x = 0%Z <-> Rabs x <= / 2 * / 10 ^ k.
Proof.
  unfold rounded. rewrite rint_zero. assert (0 < 10 ^ k) as P by (apply pow_lt; lra). rewrite Rabs_mult, (Rabs_pos_eq (10 ^ k)) by lra. split; intro H.
  - apply Rmult_le_reg_r with (10 ^ k); auto. rewrite Rmult_assoc, Rinv_l by lra. lra.
  - apply Rle_trans with (/ 2 * / 10 ^ k * 10 ^ k); [apply Rmult_le_compat_r; lra|]. rewrite Rmult_assoc, Rinv_l by lra. lra.
Qed.
(** truncation: the integer part of |x| with the sign of x *)
Lemma trunc_spec x : (0 <= x -> IZR (trunc x) <= x < IZR (trunc x) + 1) /\ (x < 0 -> IZR (trunc x) - 1 < x <= IZR (trunc x)).
Proof.
  unfold trunc. destruct (floor_spec x) as [H1 H2]. destruct (floor_spec (- x)) as [H3 H4]. destruct (Rlt_dec x 0); split; intro; try lra. rewrite opp_IZR. lra.
Qed.
Lemma trunc_IZR n : trunc (IZR n) = n.
Proof. unfold trunc. destruct (Rlt_dec _ _); [|apply floor_IZR]. rewrite <- opp_IZR, floor_IZR. lia. Qed.
