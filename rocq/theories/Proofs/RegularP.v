(** The Hodge stars of the regular grid. *)
From Coq Require Import ZArith Reals List Lia Lra Arith.
From Coq Require Import ZifyNat.
From Coquelicot Require Import Coquelicot.
From Verif Require Import Model.Num Model.Np Model.Spectral Model.Regular Spec.Trig Proofs.ListLemmas Proofs.Sums Proofs.Fourier Proofs.RIntLemmas Proofs.Kernels Proofs.Trig Proofs.Ops Proofs.RingSums Proofs.Mirror Proofs.Symm.
Import ListNotations.
Local Open Scope R_scope.
Ltac Zify.zify_post_hook ::= Z.div_mod_to_equations.

Definition dHi (N : nat) (n : Z) : C := Cinv (dH N n).
Lemma evenD_dH N : evenD (dH N). Proof. intro n. unfold dH. now rewrite wH_even. Qed.
Lemma evenD_dHi N : evenD (dHi N). Proof. intro n. unfold dHi. now rewrite evenD_dH. Qed.
Lemma dH_neq0 N n : (0 < N)%nat -> in_freq N n -> dH N n <> RtoC 0.
Proof. intros HN Hn E. apply RtoC_inj in E. now apply (wH_neq0 N n). Qed.
Lemma I_space_fm f : (0 < length f)%nat -> let h := hstep (length f) in I_space (- h / 2) (h / 2) f = fm (dH (length f)) f.
Proof.
  intros L h. unfold I_space, I_diag. rewrite (vmul_F_fm f (fun n => I_entry n (- h / 2) (h / 2))) by auto.
  apply fm_ext. intros. apply I_entry_sym.
Qed.
Lemma I_space_inv_fm f : (0 < length f)%nat -> let h := hstep (length f) in I_space_inv (- h / 2) (h / 2) f = fm (dHi (length f)) f.
Proof.
  intros L h. unfold I_space_inv, I_diag. rewrite (vdiv_F_fm f (fun n => I_entry n (- h / 2) (h / 2))) by auto.
  apply fm_ext. intros. unfold dHi, dH. f_equal. apply I_entry_sym.
Qed.
Lemma fm_dHi_dH x : (0 < length x)%nat -> fm (dHi (length x)) (fm (dH (length x)) x) = x.
Proof.
  intro L. rewrite fm_fm. transitivity (fm (fun _ => RtoC 1) x); [|apply fm_1]. apply fm_ext. intros n Hn. apply Cinv_r. now apply dH_neq0.
Qed.
Lemma fm_dH_dHi x : (0 < length x)%nat -> fm (dH (length x)) (fm (dHi (length x)) x) = x.
Proof.
  intro L. rewrite fm_fm. transitivity (fm (fun _ => RtoC 1) x); [|apply fm_1]. apply fm_ext. intros n Hn. apply Cinv_l. now apply dH_neq0.
Qed.

(** the entries of A_diag *)
Definition Aw (n i : nat) : R := if (Nat.eqb i 0 || Nat.eqb i (n - 1))%bool then /2 else 1.
Lemma Aw_neq0 n i : Aw n i <> 0. Proof. unfold Aw. destruct (_ || _)%bool; lra. Qed.
Lemma A_diag_tab n : (2 <= n)%nat -> A_diag n = Ok (tab n (Aw n)).
Proof.
  intro L. unfold A_diag. destruct (Nat.ltb_spec 1 n); [|lia]. f_equal.
  apply list_eq_nth with (d := 0); [len; lia|]. intros i Hi. len. rewrite nth_tab by lia. unfold Aw.
  rewrite nth_app_. cbn [length]. destruct (Nat.ltb_spec i 1).
  - replace i with 0%nat by lia. reflexivity.
  - rewrite nth_app_, repeat_length. destruct (Nat.eqb_spec i 0); [lia|]. cbn [orb].
    destruct (Nat.ltb_spec (i - 1) (n - 2)).
    + rewrite nth_repeat_lt || rewrite (nth_indep _ 0 1) by (rewrite repeat_length; lia); rewrite nth_repeat. destruct (Nat.eqb_spec i (n - 1)); [lia|reflexivity].
    + replace (i - 1 - (n - 2))%nat with 0%nat by lia. destruct (Nat.eqb_spec i (n - 1)); [reflexivity|lia].
Qed.
Lemma vmul_vdiv (u d : list C) : length u = length d -> (forall i, (i < length d)%nat -> nth i d (RtoC 0) <> RtoC 0) -> vdiv (vmul u d) d = u /\ vmul (vdiv u d) d = u.
Proof.
  intros L Hd. unfold vdiv, vmul. split; apply list_eq_nth with (d := RtoC 0); len; try lia; intros i Hi;
   rewrite !nth_zipw with (dx := RtoC 0) (dy := RtoC 0) by (len; lia); change (@nmul C NumC) with Cmult; field; apply Hd; lia.
Qed.
Lemma A_neq0 n i : (i < length (cplxv (tab n (Aw n))))%nat -> nth i (cplxv (tab n (Aw n))) (RtoC 0) <> RtoC 0.
Proof.
  rewrite length_cplxv, length_tab. intros Hi. unfold cplxv. rewrite map_tab, nth_tab by auto. intro E. apply RtoC_inj in E. now apply (Aw_neq0 n i).
Qed.

Lemma H0_regular_val f : (2 <= length f)%nat ->
  H0_regular f = Ok (vmul (unmirror0 (fm (dH (2 * (length f - 1))) (mirror0 (RtoC 1) f))) (cplxv (tab (length f) (Aw (length f))))).
Proof.
  intro L. unfold H0_regular. set (m := mirror0 (RtoC 1) f). assert (length m = (2 * (length f - 1))%nat) as Lm by now apply length_mirror0'.
  unfold with_h. destruct (length m) as [|k] eqn:E; [lia|]. rewrite <- E in *. rewrite I_space_fm by lia.
  assert (length (unmirror0 (fm (dH (length m)) m)) = length f) as -> by (unfold unmirror0; rewrite firstn_length, length_fm; lia).
  rewrite A_diag_tab by auto. simpl. rewrite Lm. reflexivity.
Qed.
Lemma H1d_regular_val f : (2 <= length f)%nat ->
  H1d_regular f = Ok (unmirror0 (fm (dHi (2 * (length f - 1))) (mirror0 (RtoC 1) (vdiv f (cplxv (tab (length f) (Aw (length f)))))))).
Proof.
  intro L. unfold H1d_regular. rewrite A_diag_tab by auto. cbn [bind]. set (f' := vdiv f _). 
  assert (length f' = length f) as Lf by (unfold f', vdiv; rewrite length_zipw, length_cplxv, length_tab; lia).
  set (m := mirror0 (RtoC 1) f'). assert (length m = (2 * (length f - 1))%nat) as Lm by (unfold m; rewrite length_mirror0'; lia).
  unfold with_h. destruct (length m) as [|k] eqn:E; [lia|]. rewrite <- E in *. rewrite I_space_inv_fm by lia. now rewrite Lm.
Qed.
Lemma H0d_regular_val f : (1 <= length f)%nat -> H0d_regular f = Ok (unmirror1 (fm (dH (2 * length f)) (mirror1 (RtoC 1) f))).
Proof.
  intro L. unfold H0d_regular. set (m := mirror1 (RtoC 1) f). assert (length m = (2 * length f)%nat) as Lm by apply length_mirror1.
  unfold with_h. destruct (length m) as [|k] eqn:E; [lia|]. rewrite <- E in *. rewrite I_space_fm by lia. now rewrite Lm.
Qed.
Lemma H1_regular_val f : (1 <= length f)%nat -> H1_regular f = Ok (unmirror1 (fm (dHi (2 * length f)) (mirror1 (RtoC 1) f))).
Proof.
  intro L. unfold H1_regular. set (m := mirror1 (RtoC 1) f). assert (length m = (2 * length f)%nat) as Lm by apply length_mirror1.
  unfold with_h. destruct (length m) as [|k] eqn:E; [lia|]. rewrite <- E in *. rewrite I_space_inv_fm by lia. now rewrite Lm.
Qed.
Lemma length_un0 D f : (2 <= length f)%nat -> length (unmirror0 (fm D (mirror0 (RtoC 1) f))) = length f.
Proof. intro L. unfold unmirror0. rewrite firstn_length, length_fm, length_mirror0' by auto. lia. Qed.
Lemma length_un1 D s f : length (unmirror1 (fm D (mirror1 s f))) = length f.
Proof. unfold unmirror1. rewrite firstn_length, length_fm, length_mirror1. lia. Qed.
Lemma reg_inv0 f : (2 <= length f)%nat -> bind (H0_regular f) H1d_regular = Ok f.
Proof.
  intro L. rewrite H0_regular_val by auto. cbn [bind]. set (n := length f) in *. set (m := mirror0 (RtoC 1) f).
  set (u := unmirror0 (fm (dH (2 * (n - 1))) m)). assert (length u = n) as Lu by (apply length_un0; auto).
  set (d := cplxv (tab n (Aw n))). assert (length d = n) as Ld by (unfold d; rewrite length_cplxv, length_tab; auto).
  assert (length (vmul u d) = n) as Lv by (unfold vmul; rewrite length_zipw; lia).
  rewrite H1d_regular_val by lia. rewrite Lv. fold d.
  destruct (vmul_vdiv u d) as [-> _]; [lia|intros; apply A_neq0; auto|].
  f_equal. unfold u, m. rewrite mirror0_fm by (auto; apply evenD_dH). fold m.
  assert (length m = (2 * (n - 1))%nat) as Lm by now apply length_mirror0'. rewrite <- Lm, fm_dHi_dH by lia. apply unmirror0_mirror0.
Qed.
Lemma reg_inv0' f : (2 <= length f)%nat -> bind (H1d_regular f) H0_regular = Ok f.
Proof.
  intro L. rewrite H1d_regular_val by auto. cbn [bind]. set (n := length f) in *. 
  set (d := cplxv (tab n (Aw n))). assert (length d = n) as Ld by (unfold d; rewrite length_cplxv, length_tab; auto).
  set (g := vdiv f d). assert (length g = n) as Lg by (unfold g, vdiv; rewrite length_zipw; unfold n in *; lia).
  set (m := mirror0 (RtoC 1) g). assert (length m = (2 * (n - 1))%nat) as Lm by (unfold m; rewrite length_mirror0'; lia).
  unfold m; rewrite H0_regular_val by (rewrite length_un0; lia). rewrite length_un0 by lia. rewrite Lg.
  rewrite mirror0_fm by (lia || apply evenD_dHi). fold m. rewrite <- Lm, fm_dH_dHi by lia.
  unfold m. rewrite unmirror0_mirror0. fold d. f_equal. unfold g. apply vmul_vdiv; [unfold n in *; lia|intros; apply A_neq0; auto].
Qed.
Lemma reg_inv1 f : (1 <= length f)%nat -> bind (H0d_regular f) H1_regular = Ok f.
Proof.
  intro L. rewrite H0d_regular_val by auto. cbn [bind]. rewrite H1_regular_val by (rewrite length_un1; auto). rewrite length_un1.
  rewrite mirror1_fm by (ring || apply evenD_dH). assert (length (mirror1 (RtoC 1) f) = (2 * length f)%nat) as Lm by apply length_mirror1.
  rewrite <- Lm, fm_dHi_dH by lia. now rewrite unmirror1_mirror1.
Qed.
Lemma reg_inv1' f : (1 <= length f)%nat -> bind (H1_regular f) H0d_regular = Ok f.
Proof.
  intro L. rewrite H1_regular_val by auto. cbn [bind]. rewrite H0d_regular_val by (rewrite length_un1; auto). rewrite length_un1.
  rewrite mirror1_fm by (ring || apply evenD_dHi). assert (length (mirror1 (RtoC 1) f) = (2 * length f)%nat) as Lm by apply length_mirror1.
  rewrite <- Lm, fm_dH_dHi by lia. now rewrite unmirror1_mirror1.
Qed.
