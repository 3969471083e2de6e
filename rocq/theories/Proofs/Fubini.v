(** Parametric integrals of continuous functions of two variables; Fubini on rectangles. *)
From Coq Require Import ZArith Reals List Lia Lra.
From Coquelicot Require Import Coquelicot.
From Verif Require Import Spec.Plane Proofs.RIntLemmas.
Local Open Scope R_scope.

Lemma cont2_swap f : cont2 f -> cont2 (fun x y => f y x).
Proof.
  intros H x y eps. destruct (H y x eps) as (d & Hd). exists d. intros u v Hu Hv. now apply Hd.
Qed.
Lemma cont2_x f y x : cont2 f -> continuous (fun x => f x y) x.
Proof.
  intro H. apply (proj2 (filterlim_locally _ _)). intro eps. destruct (H x y eps) as (d & Hd). exists d. intros u Hu.
  apply (Hd u y); [exact Hu|]. rewrite Rminus_eq_0, Rabs_R0. apply cond_pos.
Qed.
Lemma cont2_y f x y : cont2 f -> continuous (fun y => f x y) y.
Proof. intro H. apply (cont2_x (fun y x => f x y) x y). now apply cont2_swap. Qed.
Lemma cont2_minus f g : cont2 f -> cont2 g -> cont2 (fun x y => f x y - g x y).
Proof. intros Hf Hg x y. now apply continuity_2d_pt_minus. Qed.

(** a parametric integral is continuous in the parameter *)
Lemma RInt_param_cont_le f a b y : a <= b -> cont2 f -> continuous (fun y => RInt (fun x => f x y) a b) y.
Proof.
  intros Hab Hf. apply (proj2 (filterlim_locally _ _)). intro eps.
  assert (0 < b - a + 1) as Hp by lra.
  assert (0 < eps / (b - a + 1)) as He by (apply Rdiv_lt_0_compat; [apply cond_pos|lra]).
  destruct (uniform_continuity_2d_1d f a b y (fun x _ => Hf x y) (mkposreal _ He)) as (d & Hd). exists d. intros v Hv.
  change (Rabs (RInt (fun x => f x v) a b - RInt (fun x => f x y) a b) < eps).
  assert (forall v, ex_RInt (fun x => f x v) a b) as Ex by (intro w; apply ex_RInt_cont_all; intro x; now apply cont2_x).
  rewrite <- RInt_minus_R by auto.
  apply Rle_lt_trans with ((b - a) * (eps / (b - a + 1))).
  - apply abs_RInt_le_const; auto.
    + apply (ex_RInt_minus (V := R_NormedModule) (fun x => f x v) (fun x => f x y)); auto.
    + intros t Ht. left. change (Rabs (v - y) < d) in Hv. apply Rabs_def2 in Hv. pose proof (cond_pos d).
      apply (Hd t y t v); try lra. rewrite Rminus_eq_0, Rabs_R0. lra.
  - pose proof (cond_pos eps). apply (Rmult_lt_reg_r (b - a + 1)); auto. unfold Rdiv. rewrite Rmult_assoc, Rmult_assoc, Rinv_l by lra. nra.
Qed.
Lemma RInt_param_cont f a b y : cont2 f -> continuous (fun y => RInt (fun x => f x y) a b) y.
Proof.
  intro Hf. destruct (Rle_dec a b) as [H|H]; [now apply RInt_param_cont_le|].
  apply (continuous_ext (fun y => opp (RInt (fun x => f x y) b a))).
  - intro v. rewrite opp_RInt_swap; auto. apply ex_RInt_cont_all. intro; now apply cont2_x.
  - apply (continuous_opp (V := R_NormedModule)). apply RInt_param_cont_le; auto; lra.
Qed.
(** differentiation under the integral sign *)
Lemma RInt_param_derive f fy a b y : partial_y f fy -> cont2 fy -> (forall y x, continuous (fun x => f x y) x) ->
  is_derive (fun y => RInt (fun x => f x y) a b) y (RInt (fun x => fy x y) a b).
Proof.
  intros Hp Hc Hx. evar_last.
  - apply (is_derive_RInt_param (fun y x => f x y)).
    + exists (mkposreal 1 Rlt_0_1). intros v _ t _. exists (fy t v). apply Hp.
    + intros t _. apply (continuity_2d_pt_ext (fun u v => fy v u)); [intros u v; symmetry; apply is_derive_unique, Hp|]. now apply cont2_swap.
    + exists (mkposreal 1 Rlt_0_1). intros v _. apply ex_RInt_cont_all. apply Hx.
  - apply RInt_ext. intros x _. apply is_derive_unique, Hp.
Qed.
(** Fubini *)
Lemma RInt_double_derive f a c d b : cont2 f -> is_derive (fun b => RInt (fun y => RInt (fun x => f x y) a b) c d) b (RInt (fun y => f b y) c d).
Proof.
  intro Hf. assert (forall b y, is_derive (fun b => RInt (fun x => f x y) a b) b (f b y)) as D.
  { intros u y. apply (is_derive_RInt (fun x => f x y) (fun b => RInt (fun x => f x y) a b) a).
    - exists (mkposreal 1 Rlt_0_1). intros w _. apply (RInt_correct (fun x => f x y)). apply ex_RInt_cont_all. intro; now apply cont2_x.
    - now apply cont2_x. }
  evar_last.
  - apply (is_derive_RInt_param (fun b y => RInt (fun x => f x y) a b)).
    + exists (mkposreal 1 Rlt_0_1). intros v _ t _. exists (f v t). apply D.
    + intros t _. apply (continuity_2d_pt_ext f); [intros u v; symmetry; apply is_derive_unique, D|]. apply Hf.
    + exists (mkposreal 1 Rlt_0_1). intros v _. apply ex_RInt_cont_all. intro y. now apply RInt_param_cont.
  - apply RInt_ext. intros y _. apply is_derive_unique, D.
Qed.
Lemma fubini f a b c d : cont2 f -> RInt (fun y => RInt (fun x => f x y) a b) c d = RInt (fun x => RInt (fun y => f x y) c d) a b.
Proof.
  intro Hf.
  assert (forall b, is_derive (fun b => RInt (fun x => RInt (fun y => f x y) c d) a b) b (RInt (fun y => f b y) c d)) as D2.
  { intro u. assert (forall x, continuous (fun x => RInt (fun y => f x y) c d) x) as Hc.
    { intro x. apply (RInt_param_cont (fun y x => f x y)). now apply cont2_swap. }
    apply (is_derive_RInt (fun x => RInt (fun y => f x y) c d) (fun b => RInt (fun x => RInt (fun y => f x y) c d) a b) a).
    - exists (mkposreal 1 Rlt_0_1). intros w _. apply (RInt_correct (fun x => RInt (fun y => f x y) c d)). now apply ex_RInt_cont_all.
    - apply Hc. }
  pose (h := fun b => RInt (fun y => RInt (fun x => f x y) a b) c d - RInt (fun x => RInt (fun y => f x y) c d) a b).
  assert (forall b, is_derive h b 0) as Dh.
  { intro u. unfold h. evar_last; [apply (is_derive_minus (V := R_NormedModule)); [apply RInt_double_derive; auto|apply D2]|]. change (minus ?p ?q) with (p - q)%R. apply Rminus_eq_0. }
  assert (h a = 0) as H0.
  { unfold h. assert (RInt (fun x => RInt (fun y => f x y) c d) a a = 0) as -> by exact (RInt_point a (fun x => RInt (fun y => f x y) c d)).
    assert (RInt (fun y => RInt (fun x => f x y) a a) c d = RInt (fun _ => 0) c d) as -> by (apply RInt_ext; intros y _; exact (RInt_point a (fun x => f x y))).
    rewrite RInt_const. change (scal (d - c) 0 - 0) with ((d - c) * 0 - 0)%R. ring. }
  assert (h b = h a) as Hb.
  { destruct (Rle_dec a b) as [H|H].
    - destruct (Rle_lt_or_eq_dec _ _ H) as [L| ->]; [|reflexivity]. symmetry. apply (eq_is_derive (V := R_NormedModule) h a b); auto.
    - apply (eq_is_derive (V := R_NormedModule) h b a); auto. lra. }
  rewrite H0 in Hb. unfold h in Hb. lra.
Qed.
