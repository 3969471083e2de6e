(** Integrals over the reference triangle {s, t >= 0, s + t <= 1}: Fubini, symmetry and Green's theorem. *)
From Coq Require Import ZArith Reals List Lia Lra.
From Coquelicot Require Import Coquelicot.
From Verif Require Import Spec.Plane Proofs.RIntLemmas Proofs.Fubini.
Local Open Scope R_scope.
Ltac req := match goal with |- @eq _ ?a ?b => change (@eq R a b) end.

(** composition of a continuous function of the plane with affine maps *)
Lemma cont2_comp f (g h : R -> R -> R) : cont2 f -> cont2 g -> cont2 h -> cont2 (fun x y => f (g x y) (h x y)).
Proof.
  intros Hf Hg Hh x y eps. destruct (Hf (g x y) (h x y) eps) as (d & Hd). destruct (Hg x y d) as (d1 & H1). destruct (Hh x y d) as (d2 & H2).
  assert (0 < Rmin d1 d2) as Hm by (apply Rmin_glb_lt; apply cond_pos). exists (mkposreal _ Hm). intros u v Hu Hv. cbn in Hu, Hv. pose proof (Rmin_l d1 d2). pose proof (Rmin_r d1 d2).
  apply Hd; [apply H1|apply H2]; lra.
Qed.
Lemma cont2_const c : cont2 (fun _ _ => c).
Proof. intros x y. apply continuity_2d_pt_const. Qed.
Lemma cont2_1 : cont2 (fun x _ => x).
Proof. intros x y. apply continuity_2d_pt_id1. Qed.
Lemma cont2_2 : cont2 (fun _ y => y).
Proof. intros x y. apply continuity_2d_pt_id2. Qed.
Lemma cont2_plus f g : cont2 f -> cont2 g -> cont2 (fun x y => f x y + g x y).
Proof. intros Hf Hg x y. now apply continuity_2d_pt_plus. Qed.
Lemma cont2_mult f g : cont2 f -> cont2 g -> cont2 (fun x y => f x y * g x y).
Proof. intros Hf Hg x y. now apply continuity_2d_pt_mult. Qed.
Lemma cont2_opp f : cont2 f -> cont2 (fun x y => - f x y).
Proof. intros Hf x y. now apply continuity_2d_pt_opp. Qed.
Ltac c2 := repeat first [assumption | apply cont2_const | apply cont2_1 | apply cont2_2 | apply cont2_plus | apply cont2_minus | apply cont2_mult | apply cont2_opp].

(** the inner integral, with a moving end *)
Definition inn (f : R -> R -> R) (s b : R) : R := RInt (fun t => f s t) 0 b.
Lemma inn_alt f s b : cont2 f -> inn f s b = b * RInt (fun u => f s (b * u)) 0 1.
Proof.
  intro Hf. unfold inn. assert (ex_RInt (fun t => f s t) (b * 0 + 0) (b * 1 + 0)) as Ex by (apply ex_RInt_cont_all; intro; now apply cont2_y).
  pose proof (RInt_comp_lin (fun t => f s t) b 0 0 1 Ex) as E. rewrite Rmult_0_r, Rmult_1_r, !Rplus_0_r in E. rewrite <- E.
  transitivity (RInt (fun u => b * f s (b * u)) 0 1).
  - apply RInt_ext. intros u _. unfold scal; cbn; unfold mult; cbn. now rewrite Rplus_0_r.
  - apply RInt_scal_R. apply ex_RInt_cont_all. intro u. apply (cont2_y (fun s u => f s (b * u))). apply (cont2_comp f (fun s _ => s) (fun _ u => b * u)); c2.
Qed.
Lemma inn_cont f a s : cont2 f -> continuous (fun s => inn f s (a - s)) s.
Proof.
  intro Hf. apply (continuous_ext (fun s => (a - s) * RInt (fun u => f s ((a - s) * u)) 0 1)); [intro; symmetry; now apply inn_alt|].
  apply (continuous_mult (K := R_AbsRing) (fun s => a - s) (fun s => RInt (fun u => f s ((a - s) * u)) 0 1)); [apply (continuous_minus (V := R_NormedModule) (fun _ => a) (fun s => s)); [apply continuous_const|apply continuous_id]|].
  apply (RInt_param_cont (fun u s => f s ((a - s) * u))). apply (cont2_comp f (fun u s => s) (fun u s => (a - s) * u)); c2.
Qed.
Lemma inn_derive f s a : cont2 f -> is_derive (fun a => inn f s (a - s)) a (f s (a - s)).
Proof.
  intro Hf. evar_last.
  - apply (is_derive_comp (fun b => inn f s b) (fun a => a - s)).
    + apply (is_derive_RInt (fun t => f s t) (fun b => inn f s b) 0).
      * exists (mkposreal 1 Rlt_0_1). intros w _. apply (RInt_correct (fun t => f s t)). apply ex_RInt_cont_all. intro; now apply cont2_y.
      * now apply cont2_y.
    + auto_derive; auto.
  - unfold scal; cbn; unfold mult; cbn. ring.
Qed.
(** the integral over the triangle of size a *)
Definition tri (f : R -> R -> R) (a : R) : R := RInt (fun s => inn f s (a - s)) 0 a.
Lemma tri_derive f a : cont2 f -> is_derive (tri f) a (RInt (fun s => f s (a - s)) 0 a).
Proof.
  intro Hf. assert (cont2 (fun a s => f s (a - s))) as Hc by (apply (cont2_comp f (fun a s => s) (fun a s => a - s)); c2).
  assert (forall x t, continuity_2d_pt (fun u v => Derive (fun z => inn f v (z - v)) u) x t) as HD.
  { intros x t. apply (continuity_2d_pt_ext (fun a s => f s (a - s))); [intros u v; symmetry; apply is_derive_unique, inn_derive; auto|apply Hc]. }
  assert (forall y c d, ex_RInt (fun t => inn f t (y - t)) c d) as Ex by (intros; apply ex_RInt_cont_all; intro; now apply inn_cont).
  evar_last.
  - apply (is_derive_RInt_param_bound_comp (fun a s => inn f s (a - s)) (fun _ => 0) (fun a => a) a 0 1).
    + exists (mkposreal 1 Rlt_0_1). intros; apply Ex.
    + exists (mkposreal 1 Rlt_0_1), (mkposreal 1 Rlt_0_1). intros; apply Ex.
    + exists (mkposreal 1 Rlt_0_1), (mkposreal 1 Rlt_0_1). intros; apply Ex.
    + apply (@is_derive_const R_AbsRing).
    + apply (@is_derive_id R_AbsRing).
    + exists (mkposreal 1 Rlt_0_1), (mkposreal 1 Rlt_0_1). intros y _ t _. exists (f t (y - t)). now apply inn_derive.
    + intros; apply HD.
    + exists (mkposreal 1 Rlt_0_1). intros; apply HD.
    + exists (mkposreal 1 Rlt_0_1). intros; apply HD.
    + apply continuity_pt_filterlim. exact (inn_cont f a 0 Hf).
    + apply continuity_pt_filterlim. exact (inn_cont f a a Hf).
  - cbv beta. replace (inn f a (a - a)) with 0. 2: { unfold inn. replace (a - a) with 0 by ring. symmetry. exact (RInt_point 0 (fun t => f a t)). }
    rewrite Rmult_0_r, Rmult_0_l, !Rplus_0_r. apply RInt_ext. intros s _. apply is_derive_unique. now apply inn_derive.
Qed.
Lemma RInt_reflect (g : R -> R) a : (forall x, continuous g x) -> RInt (fun t => g (a - t)) 0 a = RInt g 0 a.
Proof.
  intro Hg. assert (forall c d, ex_RInt g c d) as Ex by (intros; now apply ex_RInt_cont_all).
  pose proof (RInt_comp_lin g (-1) a 0 a (Ex _ _)) as E. replace (-1 * 0 + a) with a in E by ring. replace (-1 * a + a) with 0 in E by ring.
  assert (RInt g 0 a = opp (RInt g a 0)) as -> by (symmetry; apply opp_RInt_swap, Ex). rewrite <- E.
  rewrite <- (RInt_opp (V := R_CompleteNormedModule) (fun y => scal (-1) (g (-1 * y + a)))).
  - apply RInt_ext. intros t _. unfold scal, opp; cbn; unfold mult; cbn. replace (-1 * t + a) with (a - t) by ring. ring.
  - apply ex_RInt_cont_all. intro t. apply (continuous_scal_r (-1) (fun y => g (-1 * y + a))). apply (continuous_comp (fun y => -1 * y + a) g); [|apply Hg].
    apply (ex_derive_continuous (fun y => -1 * y + a)). auto_derive; auto.
Qed.
Lemma tri_0 f : tri f 0 = 0.
Proof. exact (RInt_point 0 (fun s => inn f s (0 - s))). Qed.
(** Fubini on the triangle *)
Lemma tri_fubini f a : cont2 f -> tri (fun s t => f t s) a = tri f a.
Proof.
  intro Hf. pose proof (cont2_swap f Hf) as Hs. pose (h := fun a => tri (fun s t => f t s) a - tri f a).
  assert (forall a, is_derive h a 0) as Dh.
  { intro u. unfold h. evar_last; [apply (is_derive_minus (V := R_NormedModule)); [apply (tri_derive (fun s t => f t s)); auto|apply tri_derive; auto]|]. change (minus ?p ?q) with (p - q)%R. cbv beta.
    assert (RInt (fun s => f (u - s) s) 0 u = RInt (fun s => f s (u - s)) 0 u) as ->; [|ring].
    rewrite <- (RInt_reflect (fun s => f s (u - s))).
    - apply RInt_ext. intros x _. now replace (u - (u - x)) with x by ring.
    - intro x. apply (cont2_x (fun s u => f s (u - s))). apply (cont2_comp f (fun s _ => s) (fun s u => u - s)); c2. }
  assert (h a = h 0) as Hb.
  { destruct (Rle_dec 0 a) as [H|H].
    - destruct (Rle_lt_or_eq_dec _ _ H) as [L| <-]; [|reflexivity]. symmetry. apply (eq_is_derive (V := R_NormedModule) h 0 a); auto.
    - apply (eq_is_derive (V := R_NormedModule) h a 0); auto. lra. }
  unfold h in Hb. rewrite !tri_0 in Hb. lra.
Qed.
(** t -> 1 - s - t *)
Lemma tri_reflect f : cont2 f -> tri (fun s t => f s (1 - s - t)) 1 = tri f 1.
Proof.
  intro Hf. unfold tri, inn. apply RInt_ext. intros s _. apply (RInt_reflect (fun t => f s t)). intro; now apply cont2_y.
Qed.
Lemma tri_ext f g a : (forall s t, f s t = g s t) -> tri f a = tri g a.
Proof. intro E. unfold tri, inn. apply RInt_ext. intros s _. apply RInt_ext. intros t _. apply E. Qed.
Lemma tri_plus f g a : cont2 f -> cont2 g -> tri (fun s t => f s t + g s t) a = tri f a + tri g a.
Proof.
  intros Hf Hg. unfold tri, inn. transitivity (RInt (fun s => inn f s (a - s) + inn g s (a - s)) 0 a).
  - apply RInt_ext. intros s _. apply RInt_plus_R; apply ex_RInt_cont_all; intro; now apply cont2_y.
  - apply RInt_plus_R; apply ex_RInt_cont_all; intro; now apply inn_cont.
Qed.
Lemma tri_scal k f a : cont2 f -> tri (fun s t => k * f s t) a = k * tri f a.
Proof.
  intros Hf. unfold tri, inn. transitivity (RInt (fun s => k * inn f s (a - s)) 0 a).
  - apply RInt_ext. intros s _. apply RInt_scal_R. apply ex_RInt_cont_all; intro; now apply cont2_y.
  - apply RInt_scal_R. apply ex_RInt_cont_all; intro; now apply inn_cont.
Qed.
Lemma tri_le f g a : 0 <= a -> cont2 f -> cont2 g -> (forall s t, 0 <= s -> 0 <= t -> s + t <= a -> f s t <= g s t) -> tri f a <= tri g a.
Proof.
  intros Ha Hf Hg H. apply RInt_le; auto; try (apply ex_RInt_cont_all; intro; now apply inn_cont).
  intros s Hs. apply RInt_le; [lra| | |]; try (apply ex_RInt_cont_all; intro; now apply cont2_y). intros t Ht. apply H; lra.
Qed.
Lemma tri_const c a : tri (fun _ _ => c) a = c * (a ^ 2 / 2).
Proof.
  unfold tri, inn. rewrite (RInt_ext _ (fun s => c * (a - s))) by (intros s _; rewrite RInt_const; unfold scal; cbn; unfold mult; cbn; ring).
  apply is_RInt_unique. replace (c * (a ^ 2 / 2)) with (c * (a * a - a ^ 2 / 2) - c * (a * 0 - 0 ^ 2 / 2)) by field.
  apply (is_RInt_der (fun s => c * (a * s - s ^ 2 / 2)) (fun s => c * (a - s))).
  - intro s. auto_derive; auto. field.
  - intro s. apply (ex_derive_continuous (fun s => c * (a - s))). auto_derive; auto.
Qed.
Lemma tri_s a : tri (fun s _ => s) a = a ^ 3 / 6.
Proof.
  unfold tri, inn. rewrite (RInt_ext _ (fun s => s * (a - s))) by (intros s _; rewrite RInt_const; unfold scal; cbn; unfold mult; cbn; ring).
  apply is_RInt_unique. replace (a ^ 3 / 6) with ((a * a ^ 2 / 2 - a ^ 3 / 3) - (a * 0 ^ 2 / 2 - 0 ^ 3 / 3)) by field.
  apply (is_RInt_der (fun s => a * s ^ 2 / 2 - s ^ 3 / 3) (fun s => s * (a - s))).
  - intro s. auto_derive; auto. field.
  - intro s. apply (ex_derive_continuous (fun s => s * (a - s))). auto_derive; auto.
Qed.
Lemma tri_t a : tri (fun _ t => t) a = a ^ 3 / 6.
Proof. rewrite <- (tri_s a). symmetry. apply (tri_fubini (fun s t => t)). c2. Qed.
(** Green's theorem on the reference triangle *)
Lemma RInt_derive_all (g g' : R -> R) a b : (forall x, is_derive g x (g' x)) -> (forall x, continuous g' x) -> RInt g' a b = g b - g a.
Proof. intros D C. apply is_RInt_unique. apply (is_RInt_der g); auto. Qed.
Lemma tri_dt P Pt : partial_y P Pt -> cont2 Pt -> cont2 P -> tri Pt 1 = RInt (fun s => P s (1 - s) - P s 0) 0 1.
Proof. intros D C _. unfold tri, inn. apply RInt_ext. intros s _. apply (RInt_derive_all (fun t => P s t)); [apply D|intro; now apply cont2_y]. Qed.
Lemma tri_ds Q Qs : partial_x Q Qs -> cont2 Qs -> cont2 Q -> tri Qs 1 = RInt (fun t => Q (1 - t) t - Q 0 t) 0 1.
Proof.
  intros D C Cq. rewrite <- (tri_fubini Qs) by auto. apply (tri_dt (fun t s => Q s t)); [intros x y; apply D|now apply cont2_swap|now apply cont2_swap].
Qed.
