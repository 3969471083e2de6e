(** C75: the integrals over segments, triangles and polygons of dec/integrate.py: Stokes' theorem (also C68),
    the averages, and the agreement of the symbolic and the numeric versions. *)
From Coq Require Import Reals List Lia Lra.
From Coquelicot Require Import Coquelicot.
From Verif Require Import Model.Num Model.Np Model.Integrate Spec.Poly Spec.Plane Proofs.ListLemmas Proofs.RIntLemmas Proofs.Fubini Proofs.Triangle Props.Integrate.
Import ListNotations.
Local Open Scope R_scope.

(** the 1-form fx dx + fy dy, and the sum of its integrals along the edges of a closed polygon *)
Definition form1 (fx fy : R -> R -> R) : R -> R -> point := fun x y => (fx x y, fy x y).
Fixpoint path (f : R -> R -> point) (l : list point) : R := match l with p :: ((q :: _) as l') => integrate_1form (p, q) f + path f l' | _ => 0 end.
Definition circulation (f : R -> R -> point) (l : list point) : R := match l with [] => 0 | a :: _ => path f (l ++ [a]) end.

Lemma cont_form1 fx fy : cont2 fx -> cont2 fy -> continuous_form (form1 fx fy).
Proof. intros A B x y. split; [exact (A x y)|exact (B x y)]. Qed.
Lemma C1_differentiable f fx fy x y : C1_with f fx fy -> differentiable_pt_lim f x y (fx x y) (fy x y).
Proof.
  intros (Hx & Hy & Cx & Cy). apply filterdiff_differentiable_pt_lim. 
  apply (filterdiff_ext_lin _ (fun u : R * R => plus (scal (fst u) (fx x y)) (scal (snd u) (fy x y)))); [|reflexivity].
  apply (is_derive_filterdiff f x y fx (fy x y)).
  - apply filter_forall. intros [u v]. apply Hx.
  - apply Hy.
  - apply continuity_2d_pt_filterlim. apply Cx.
Qed.
Lemma C1_cont f fx fy : C1_with f fx fy -> cont2 f.
Proof. intros H x y. apply differentiable_continuity_pt. exists (fx x y), (fy x y). now apply C1_differentiable. Qed.
(** chain rule along a line *)
Lemma C1_line f fx fy x0 y0 dx dy t : C1_with f fx fy -> is_derive (fun t => f (x0 + t * dx) (y0 + t * dy)) t (fx (x0 + t * dx) (y0 + t * dy) * dx + fy (x0 + t * dx) (y0 + t * dy) * dy).
Proof.
  intro H. apply is_derive_Reals. apply (derivable_pt_lim_comp_2d f (fun t => x0 + t * dx) (fun t => y0 + t * dy)); [now apply C1_differentiable| |]; apply is_derive_Reals; auto_derive; auto; ring.
Qed.

Lemma is_derive_mulc (f : R -> R) x l k : is_derive f x l -> is_derive (fun t => f t * k) x (l * k).
Proof.
  intro H. replace (l * k) with (k * l) by ring. apply (is_derive_ext (fun t => k * f t)); [intro; req; ring|]. now apply (is_derive_scal f x k).
Qed.
Section Tri.
Variables (x0 y0 x1 y1 x2 y2 : R).
Notation X s t := (x0 + s * (x1 - x0) + t * (x2 - x0)).
Notation Y s t := (y0 + s * (y1 - y0) + t * (y2 - y0)).
Notation A := ((x1 - x0) * (y2 - y0) - (y1 - y0) * (x2 - x0)).
(** a function of the plane read on the reference triangle *)
Definition pull (f : R -> R -> R) (s t : R) : R := f (X s t) (Y s t).
Lemma pull_cont f : cont2 f -> cont2 (pull f).
Proof. intro H. apply (cont2_comp f (fun s t => X s t) (fun s t => Y s t)); c2. Qed.
Lemma pull_ds f fx fy s t : C1_with f fx fy -> is_derive (fun s => pull f s t) s (pull fx s t * (x1 - x0) + pull fy s t * (y1 - y0)).
Proof.
  intro H. pose proof (C1_line f fx fy (x0 + t * (x2 - x0)) (y0 + t * (y2 - y0)) (x1 - x0) (y1 - y0) s H) as D.
  assert (forall s, x0 + t * (x2 - x0) + s * (x1 - x0) = X s t) as E1 by (intro; ring). assert (forall s, y0 + t * (y2 - y0) + s * (y1 - y0) = Y s t) as E2 by (intro; ring).
  rewrite E1, E2 in D. unfold pull. eapply is_derive_ext; [|exact D]. intro u. cbv beta. now rewrite E1, E2.
Qed.
Lemma pull_dt f fx fy s t : C1_with f fx fy -> is_derive (fun t => pull f s t) t (pull fx s t * (x2 - x0) + pull fy s t * (y2 - y0)).
Proof. intro H. unfold pull. exact (C1_line f fx fy (x0 + s * (x1 - x0)) (y0 + s * (y1 - y0)) (x2 - x0) (y2 - y0) t H). Qed.
Lemma tri_integral_tri f : cont2 f -> tri_integral ((x0, y0), (x1, y1), (x2, y2)) f = A * tri (pull f) 1.
Proof.
  intro H. rewrite <- tri_fubini by now apply pull_cont. rewrite <- tri_scal by now apply cont2_swap, pull_cont.
  unfold tri_integral, tri, inn. apply RInt_ext. intros v _. apply RInt_ext. intros u _. req. unfold pull. ring.
Qed.
(** Green's theorem on a triangle *)
Lemma green fx fy fxx fxy fyx fyy : C1_with fx fxx fxy -> C1_with fy fyx fyy ->
  tri_integral ((x0, y0), (x1, y1), (x2, y2)) (fun x y => fyx x y - fxy x y) =
  integrate_1form ((x0, y0), (x1, y1)) (form1 fx fy) + integrate_1form ((x1, y1), (x2, y2)) (form1 fx fy) + integrate_1form ((x2, y2), (x0, y0)) (form1 fx fy).
Proof.
  intros Hx Hy. assert (cont2 fx) as Cx by (eapply C1_cont; eauto). assert (cont2 fy) as Cy by (eapply C1_cont; eauto).
  pose proof Hx as (_ & _ & Cxx & Cxy). pose proof Hy as (_ & _ & Cyx & Cyy). rewrite tri_integral_tri by now apply cont2_minus.
  pose (P := fun s t => pull fx s t * (x1 - x0) + pull fy s t * (y1 - y0)). pose (Q := fun s t => pull fx s t * (x2 - x0) + pull fy s t * (y2 - y0)).
  pose (Pt := fun s t => (pull fxx s t * (x2 - x0) + pull fxy s t * (y2 - y0)) * (x1 - x0) + (pull fyx s t * (x2 - x0) + pull fyy s t * (y2 - y0)) * (y1 - y0)).
  pose (Qs := fun s t => (pull fxx s t * (x1 - x0) + pull fxy s t * (y1 - y0)) * (x2 - x0) + (pull fyx s t * (x1 - x0) + pull fyy s t * (y1 - y0)) * (y2 - y0)).
  pose proof (pull_cont fx Cx) as C1'. pose proof (pull_cont fy Cy) as C2'. pose proof (pull_cont _ Cxx) as C3. pose proof (pull_cont _ Cxy) as C4. pose proof (pull_cont _ Cyx) as C5. pose proof (pull_cont _ Cyy) as C6.
  assert (cont2 P) as CP by (unfold P; c2). assert (cont2 Q) as CQ by (unfold Q; c2). assert (cont2 Pt) as CPt by (unfold Pt; c2). assert (cont2 Qs) as CQs by (unfold Qs; c2).
  assert (partial_y P Pt) as DP.
  { intros s t. unfold P, Pt. apply (is_derive_plus (V := R_NormedModule) (fun t => pull fx s t * (x1 - x0)) (fun t => pull fy s t * (y1 - y0))).
    - apply (is_derive_mulc (fun t => pull fx s t)), (pull_dt fx fxx fxy); auto.
    - apply (is_derive_mulc (fun t => pull fy s t)), (pull_dt fy fyx fyy); auto. }
  assert (partial_x Q Qs) as DQ.
  { intros s t. unfold Q, Qs. apply (is_derive_plus (V := R_NormedModule) (fun s => pull fx s t * (x2 - x0)) (fun s => pull fy s t * (y2 - y0))).
    - apply (is_derive_mulc (fun s => pull fx s t)), (pull_ds fx fxx fxy); auto.
    - apply (is_derive_mulc (fun s => pull fy s t)), (pull_ds fy fyx fyy); auto. }
  assert (A * tri (pull (fun x y => fyx x y - fxy x y)) 1 = tri Qs 1 + - tri Pt 1) as ->.
  { replace (- tri Pt 1) with (-1 * tri Pt 1) by ring. rewrite <- (tri_scal (-1) Pt), <- tri_plus by c2. rewrite <- tri_scal by (apply pull_cont; c2). apply tri_ext. intros s t. unfold Qs, Pt, pull. ring. }
  rewrite (tri_ds Q Qs), (tri_dt P Pt) by auto.
  assert (integrate_1form ((x2, y2), (x0, y0)) (form1 fx fy) = - integrate_1form ((x0, y0), (x2, y2)) (form1 fx fy)) as Er by exact (C68_reverse ((x0, y0), (x2, y2)) (form1 fx fy) (cont_form1 _ _ Cx Cy)).
  rewrite Er.
  assert (integrate_1form ((x0, y0), (x1, y1)) (form1 fx fy) = RInt (fun s => P s 0) 0 1) as ->.
  { unfold integrate_1form, form1. apply RInt_ext. intros s _. req. unfold P, pull. cbn [fst snd]. now rewrite !Rmult_0_l, !Rplus_0_r. }
  assert (integrate_1form ((x0, y0), (x2, y2)) (form1 fx fy) = RInt (fun t => Q 0 t) 0 1) as ->.
  { unfold integrate_1form, form1. apply RInt_ext. intros s _. req. unfold Q, pull. cbn [fst snd]. now rewrite !Rmult_0_l, !Rplus_0_r. }
  assert (integrate_1form ((x1, y1), (x2, y2)) (form1 fx fy) = RInt (fun u => Q (1 - u) u - P (1 - u) u) 0 1) as ->.
  { unfold integrate_1form, form1. apply RInt_ext. intros u _. req. unfold P, Q, pull. cbn [fst snd].
    replace (X (1 - u) u) with (x1 + u * (x2 - x1)) by ring. replace (Y (1 - u) u) with (y1 + u * (y2 - y1)) by ring. ring. }
  assert (forall g, cont2 g -> forall a b, ex_RInt (fun t => g (1 - t) t) a b) as E1.
  { intros g Hg a b. apply ex_RInt_cont_all. intro u. apply (cont2_x (fun u _ => g (1 - u) u) 0). apply (cont2_comp g (fun u _ => 1 - u) (fun u _ => u)); c2. }
  assert (forall g, cont2 g -> forall a b, ex_RInt (fun t => g t (1 - t)) a b) as E2.
  { intros g Hg a b. apply ex_RInt_cont_all. intro u. apply (cont2_x (fun u _ => g u (1 - u)) 0). apply (cont2_comp g (fun u _ => u) (fun u _ => 1 - u)); c2. }
  assert (forall g, cont2 g -> forall c a b, ex_RInt (fun t => g c t) a b) as E3 by (intros; apply ex_RInt_cont_all; intro; now apply cont2_y).
  assert (forall g, cont2 g -> forall c a b, ex_RInt (fun t => g t c) a b) as E4 by (intros; apply ex_RInt_cont_all; intro; now apply cont2_x).
  rewrite !RInt_minus_R by auto. change (fun t : R => Q 0 t) with (Q 0).
  assert (RInt (fun u => P (1 - u) u) 0 1 = RInt (fun s => P s (1 - s)) 0 1) as ->; [|ring].
  rewrite <- (RInt_reflect (fun s => P s (1 - s))).
  - apply RInt_ext. intros u _. req. now replace (1 - (1 - u)) with u by ring.
  - intro u. apply (cont2_x (fun u _ => P u (1 - u)) 0). apply (cont2_comp P (fun u _ => u) (fun u _ => 1 - u)); c2.
Qed.
End Tri.
Lemma green_pt (a b c : point) fx fy fxx fxy fyx fyy : C1_with fx fxx fxy -> C1_with fy fyx fyy ->
  tri_integral (a, b, c) (fun x y => fyx x y - fxy x y) = integrate_1form (a, b) (form1 fx fy) + integrate_1form (b, c) (form1 fx fy) + integrate_1form (c, a) (form1 fx fy).
Proof. destruct a as [xa ya], b as [xb yb], c as [xc yc]. exact (green xa ya xb yb xc yc fx fy fxx fxy fyx fyy). Qed.

(** Stokes' theorem on a polygon with any number of vertices (also self-intersecting), in the sense of C68 *)
Lemma fan_green fx fy fxx fxy fyx fyy a b l : C1_with fx fxx fxy -> C1_with fy fyx fyy ->
  fold_left Rplus (zipw (fun b c => tri_integral (a, b, c) (fun x y => fyx x y - fxy x y)) (removelast (b :: l)) l) 0 =
  path (form1 fx fy) (b :: l) + integrate_1form (last (b :: l) b, a) (form1 fx fy) + integrate_1form (a, b) (form1 fx fy).
Proof.
  intros Hx Hy. assert (cont2 fx) as Cx by (eapply C1_cont; eauto). assert (cont2 fy) as Cy by (eapply C1_cont; eauto).
  assert (forall p q, integrate_1form (q, p) (form1 fx fy) = - integrate_1form (p, q) (form1 fx fy)) as Er by (intros p q; exact (C68_reverse (p, q) (form1 fx fy) (cont_form1 _ _ Cx Cy))).
  revert b. induction l as [|c l IH]; intro b.
  - cbn [removelast zipw fold_left path last]. rewrite (Er a b). ring.
  - change (removelast (b :: c :: l)) with (b :: removelast (c :: l)). cbn [zipw fold_left]. rewrite fold_plus, IH.
    change (path (form1 fx fy) (b :: c :: l)) with (integrate_1form (b, c) (form1 fx fy) + path (form1 fx fy) (c :: l)).
    assert (last (b :: c :: l) b = last (c :: l) c) as ->.
    { change (last (b :: c :: l) b) with (last (c :: l) b). clear. revert c. induction l as [|d l IH]; intro c; [reflexivity|]. change (last (d :: l) b = last (d :: l) c). clear. revert d. induction l as [|e l IH]; intro d; [reflexivity|exact (IH e)]. }
    rewrite (green_pt a b c fx fy fxx fxy fyx fyy Hx Hy). rewrite (Er a c). ring.
Qed.
Lemma path_snoc f l b a : path f (b :: l ++ [a]) = path f (b :: l) + integrate_1form (last (b :: l) b, a) f.
Proof.
  revert b. induction l as [|c l IH]; intro b; [cbn; ring|].
  change (path f (b :: (c :: l) ++ [a])) with (integrate_1form (b, c) f + path f (c :: l ++ [a])). rewrite IH. change (path f (b :: c :: l)) with (integrate_1form (b, c) f + path f (c :: l)).
  assert (last (b :: c :: l) b = last (c :: l) c) as ->; [|ring]. change (last (b :: c :: l) b) with (last (c :: l) b). clear. revert c. induction l as [|e l IH]; intro d; [reflexivity|]. 
  change (last (e :: l) b = last (e :: l) d). clear. revert e. induction l as [|f l IH]; intro e; [reflexivity|]. exact (IH f).
Qed.
Theorem C68_stokes l fx fy fxx fxy fyx fyy : l <> [] -> C1_with fx fxx fxy -> C1_with fy fyx fyy ->
  integrate_2form l (fun x y => fyx x y - fxy x y) = Ok (circulation (form1 fx fy) l).
Proof.
  intros Hl Hx Hy. destruct l as [|a l]; [congruence|]. unfold integrate_2form. apply f_equal. destruct l as [|b l].
  - cbn [inner tl removelast zipw fold_left skipn circulation app path]. unfold integrate_1form. destruct a as [x y]. rewrite (RInt_ext _ (fun _ => 0)) by (intros t _; req; ring). rewrite RInt_const. unfold scal; cbn; unfold mult; cbn. ring.
  - change (inner (a :: b :: l)) with (removelast (b :: l)). change (skipn 2 (a :: b :: l)) with l. rewrite (fan_green fx fy fxx fxy fyx fyy) by auto. unfold circulation.
    change (path (form1 fx fy) ((a :: b :: l) ++ [a])) with (integrate_1form (a, b) (form1 fx fy) + path (form1 fx fy) (b :: l ++ [a])). rewrite path_snoc. ring.
Qed.

(** ** C75 *)
(** the integral over a segment is its length times the average *)
Theorem C75_average_1d f x0 x1 : (forall x, continuous f x) ->
  (x1 - x0) * A1_1d f x0 x1 = P1_1d f x0 x1 /\ A1_1d f x1 x0 = A1_1d f x0 x1 /\ A1_1d f x0 x0 = f x0 /\ A0_1d f x0 = f x0 /\
  (forall m M, (forall x, Rmin x0 x1 <= x <= Rmax x0 x1 -> m <= f x <= M) -> m <= A1_1d f x0 x1 <= M).
Proof.
  intro H. assert (forall a b, ex_RInt f a b) as Ex by (intros; now apply ex_RInt_cont_all).
  assert (forall a b c d, ex_RInt (fun s => f (a * (1 - s) + b * s)) c d) as Ex'.
  { intros. apply ex_RInt_cont_all. intro s. apply (continuous_comp (fun s => a * (1 - s) + b * s) f); [|apply H]. apply (ex_derive_continuous (fun s => a * (1 - s) + b * s)). auto_derive; auto. }
  split; [|split; [|split; [|split; [reflexivity|]]]].
  - unfold A1_1d, P1_1d. rewrite <- RInt_scal_R by auto. pose proof (RInt_comp_lin f (x1 - x0) x0 0 1 (Ex _ _)) as E. replace ((x1 - x0) * 0 + x0) with x0 in E by ring. replace ((x1 - x0) * 1 + x0) with x1 in E by ring.
    rewrite <- E. apply RInt_ext. intros s _. req. unfold scal; cbn; unfold mult; cbn. do 2 f_equal. ring.
  - unfold A1_1d. pose (g := fun s => f (x0 * (1 - s) + x1 * s)). transitivity (RInt (fun s => g (1 - s)) 0 1).
    + apply RInt_ext. intros s _. req. unfold g. f_equal. ring.
    + apply (RInt_reflect g). intro s. apply (continuous_comp (fun s => x0 * (1 - s) + x1 * s) f); [|apply H]. apply (ex_derive_continuous (fun s => x0 * (1 - s) + x1 * s)). auto_derive; auto.
  - unfold A1_1d. rewrite (RInt_ext _ (fun _ => f x0)) by (intros s _; f_equal; ring). rewrite RInt_const. unfold scal; cbn; unfold mult; cbn. ring.
  - intros m M Hb. unfold A1_1d. assert (forall c : R, RInt (V := R_CompleteNormedModule) (fun _ : R => c) 0 1 = c) as Ec by (intro c; rewrite RInt_const; unfold scal; cbn; unfold mult; cbn; ring).
    assert (forall s, 0 < s < 1 -> m <= f (x0 * (1 - s) + x1 * s) <= M) as Hb'.
    { intros s Hs. apply Hb. unfold Rmin, Rmax. destruct (Rle_dec x0 x1); nra. }
    split; [rewrite <- (Ec m)|rewrite <- (Ec M)]; apply RInt_le; auto; try lra; try apply ex_RInt_const; intros s Hs; apply Hb'; auto.
Qed.
(** the polynomials of the documentation *)
Theorem C75_average_monomial n x0 x1 : A1_1d (fun x : R => x ^ n) x0 x1 = Rsum (S n) (fun k => x0 ^ (n - k) * x1 ^ k) / INR (S n).
Proof.
  assert (forall x : R, continuous (fun x : R => x ^ n) x) as H by (intro x; apply (ex_derive_continuous (fun x => x ^ n)); auto_derive; auto).
  assert ((x1 - x0) * Rsum (S n) (fun k => x0 ^ (n - k) * x1 ^ k) = x1 ^ S n - x0 ^ S n) as G.
  { clear H. assert (forall m, (m <= n)%nat -> (x1 - x0) * Rsum (S m) (fun k => x0 ^ (n - k) * x1 ^ k) = x0 ^ (n - m) * x1 ^ S m - x0 ^ S n) as K.
    { induction m as [|m IH]; intro Hm.
      - cbn [Rsum pow]. replace (n - 0)%nat with n by lia. ring.
      - change (Rsum (S (S m)) ?F) with (Rsum (S m) F + F (S m)). cbv beta. rewrite Rmult_plus_distr_l, IH by lia. replace (n - m)%nat with (S (n - S m)) by lia. cbn [pow]. ring. }
    rewrite (K n) by lia. rewrite Nat.sub_diag. cbn [pow]. ring. }
  destruct (C75_average_1d (fun x : R => x ^ n) x0 x1 H) as (E & _ & E0 & _). destruct (Req_dec x0 x1) as [->|N].
  - rewrite E0. assert (Rsum (S n) (fun k => x1 ^ (n - k) * x1 ^ k) = INR (S n) * x1 ^ n) as ->; [|field; apply not_0_INR; lia].
    assert (forall m, (m <= n)%nat -> Rsum (S m) (fun k => x1 ^ (n - k) * x1 ^ k) = INR (S m) * x1 ^ n) as K; [|now apply K].
    induction m as [|m IH]; intro Hm.
    + cbn [Rsum pow INR]. replace (n - 0)%nat with n by lia. ring.
    + change (Rsum (S (S m)) ?F) with (Rsum (S m) F + F (S m)). cbv beta. rewrite IH by lia. rewrite <- pow_add. replace (n - S m + S m)%nat with n by lia. rewrite (S_INR (S m)). ring.
  - apply (Rmult_eq_reg_l (x1 - x0)); [|lra]. rewrite E. unfold P1_1d. rewrite (is_RInt_unique _ _ _ _ (is_RInt_pow n x0 x1)). unfold Rdiv. rewrite <- Rmult_assoc, G. reflexivity.
Qed.
(** segments of the plane: the integral of a 1-form is the sum of the components of the segment times the averages, it is the integral of
    integrate_1form, and the difference of the end values of a potential *)
Theorem C75_segment fx fy x0 y0 x1 y1 : cont2 fx -> cont2 fy ->
  P1_2d fx fy x0 y0 x1 y1 = (x1 - x0) * A1_2d fx x0 y0 x1 y1 + (y1 - y0) * A1_2d fy x0 y0 x1 y1 /\
  P1_2d fx fy x0 y0 x1 y1 = integrate_1form ((x0, y0), (x1, y1)) (form1 fx fy) /\
  (forall F, (forall x y, differentiable_pt_lim F x y (fx x y) (fy x y)) -> P1_2d fx fy x0 y0 x1 y1 = F x1 y1 - F x0 y0).
Proof.
  intros Hx Hy.
  assert (forall f, cont2 f -> forall a b, ex_RInt (fun s => f (x0 * (1 - s) + x1 * s) (y0 * (1 - s) + y1 * s)) a b) as Ex.
  { intros f H a b. apply ex_RInt_cont_all. intro u. apply (cont2_x (fun s _ => f (x0 * (1 - s) + x1 * s) (y0 * (1 - s) + y1 * s)) 0). apply (cont2_comp f (fun s _ => x0 * (1 - s) + x1 * s) (fun s _ => y0 * (1 - s) + y1 * s)); c2. }
  assert (P1_2d fx fy x0 y0 x1 y1 = integrate_1form ((x0, y0), (x1, y1)) (form1 fx fy)) as E.
  { unfold P1_2d, integrate_1form, form1. apply RInt_ext. intros s _. req. cbn [fst snd]. replace (x0 * (1 - s) + x1 * s) with (x0 + s * (x1 - x0)) by ring. replace (y0 * (1 - s) + y1 * s) with (y0 + s * (y1 - y0)) by ring. ring. }
  split; [|split; [exact E|]].
  - unfold P1_2d, A1_2d. rewrite <- !RInt_scal_R by auto. rewrite <- RInt_plus_R.
    + apply RInt_ext. intros s _. req. ring.
    + apply (ex_RInt_scal (V := R_NormedModule) (fun s => fx (x0 * (1 - s) + x1 * s) (y0 * (1 - s) + y1 * s))). auto.
    + apply (ex_RInt_scal (V := R_NormedModule) (fun s => fy (x0 * (1 - s) + x1 * s) (y0 * (1 - s) + y1 * s))). auto.
  - intros F D. rewrite E. apply (C68_exact_form ((x0, y0), (x1, y1)) F (form1 fx fy) D); [exact Hx|exact Hy].
Qed.
(** triangles: with S the signed area, the integral is S times the average; symbolic and numeric versions agree, and agree with
    the integral of integrate_2form *)
Definition area (x0 y0 x1 y1 x2 y2 : R) : R := ((x1 - x0) * (y2 - y0) - (x2 - x0) * (y1 - y0)) / 2.
Lemma P2_tri f x0 y0 x1 y1 x2 y2 : cont2 f -> P2_2d f x0 y0 x1 y1 x2 y2 = 2 * area x0 y0 x1 y1 x2 y2 * tri (pull x0 y0 x1 y1 x2 y2 f) 1.
Proof.
  intro H. rewrite <- tri_scal by now apply pull_cont. unfold P2_2d, tri, inn. apply RInt_ext. intros s _. apply RInt_ext. intros t _. req. unfold pull, area.
  replace (x0 * (1 - s - t) + x1 * s + x2 * t) with (x0 + s * (x1 - x0) + t * (x2 - x0)) by ring. replace (y0 * (1 - s - t) + y1 * s + y2 * t) with (y0 + s * (y1 - y0) + t * (y2 - y0)) by ring. field.
Qed.
Lemma A2_tri f x0 y0 x1 y1 x2 y2 : cont2 f -> A2_2d f x0 y0 x1 y1 x2 y2 = 2 * tri (pull x0 y0 x1 y1 x2 y2 f) 1.
Proof.
  intro H. rewrite <- tri_scal by now apply pull_cont. unfold A2_2d, tri, inn. apply RInt_ext. intros s _. apply RInt_ext. intros t _. req. unfold pull.
  replace (x0 * (1 - s - t) + x1 * s + x2 * t) with (x0 + s * (x1 - x0) + t * (x2 - x0)) by ring. replace (y0 * (1 - s - t) + y1 * s + y2 * t) with (y0 + s * (y1 - y0) + t * (y2 - y0)) by ring. reflexivity.
Qed.
Theorem C75_triangle f x0 y0 x1 y1 x2 y2 : cont2 f ->
  P2_2d f x0 y0 x1 y1 x2 y2 = area x0 y0 x1 y1 x2 y2 * A2_2d f x0 y0 x1 y1 x2 y2 /\
  nP2_2d f x0 y0 x1 y1 x2 y2 = P2_2d f x0 y0 x1 y1 x2 y2 /\
  integrate_2form [(x0, y0); (x1, y1); (x2, y2)] f = Ok (P2_2d f x0 y0 x1 y1 x2 y2).
Proof.
  intro H. assert (nP2_2d f x0 y0 x1 y1 x2 y2 = tri_integral ((x0, y0), (x1, y1), (x2, y2)) f) as E.
  { unfold nP2_2d, tri_integral. apply RInt_ext. intros v _. apply RInt_ext. intros u _. req.
    replace (x0 * (1 - u - v) + x1 * u + x2 * v) with (x0 + u * (x1 - x0) + v * (x2 - x0)) by ring. replace (y0 * (1 - u - v) + y1 * u + y2 * v) with (y0 + u * (y1 - y0) + v * (y2 - y0)) by ring. ring. }
  assert (tri_integral ((x0, y0), (x1, y1), (x2, y2)) f = P2_2d f x0 y0 x1 y1 x2 y2) as E2 by (rewrite tri_integral_tri, P2_tri by auto; unfold area; field).
  split; [rewrite P2_tri, A2_tri by auto; ring|]. split; [congruence|]. unfold integrate_2form. cbn [inner tl removelast skipn zipw fold_left]. apply f_equal. rewrite <- E2. apply Rplus_0_l.
Qed.
(** the average does not depend on the order of the vertices and lies between the bounds of f; of an affine function it is the value at the
    centroid, in particular of a constant that constant *)
Theorem C75_average_triangle f x0 y0 x1 y1 x2 y2 : cont2 f ->
  A2_2d f x1 y1 x0 y0 x2 y2 = A2_2d f x0 y0 x1 y1 x2 y2 /\ A2_2d f x0 y0 x2 y2 x1 y1 = A2_2d f x0 y0 x1 y1 x2 y2 /\ A2_2d f x2 y2 x1 y1 x0 y0 = A2_2d f x0 y0 x1 y1 x2 y2 /\
  (forall m M, (forall a b c, 0 <= a -> 0 <= b -> 0 <= c -> a + b + c = 1 -> m <= f (a * x0 + b * x1 + c * x2) (a * y0 + b * y1 + c * y2) <= M) -> m <= A2_2d f x0 y0 x1 y1 x2 y2 <= M).
Proof.
  intro H. assert (forall x0 y0 x1 y1 x2 y2, A2_2d f x0 y0 x2 y2 x1 y1 = A2_2d f x0 y0 x1 y1 x2 y2) as S1.
  { intros a0 b0 a1 b1 a2 b2. rewrite !A2_tri by auto. rewrite <- tri_fubini by now apply pull_cont. f_equal. apply tri_ext. intros s t. unfold pull. f_equal; ring. }
  assert (forall x0 y0 x1 y1 x2 y2, A2_2d f x2 y2 x1 y1 x0 y0 = A2_2d f x0 y0 x1 y1 x2 y2) as S2.
  { intros a0 b0 a1 b1 a2 b2. rewrite !A2_tri by auto. rewrite <- (tri_reflect (pull a0 b0 a1 b1 a2 b2 f)) by now apply pull_cont. f_equal. apply tri_ext. intros s t. unfold pull. f_equal; ring. }
  split; [rewrite S1, S2, S1; reflexivity|]. split; [apply S1|]. split; [apply S2|].
  intros m M Hb. rewrite A2_tri by auto. pose proof (pull_cont x0 y0 x1 y1 x2 y2 f H) as Hc.
  assert (forall s t, 0 <= s -> 0 <= t -> s + t <= 1 -> m <= pull x0 y0 x1 y1 x2 y2 f s t <= M) as B.
  { intros s t Hs Ht Hst. unfold pull. replace (x0 + s * (x1 - x0) + t * (x2 - x0)) with ((1 - s - t) * x0 + s * x1 + t * x2) by ring.
    replace (y0 + s * (y1 - y0) + t * (y2 - y0)) with ((1 - s - t) * y0 + s * y1 + t * y2) by ring. apply Hb; lra. }
  assert (tri (fun _ _ => m) 1 <= tri (pull x0 y0 x1 y1 x2 y2 f) 1) as L by (apply tri_le; auto; [lra|c2|apply B]).
  assert (tri (pull x0 y0 x1 y1 x2 y2 f) 1 <= tri (fun _ _ => M) 1) as U by (apply tri_le; auto; [lra|c2|apply B]).
  rewrite Triangle.tri_const in L, U. lra.
Qed.
Theorem C75_average_affine a b c x0 y0 x1 y1 x2 y2 :
  A1_2d (fun x y => a * x + b * y + c) x0 y0 x1 y1 = a * ((x0 + x1) / 2) + b * ((y0 + y1) / 2) + c /\
  A2_2d (fun x y => a * x + b * y + c) x0 y0 x1 y1 x2 y2 = a * ((x0 + x1 + x2) / 3) + b * ((y0 + y1 + y2) / 3) + c.
Proof.
  split.
  - unfold A1_2d. set (p := a * x0 + b * y0 + c). set (q := a * x1 + b * y1 + c). replace (a * ((x0 + x1) / 2) + b * ((y0 + y1) / 2) + c) with ((p * 1 + (q - p) * 1 ^ 2 / 2) - (p * 0 + (q - p) * 0 ^ 2 / 2)) by (unfold p, q; field).
    apply is_RInt_unique. apply (is_RInt_ext_all (fun s => p + (q - p) * s)); [intro s; unfold p, q; ring|]. apply (is_RInt_der (fun s => p * s + (q - p) * s ^ 2 / 2)).
    + intro s. auto_derive; auto. field.
    + intro s. apply (ex_derive_continuous (fun s => p + (q - p) * s)). auto_derive; auto.
  - rewrite A2_tri by c2. set (p := a * x0 + b * y0 + c). set (q := a * x1 + b * y1 + c). set (r := a * x2 + b * y2 + c).
    rewrite (tri_ext _ (fun s t => (p + (q - p) * s) + (r - p) * t)) by (intros; unfold pull, p, q, r; ring). rewrite !tri_plus, !tri_scal, Triangle.tri_const, tri_s, tri_t by c2. unfold p, q, r. field.
Qed.
(** the integral of a constant is its value times the signed area; odd permutations of the vertices change the sign *)
Theorem C75_triangle_orientation f x0 y0 x1 y1 x2 y2 : cont2 f ->
  P2_2d f x1 y1 x0 y0 x2 y2 = - P2_2d f x0 y0 x1 y1 x2 y2 /\ P2_2d f x0 y0 x2 y2 x1 y1 = - P2_2d f x0 y0 x1 y1 x2 y2 /\ P2_2d f x1 y1 x2 y2 x0 y0 = P2_2d f x0 y0 x1 y1 x2 y2 /\
  (forall k, P2_2d (fun _ _ => k) x0 y0 x1 y1 x2 y2 = k * area x0 y0 x1 y1 x2 y2).
Proof.
  intro H. destruct (C75_average_triangle f x0 y0 x1 y1 x2 y2 H) as (E1 & E2 & E3 & _). destruct (C75_average_triangle f x1 y1 x0 y0 x2 y2 H) as (_ & E4 & _).
  rewrite (Logic.proj1 (C75_triangle f x1 y1 x0 y0 x2 y2 H)), (Logic.proj1 (C75_triangle f x0 y0 x2 y2 x1 y1 H)), (Logic.proj1 (C75_triangle f x1 y1 x2 y2 x0 y0 H)), (Logic.proj1 (C75_triangle f x0 y0 x1 y1 x2 y2 H)).
  rewrite E4, E1, E2. unfold area. split; [field|]. split; [field|]. split; [field|]. intro k. rewrite P2_tri by c2. unfold area, pull. rewrite Triangle.tri_const. field.
Qed.
(** Stokes: the integral of the curl over the triangle is the sum of the integrals over its three edges *)
Theorem C75_stokes_triangle fx fy fxx fxy fyx fyy x0 y0 x1 y1 x2 y2 : C1_with fx fxx fxy -> C1_with fy fyx fyy ->
  P2_2d (fun x y => fyx x y - fxy x y) x0 y0 x1 y1 x2 y2 = P1_2d fx fy x0 y0 x1 y1 + P1_2d fx fy x1 y1 x2 y2 + P1_2d fx fy x2 y2 x0 y0.
Proof.
  intros Hx Hy. assert (cont2 fx) as Cx by (eapply C1_cont; eauto). assert (cont2 fy) as Cy by (eapply C1_cont; eauto).
  rewrite !(fun a b c d => Logic.proj1 (Logic.proj2 (C75_segment fx fy a b c d Cx Cy))). rewrite <- (green x0 y0 x1 y1 x2 y2 fx fy fxx fxy fyx fyy Hx Hy).
  assert (cont2 (fun x y => fyx x y - fxy x y)) as Cc by (apply cont2_minus; [apply Hy|apply Hx]). rewrite tri_integral_tri, P2_tri by auto. unfold area. field.
Qed.
(** instances: the form x y dx + x^2 dy, whose curl is 2 x - x = x *)
Lemma xy_C1 : C1_with (fun x y => x * y) (fun _ y => y) (fun x _ => x).
Proof. split; [|split; [|split]]; [intros x y; auto_derive; auto; ring|intros x y; auto_derive; auto; ring|c2|c2]. Qed.
Lemma xx_C1 : C1_with (fun x _ => x * x) (fun x _ => 2 * x) (fun _ _ => 0).
Proof. split; [|split; [|split]]; [intros x y; auto_derive; auto; ring|intros x y; auto_derive; auto; ring|c2|c2]. Qed.
Example C75_instance : P1_2d (fun x y => x * y) (fun x _ => x * x) 0 0 3 0 + P1_2d (fun x y => x * y) (fun x _ => x * x) 3 0 0 2 + P1_2d (fun x y => x * y) (fun x _ => x * x) 0 2 0 0 = 3 /\
  circulation (form1 (fun x y => x * y) (fun x _ => x * x)) [(0, 0); (3, 0); (0, 2)] = 3 /\ A1_1d (fun x => x ^ 2) 1 4 = 7 /\ A2_2d (fun x y => x) 0 0 3 0 0 2 = 1.
Proof.
  assert (P2_2d (fun x y => 2 * x - x) 0 0 3 0 0 2 = 3) as E.
  { rewrite (Logic.proj1 (C75_triangle (fun x y => 2 * x - x) 0 0 3 0 0 2 ltac:(c2))).
    assert (A2_2d (fun x y => 2 * x - x) 0 0 3 0 0 2 = A2_2d (fun x y => 1 * x + 0 * y + 0) 0 0 3 0 0 2) as ->.
    { unfold A2_2d. apply RInt_ext. intros s _. apply RInt_ext. intros t _. req. ring. }
    rewrite (Logic.proj2 (C75_average_affine 1 0 0 0 0 3 0 0 2)). unfold area. field. }
  split; [|split; [|split]].
  - rewrite <- (C75_stokes_triangle _ _ _ _ _ _ 0 0 3 0 0 2 xy_C1 xx_C1). exact E.
  - pose proof (C68_stokes [(0, 0); (3, 0); (0, 2)] _ _ _ _ _ _ ltac:(discriminate) xy_C1 xx_C1) as S. 
    assert (integrate_2form [(0, 0); (3, 0); (0, 2)] (fun x y => 2 * x - x) = Ok (P2_2d (fun x y => 2 * x - x) 0 0 3 0 0 2)) as T by exact (Logic.proj2 (Logic.proj2 (C75_triangle (fun x y => 2 * x - x) 0 0 3 0 0 2 ltac:(c2)))).
    assert (Ok (circulation (form1 (fun x y => x * y) (fun x _ => x * x)) [(0, 0); (3, 0); (0, 2)]) = Ok (P2_2d (fun x y => 2 * x - x) 0 0 3 0 0 2)) as U by (rewrite <- T; symmetry; exact S). apply (f_equal (fun r => match r with Ok v => v | _ => 0 end)) in U. exact (eq_trans U E).
  - rewrite C75_average_monomial. cbn. field.
  - assert (A2_2d (fun x y => x) 0 0 3 0 0 2 = A2_2d (fun x y => 1 * x + 0 * y + 0) 0 0 3 0 0 2) as ->.
    { unfold A2_2d. apply RInt_ext. intros s _. apply RInt_ext. intros t _. req. ring. }
    rewrite (Logic.proj2 (C75_average_affine 1 0 0 0 0 3 0 0 2)). field.
Qed.
