(** C99: the sample flows of dec/symbolic.py and what [plot] shows of a flow. *)
From Coq Require Import ZArith Reals List Lia Lra Arith.
From Coquelicot Require Import Coquelicot.
From Verif Require Import Model.Num Model.Sym Model.Samples Spec.Ext Spec.Euler Props.Symbolic.
From Verif Require Proofs.DiscretiseP.
Import ListNotations.
Local Open Scope R_scope.

Lemma coherent_xy x y : coherent (at_xy x y).
Proof. intros f i j a b. cbn. split; apply (is_derive_const 0). Qed.
Lemma eval_ext r r' e : (forall v, sval r v = sval r' v) -> (forall f i j x y, fval r f i j x y = fval r' f i j x y) -> eval r e = eval r' e.
Proof. intros Hs Hf. induction e; cbn [eval]; rewrite ?Hs, ?Hf; try reflexivity; congruence. Qed.
Lemma l0_partials e : (forall x y, smooth_at (at_xy x y) e) -> partials (l0 e) (l0 (sdiff e 0)) (l0 (sdiff e 1)).
Proof.
  intros Hs x y. split.
  - apply (is_derive_ext (fun t => eval (upd (at_xy x y) 0 t) e)).
    + intro t. apply eval_ext; [|reflexivity]. intro v. cbn. now destruct (Nat.eqb v 0).
    + apply (C57_diff_is_derivative (at_xy x y) e 0); [apply coherent_xy|apply Hs].
  - apply (is_derive_ext (fun t => eval (upd (at_xy x y) 1 t) e)).
    + intro t. apply eval_ext; [|reflexivity]. intro v. cbn. now destruct v as [|[|v]].
    + apply (C57_diff_is_derivative (at_xy x y) e 1); [apply coherent_xy|apply Hs].
Qed.
Lemma partials_unique f fx fy gx gy : partials f fx fy -> partials f gx gy -> forall x y, fx x y = gx x y /\ fy x y = gy x y.
Proof.
  intros F G x y. destruct (F x y) as [F1 F2], (G x y) as [G1 G2].
  split; [rewrite <- (is_derive_unique _ _ _ F1)|rewrite <- (is_derive_unique _ _ _ F2)]; now apply is_derive_unique.
Qed.

(** Whatever the velocity (u, v) and the pressure q are, as long as their formulas are defined on the whole
    plane: the four pictures of plot are defined; the one called omega shows the vorticity; and the one
    called vdot shows the acceleration of the incompressible flow with this velocity and pressure, provided
    div of the velocity and the expression that "must be zero" do vanish.  No other velocity field and
    pressure solve the equations. *)
Theorem C99_plot_shows_the_flow (u v q : expr) :
  (forall x y, smooth_at (at_xy x y) u /\ smooth_at (at_xy x y) v /\ smooth_at (at_xy x y) q) ->
  exists ut vt w d z, plot [u; v] q = Ok (MkPictures [u; v] [ut; vt] w q) /\
    div [u; v] = Ok d /\ must_be_zero [u; v] q = Ok z /\
    vorticity (l0 u) (l0 v) (l0 w) /\
    (euler (l0 u) (l0 v) (l0 q) (l0 ut) (l0 vt) <-> forall x y, l0 d x y = 0 /\ l0 z x y = 0) /\
    (forall at_ bt, euler (l0 u) (l0 v) (l0 q) at_ bt -> forall x y, at_ x y = l0 ut x y /\ bt x y = l0 vt x y).
Proof.
  intro S.
  assert (forall x y, smooth_at (at_xy x y) u) as Su by (intros; apply S).
  assert (forall x y, smooth_at (at_xy x y) v) as Sv by (intros; apply S).
  assert (forall x y, smooth_at (at_xy x y) q) as Sq by (intros; apply S).
  do 5 eexists. split; [unfold plot; run|]. split; [run|]. split; [unfold must_be_zero; run|].
  pose proof (l0_partials u Su) as Pu. pose proof (l0_partials v Sv) as Pv. pose proof (l0_partials q Sq) as Pq.
  split; [|split].
  - exists (l0 (sdiff u 0)), (l0 (sdiff u 1)), (l0 (sdiff v 0)), (l0 (sdiff v 1)). split; [exact Pu|]; split; [exact Pv|].
    intros x y. unfold l0. cbn. ring.
  - match goal with |- euler _ _ _ (l0 ?a) (l0 ?b) <-> _ => assert (forall x y, smooth_at (at_xy x y) a) as Sa;
      [|assert (forall x y, smooth_at (at_xy x y) b) as Sb; [|pose proof (l0_partials a Sa) as Pa; pose proof (l0_partials b Sb) as Pb]] end.
    1, 2: intros x y; cbn; repeat split; auto; try apply DiscretiseP.smooth_sdiff; auto; lra.
    split.
    + intros (ux & uy & vx & vy & px & py & utx & uty & vtx & vty & Hu & Hv & Hp & Ht & Ht' & E) x y.
      destruct (E x y) as (E1 & E2 & _ & _).
      rewrite <- (Logic.proj1 (partials_unique _ _ _ _ _ Pu Hu x y)), <- (Logic.proj2 (partials_unique _ _ _ _ _ Pv Hv x y)) in E1.
      rewrite <- (Logic.proj1 (partials_unique _ _ _ _ _ Pa Ht x y)), <- (Logic.proj2 (partials_unique _ _ _ _ _ Pb Ht' x y)) in E2.
      clear - E1 E2. unfold l0 in *. cbn in *. split.
      * rewrite <- E1. ring.
      * match type of E2 with ?e = 0 => transitivity (- e); [|lra] end.
        rewrite ?(sdiff_comm _ u 1 0), ?(sdiff_comm _ v 1 0). field.
    + intro Z. exists (l0 (sdiff u 0)), (l0 (sdiff u 1)), (l0 (sdiff v 0)), (l0 (sdiff v 1)), (l0 (sdiff q 0)), (l0 (sdiff q 1)).
      do 4 eexists. split; [exact Pu|]. split; [exact Pv|]. split; [exact Pq|]. split; [exact Pa|]. split; [exact Pb|].
      intros x y. destruct (Z x y) as [Z1 Z2]. clear - Z1 Z2. unfold l0 in *. cbn in *. repeat split.
      * rewrite <- Z1. ring.
      * match type of Z2 with ?e = 0 => transitivity (- e); [|lra] end.
        rewrite ?(sdiff_comm _ u 1 0), ?(sdiff_comm _ v 1 0). field.
      * field.
      * field.
  - intros a b (ux & uy & vx & vy & px & py & utx & uty & vtx & vty & Hu & Hv & Hp & Ht & Ht' & E) x y.
    destruct (E x y) as (E1 & E2 & E3 & E4).
    rewrite <- (Logic.proj1 (partials_unique _ _ _ _ _ Pu Hu x y)), <- (Logic.proj2 (partials_unique _ _ _ _ _ Pu Hu x y)), <- (Logic.proj1 (partials_unique _ _ _ _ _ Pq Hp x y)) in E3.
    rewrite <- (Logic.proj1 (partials_unique _ _ _ _ _ Pv Hv x y)), <- (Logic.proj2 (partials_unique _ _ _ _ _ Pv Hv x y)), <- (Logic.proj2 (partials_unique _ _ _ _ _ Pq Hp x y)) in E4.
    clear - E3 E4. unfold l0 in *. cbn in *. split.
    + apply (Rplus_eq_reg_r (eval (at_xy x y) u * eval (at_xy x y) (sdiff u 0) + eval (at_xy x y) v * eval (at_xy x y) (sdiff u 1))).
      rewrite E3. field.
    + apply (Rplus_eq_reg_r (eval (at_xy x y) u * eval (at_xy x y) (sdiff v 0) + eval (at_xy x y) v * eval (at_xy x y) (sdiff v 1))).
      rewrite E4. field.
Qed.

(** the values of what plot draws, in terms of partial derivatives *)
Lemma plot_values (u v q : expr) ut vt w d z :
  plot [u; v] q = Ok (MkPictures [u; v] [ut; vt] w q) -> div [u; v] = Ok d -> must_be_zero [u; v] q = Ok z -> forall r,
  let ux := eval r (sdiff u 0) in let uy := eval r (sdiff u 1) in let vx := eval r (sdiff v 0) in let vy := eval r (sdiff v 1) in
  eval r d = ux + vy /\ eval r w = vx - uy /\
  eval r ut = - (eval r u * ux + eval r v * uy) - eval r (sdiff q 0) /\ eval r vt = - (eval r u * vx + eval r v * vy) - eval r (sdiff q 1) /\
  eval r z = ux * ux + 2 * (uy * vx) + vy * vy + eval r u * (eval r (sdiff (sdiff u 0) 0) + eval r (sdiff (sdiff v 0) 1)) +
    eval r v * (eval r (sdiff (sdiff u 0) 1) + eval r (sdiff (sdiff v 1) 1)) + eval r (sdiff (sdiff q 0) 0) + eval r (sdiff (sdiff q 1) 1).
Proof.
  intros E Ed Ez r. unfold plot in E. lazy -[chart_eqb sdiff eval IZR] in E. injection E as <- <- <-.
  lazy -[chart_eqb sdiff eval IZR] in Ed. injection Ed as <-. unfold must_be_zero in Ez. lazy -[chart_eqb sdiff eval IZR] in Ez. injection Ez as <-.
  cbn. rewrite ?(sdiff_comm _ u 1 0), ?(sdiff_comm _ v 1 0). repeat split; field.
Qed.
Lemma sin_half x : sin x = 2 * sin (x * / 2) * cos (x * / 2).
Proof. rewrite <- sin_2a. f_equal. field. Qed.
Lemma cos_half x : cos x = 2 * (cos (x * / 2) * cos (x * / 2)) - 1.
Proof. replace x with (2 * (x * / 2)) at 1 by field. rewrite cos_2a_cos. ring. Qed.
Lemma sin_sq x : sin x ^ 2 = 1 - cos x ^ 2.
Proof. pose proof (sin2_cos2 x) as E. unfold Rsqr in E. lra. Qed.
Lemma cos_2x x : cos (2 * x) = 2 * (cos x * cos x) - 1.
Proof. rewrite cos_2a_cos. ring. Qed.
Ltac angle1 x := let s := fresh "s" in let c := fresh "c" in pose proof (sin_sq x); set (s := sin x) in *; set (c := cos x) in *; clearbody s c.
Ltac angle2 x := let s := fresh "s" in let c := fresh "c" in pose proof (sin_sq (x * / 2)); set (s := sin (x * / 2)) in *; set (c := cos (x * / 2)) in *; clearbody s c.
Ltac whole x y := unfold Rdiv; rewrite ?(cos_2x x), ?(cos_2x y), ?(sin_2a x), ?(sin_2a y); angle1 x; angle1 y.
Ltac halves x y := unfold Rdiv; rewrite ?(cos_2x x), ?(cos_2x y), ?(sin_2a x), ?(sin_2a y), ?(sin_half x), ?(sin_half y), ?(cos_half x), ?(cos_half y); angle2 x; angle2 y.
Ltac trigo := match goal with
  | H : ?s ^ 2 = _, H' : ?t ^ 2 = _ |- _ => field [H H']
  end.

Definition pressure_sign (i : nat) : R := if orb (Nat.eqb i 1) (Nat.eqb i 4) then 1 else -1.

(** The five samples: V[i] and p[i] are the velocity and, up to the sign, the pressure of the i-th example of
    the documentation; plot draws the documented vorticity and acceleration; and they are a solution of the
    equations of incompressible flow. *)
Theorem C99_samples i D : nth_error documented i = Some D ->
  exists u v q ut vt w, nth_error V i = Some [u; v] /\ nth_error p i = Some q /\
    plot [u; v] q = Ok (MkPictures [u; v] [ut; vt] w q) /\
    euler (l0 u) (l0 v) (l0 q) (l0 ut) (l0 vt) /\ vorticity (l0 u) (l0 v) (l0 w) /\
    forall x y, l1 [u; v] x y = Ok (fu D x y, fv D x y) /\ l0 w x y = fw D x y /\ l0 q x y = pressure_sign i * fp D x y /\
      l1 [ut; vt] x y = Ok (fut D x y, fvt D x y).
Proof.
  intro HD.
  assert (exists u v q, nth_error V i = Some [u; v] /\ nth_error p i = Some q /\ (forall x y, smooth_at (at_xy x y) u /\ smooth_at (at_xy x y) v /\ smooth_at (at_xy x y) q)) as (u & v & q & Hu & Hq & S).
  { destruct i as [|[|[|[|[|i]]]]]; try (now destruct i); (do 3 eexists; split; [reflexivity|]; split; [reflexivity|]); intros x y; cbn; repeat split; lra. }
  destruct (C99_plot_shows_the_flow u v q S) as (ut & vt & w & d & z & E & Ed & Ez & Hw & Heu & _).
  exists u, v, q, ut, vt, w. split; [exact Hu|]. split; [exact Hq|]. split; [exact E|].
  assert (forall x y, (l0 d x y = 0 /\ l0 z x y = 0) /\ (l0 u x y = fu D x y /\ l0 v x y = fv D x y) /\ l0 w x y = fw D x y /\ l0 q x y = pressure_sign i * fp D x y /\
      l0 ut x y = fut D x y /\ l0 vt x y = fvt D x y) as K.
  2: { split; [apply Heu; intros; apply K|]. split; [exact Hw|]. intros x y. destruct (K x y) as (_ & [K1 K2] & K3 & K4 & K5 & K6).
       unfold l1. rewrite K1, K2, K5, K6. auto. }
  intros x y. pose proof (plot_values u v q ut vt w d z E Ed Ez (at_xy x y)) as K. cbv zeta in K. fold (l0 d x y) (l0 w x y) (l0 ut x y) (l0 vt x y) (l0 z x y) in K.
  destruct K as (-> & -> & -> & -> & ->). clear Heu Hw S E Ed Ez.
  destruct i as [|[|[|[|[|i]]]]]; try (now destruct i); cbn [nth_error documented V p] in *; injection HD as <-; injection Hu as <- <-; injection Hq as <-;
  unfold l0, pressure_sign; cbn; [halves x y|halves x y|whole x y|whole x y|]; repeat split; try trigo; try ring; try field.
Qed.
Theorem C99_five_samples : length V = 5%nat /\ length p = 5%nat /\ length documented = 5%nat.
Proof. repeat split. Qed.

(** Samples 0, 2, 3 and 4 live on the torus of side 2 pi of the documentation; sample 1 changes sign from one
    period to the next, so it does not. *)
Theorem C99_periodic i u v q : nth_error V i = Some [u; v] -> nth_error p i = Some q ->
  (i <> 1%nat -> periodic2 (l0 u) /\ periodic2 (l0 v)) /\ periodic2 (l0 q).
Proof.
  intros Hu Hq.
  assert (forall x, cos (2 * (x + 2 * PI)) = cos (2 * x)) as C2 by (intro; rewrite !cos_2x, cos_plus, cos_2PI, sin_2PI; ring).
  assert (forall x, sin (2 * (x + 2 * PI)) = sin (2 * x)) as S2 by (intro; rewrite !sin_2a, cos_plus, sin_plus, cos_2PI, sin_2PI; ring).
  assert (forall x, cos ((x + 2 * PI) * / 2) = - cos (x * / 2)) as Ch by (intro; replace ((x + 2 * PI) * / 2) with (x * / 2 + PI) by field; rewrite neg_cos; ring).
  assert (forall x, cos (x + 2 * PI) = cos x) as C1 by (intro; rewrite cos_plus, cos_2PI, sin_2PI; ring).
  assert (forall x, sin (x + 2 * PI) = sin x) as S1 by (intro; rewrite sin_plus, cos_2PI, sin_2PI; ring).
  destruct i as [|[|[|[|[|i]]]]]; try (now destruct i); cbn [nth_error V p] in *; injection Hu as <- <-; injection Hq as <-;
  (split; [intro Hi; try (exfalso; now apply Hi); split|]); intros x y; unfold l0; cbn; rewrite ?C1, ?S1, ?C2, ?S2, ?Ch; split; ring.
Qed.
Theorem C99_periodic_refuted : exists u v, nth_error V 1 = Some [u; v] /\
  (forall x y, l0 u (x + 2 * PI) y = - l0 u x y /\ l0 v (x + 2 * PI) y = - l0 v x y) /\ ~ periodic2 (l0 u) /\ ~ periodic2 (l0 v).
Proof.
  do 2 eexists. split; [reflexivity|].
  assert (forall x, cos ((x + 2 * PI) * / 2) = - cos (x * / 2)) as Ch by (intro; replace ((x + 2 * PI) * / 2) with (x * / 2 + PI) by field; rewrite neg_cos; ring).
  assert (forall x, sin ((x + 2 * PI) * / 2) = - sin (x * / 2)) as Sh by (intro; replace ((x + 2 * PI) * / 2) with (x * / 2 + PI) by field; rewrite neg_sin; ring).
  split; [intros x y; unfold l0; cbn; rewrite Ch, Sh; split; ring|]. split; intro Hp.
  - destruct (Hp 0 PI) as [E _]. unfold l0 in E. cbn in E. rewrite Ch in E. replace (0 * / 2) with 0 in E by ring. replace (PI * / 2) with (PI / 2) in E by reflexivity. rewrite cos_0, sin_PI2 in E. lra.
  - destruct (Hp PI 0) as [E _]. unfold l0 in E. cbn in E. rewrite Sh in E. replace (0 * / 2) with 0 in E by ring. replace (PI * / 2) with (PI / 2) in E by reflexivity. rewrite cos_0, sin_PI2 in E. lra.
Qed.
(** The pressures printed in the documentation of examples 1, 3 and 4 have the wrong sign: with them no
    acceleration solves the equations. *)
Theorem C99_documented_pressure_refuted i D : In i [0; 2; 3]%nat -> nth_error documented i = Some D ->
  ~ exists ut vt, euler (fu D) (fv D) (fp D) ut vt.
Proof.
  intros Hi HD (a & b & ux & uy & vx & vy & px & py & utx & uty & vtx & vty & Hu & Hv & Hp & Ht & Ht' & E).
  destruct (C99_samples i D HD) as (u & v & q & ut & vt & w & Eu & Eq & Ep & He & _ & K).
  destruct He as (Ux & Uy & Vx & Vy & Px & Py & Utx & Uty & Vtx & Vty & HU & HV & HP & HT & HT' & EE).
  assert (pressure_sign i = -1) as Hs by (now destruct Hi as [<-|[<-|[<-|[]]]]).
  assert (forall f g fx fy, (forall x y, f x y = g x y) -> partials f fx fy -> partials g fx fy) as Ext.
  { intros f g fx fy Hfg Hf x y. destruct (Hf x y) as [H1 H2]. split; [apply (is_derive_ext (fun t => f t y)); [intro; apply Hfg|exact H1]|apply (is_derive_ext (fun t => f x t)); [intro; apply Hfg|exact H2]]. }
  assert (partials (fu D) Ux Uy) as HU' by (apply (Ext (l0 u)); [intros x y; destruct (K x y) as (K1 & _); unfold l1 in K1; congruence|exact HU]).
  assert (partials (fv D) Vx Vy) as HV' by (apply (Ext (l0 v)); [intros x y; destruct (K x y) as (K1 & _); unfold l1 in K1; congruence|exact HV]).
  assert (partials (l0 q) (fun x y => - px x y) (fun x y => - py x y)) as HQ.
  { intros x y. destruct (Hp x y) as [H1 H2]. split.
    - apply (is_derive_ext (fun t => - fp D t y)); [intro t; destruct (K t y) as (_ & _ & -> & _); rewrite Hs; match goal with |- ?l = ?m => change (@eq R l m) end; ring|]. now apply (is_derive_opp (fun t => fp D t y)).
    - apply (is_derive_ext (fun t => - fp D x t)); [intro t; destruct (K x t) as (_ & _ & -> & _); rewrite Hs; match goal with |- ?l = ?m => change (@eq R l m) end; ring|]. now apply (is_derive_opp (fun t => fp D x t)). }
  (* a = l0 ut - 2 px, b = l0 vt - 2 py *)
  assert (forall x y, a x y = l0 ut x y + 2 * Px x y /\ b x y = l0 vt x y + 2 * Py x y) as Kab.
  { intros x y. destruct (E x y) as (_ & _ & E3 & E4), (EE x y) as (_ & _ & F3 & F4).
    destruct (partials_unique _ _ _ _ _ Hu HU' x y) as [A1 A2], (partials_unique _ _ _ _ _ Hv HV' x y) as [B1 B2], (partials_unique _ _ _ _ _ HQ HP x y) as [C1 C2].
    destruct (K x y) as (K1 & _). unfold l1 in K1. injection K1 as K1 K2. rewrite K1, K2 in F3, F4. rewrite A1, A2 in E3. rewrite B1, B2 in E4. split; lra. }
  destruct (E 0 0) as (_ & E2 & _), (EE 0 0) as (_ & F2 & _). destruct (Ht 0 0) as [D1 _], (Ht' 0 0) as [_ D2], (HT 0 0) as [G1 _], (HT' 0 0) as [_ G2].
  assert (is_derive (fun t => Px t 0) 0 ((utx 0 0 - Utx 0 0) / 2)) as L1.
  { apply (is_derive_ext (fun t => / 2 * (a t 0 - l0 ut t 0))); [intro t; destruct (Kab t 0) as [-> _]; match goal with |- ?l = ?m => change (@eq R l m) end; field|].
    replace ((utx 0 0 - Utx 0 0) / 2) with (/ 2 * (utx 0 0 - Utx 0 0)) by field.
    apply (is_derive_scal (fun t => a t 0 - l0 ut t 0)). now apply (is_derive_minus (fun t => a t 0) (fun t => l0 ut t 0)). }
  assert (is_derive (fun t => Py 0 t) 0 ((vty 0 0 - Vty 0 0) / 2)) as L2.
  { apply (is_derive_ext (fun t => / 2 * (b 0 t - l0 vt 0 t))); [intro t; destruct (Kab 0 t) as [_ ->]; match goal with |- ?l = ?m => change (@eq R l m) end; field|].
    replace ((vty 0 0 - Vty 0 0) / 2) with (/ 2 * (vty 0 0 - Vty 0 0)) by field.
    apply (is_derive_scal (fun t => b 0 t - l0 vt 0 t)). now apply (is_derive_minus (fun t => b 0 t) (fun t => l0 vt 0 t)). }
  assert (forall x y, smooth_at (at_xy x y) q) as Sq by (clear - Eq; intros x y; destruct i as [|[|[|[|[|i]]]]]; try (now destruct i); cbn [nth_error p] in Eq; injection Eq as <-; cbn; repeat split; lra).
  pose proof (l0_partials q Sq) as Pq.
  destruct (l0_partials (sdiff q 0) (fun x y => DiscretiseP.smooth_sdiff _ _ 0 (Sq x y)) 0 0) as [M1 _].
  destruct (l0_partials (sdiff q 1) (fun x y => DiscretiseP.smooth_sdiff _ _ 1 (Sq x y)) 0 0) as [_ M2].
  assert ((utx 0 0 - Utx 0 0) / 2 = l0 (sdiff (sdiff q 0) 0) 0 0) as N1.
  { rewrite <- (is_derive_unique _ _ _ L1), <- (is_derive_unique _ _ _ M1). apply Derive_ext. intro t. now apply (partials_unique _ _ _ _ _ HP Pq). }
  assert ((vty 0 0 - Vty 0 0) / 2 = l0 (sdiff (sdiff q 1) 1) 0 0) as N2.
  { rewrite <- (is_derive_unique _ _ _ L2), <- (is_derive_unique _ _ _ M2). apply Derive_ext. intro t. now apply (partials_unique _ _ _ _ _ HP Pq). }
  assert (l0 (sdiff (sdiff q 0) 0) 0 0 + l0 (sdiff (sdiff q 1) 1) 0 0 = 0) as Z by lra.
  clear - Hi Eq Z. destruct Hi as [<-|[<-|[<-|[]]]]; cbn [nth_error p] in Eq; injection Eq as <-; unfold l0 in Z; cbn in Z;
  rewrite ?Rmult_0_r, ?cos_0, ?sin_0 in Z; lra.
Qed.
(** the hypotheses are met, and not only by the samples: shear flow sin(y) in the direction of x *)
Example C99_instance : (exists D, nth_error documented 3 = Some D) /\
  (forall x y, smooth_at (at_xy x y) (Sin Y) /\ smooth_at (at_xy x y) (Cst 0) /\ smooth_at (at_xy x y) (Cst 7)) /\
  exists ut vt w, plot [Sin Y; Cst 0] (Cst 7) = Ok (MkPictures [Sin Y; Cst 0] [ut; vt] w (Cst 7)) /\
    euler (l0 (Sin Y)) (l0 (Cst 0)) (l0 (Cst 7)) (l0 ut) (l0 vt) /\ forall x y, l0 ut x y = 0 /\ l0 vt x y = 0 /\ l0 w x y = - cos y.
Proof.
  split; [eexists; reflexivity|]. assert (forall x y, smooth_at (at_xy x y) (Sin Y) /\ smooth_at (at_xy x y) (Cst 0) /\ smooth_at (at_xy x y) (Cst 7)) as S by (cbn; auto).
  split; [exact S|]. destruct (C99_plot_shows_the_flow _ _ _ S) as (ut & vt & w & d & z & E & Ed & Ez & _ & He & _).
  exists ut, vt, w. split; [exact E|].
  assert (forall x y, l0 d x y = 0 /\ l0 z x y = 0 /\ l0 ut x y = 0 /\ l0 vt x y = 0 /\ l0 w x y = - cos y) as K.
  { intros x y. destruct (plot_values _ _ _ _ _ _ _ _ E Ed Ez (at_xy x y)) as (K1 & K2 & K3 & K4 & K5). unfold l0. rewrite K1, K2, K3, K4, K5. cbn. repeat split; ring. }
  split; [apply He; intros x y; split; apply K|]. intros x y. split; [|split]; apply K.
Qed.
