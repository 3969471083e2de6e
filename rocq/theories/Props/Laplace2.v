(** C96: on product grids the Hodge Laplacian is exact on forms of every degree, on primal and on dual cells. *)
From Coq Require Import ZArith Reals List Lia Lra Arith Bool.
From Coq Require Import ZifyNat FunctionalExtensionality.
From Verif Require Import Model.Sym.
From Coquelicot Require Import Coquelicot.
From Verif Require Import Model.Num Model.Np Model.Spectral Model.Basis Model.Grids1 Model.Regular Model.Chebyshev Model.Common Model.Decform Model.Grid2 Spec.Trig Spec.Poly Spec.Plane Spec.Resolved Spec.Separable
  Proofs.ListLemmas Proofs.Sums Proofs.Fourier Proofs.RIntLemmas Proofs.Trig Proofs.Grids1P Proofs.GridsThm Proofs.PeriodicBasis Proofs.TrigAlg Proofs.Lin Proofs.TableLin Proofs.ChebPoly Proofs.Refine Proofs.Arr2 Proofs.Grid2P Proofs.Grid2Ops Proofs.Stokes2.
From Verif Require Import Props.Decform Props.Refinement Props.Basis2 Proofs.Exact1 Props.Exact1 Props.Refine2 Proofs.Wedge2 Props.Stokes2 Proofs.Exact2 Props.Exact2.
From Verif Require Props.Grid2.
Import ListNotations.
Local Open Scope R_scope.
Ltac Zify.zify_post_hook ::= Z.div_mod_to_equations.

(** the exterior derivative in the plane: d f = f_x dx + f_y dy, d (u dx + v dy) = (v_x - u_y) dx^dy *)
Definition is_d (w dw : list (R -> R -> R)) : Prop :=
  match w, dw with
  | [f], [fx; fy] => partial_x f fx /\ partial_y f fy
  | [u; v], [c] => exists uy vx, partial_y u uy /\ partial_x v vx /\ forall x y, c x y = vx x y - uy x y
  | _, _ => False
  end.
(** z is the discrete derivative of a, with the boundary values of the form w where there is a boundary: on primal cells z = a.D, on
    dual cells z = a.D + BC(w) *)
Definition dplus (heap : nat -> grid (list (arr R))) (G : grid2) (a : decform) (w : list (R -> R -> R)) (z : decform) : Prop :=
  exists y, form_D heap a = Ok (ZForm y) /\
    if isprimal a then z = y
    else exists BC bc, tget (g2BC G) ((degree a + 1)%nat, false) = Ok BC /\ BC w = Ok bc /\ binary Badd y (OArr bc) = Ok z.

(** ** proofs *)
Lemma res_full k n d t u : k <> Regular -> (d <= 1)%nat -> resolved k n d t u -> resolved k n 0 true u.
Proof.
  intros Hk Hd H. destruct d as [|[|d]]; [| |lia]; destruct t; auto; destruct k; try congruence; cbn [resolved] in *; auto; unfold resolved_chebyshev in *; cbn [grid_N sizes_interval] in *; auto;
  (apply (poly_mono (n - 1 - 1)); auto; lia).
Qed.
Lemma low_any k n d t u : k <> Regular -> (d <= 1)%nat -> resolved k n 1 true u -> resolved k n d t u.
Proof.
  intros Hk Hd H. destruct d as [|[|d]]; [| |lia]; destruct t; auto; destruct k; try congruence; cbn [resolved] in *; auto; unfold resolved_chebyshev in *; cbn [grid_N sizes_interval] in *; auto;
  (apply (poly_mono (n - 1 - 1)); auto; lia).
Qed.
Lemma res_swap k n d t : k <> Regular -> (d <= 1)%nat -> resolved k n d t = resolved k n (1 - d) (negb t).
Proof. intros Hk Hd. destruct d as [|[|d]]; [| |lia]; destruct t, k; try congruence; reflexivity. Qed.
Lemma res_scal k n d t s u : k <> Regular -> resolved k n d t u -> resolved k n d t (fun x => s * u x).
Proof.
  intros Hk H. destruct k; cbn [resolved] in *; [|congruence|].
  - destruct H as (K & HK & H). exists K. split; auto. now apply td_scal.
  - now apply poly_scal.
Qed.

Section L.
Variable close : C -> C -> bool.
Variable heap : nat -> grid (list (arr R)).
Variables gx gy : grid1.
Variable G : grid2.
Variable r : nat.
Hypotheses (Hr : refers2 close heap gx gy G r) (Dx : default_extent gx) (Dy : default_extent gy)
  (Wx : works close (kd gx) (sz gx)) (Wy : works close (kd gy) (sz gy)) (Kx : kd gx <> Regular) (Ky : kd gy <> Regular).
Notation S2 := (res2 gx gy).

Lemma S_dx dx dy t f fx : (dx <= 1)%nat -> S2 dx dy t f -> partial_x f fx -> separable (resolved (kd gx) (sz gx) 1 true) (resolved (kd gy) (sz gy) dy t) fx.
Proof.
  intros Hd H Hfx. destruct (sep_dx _ _ (resolved (kd gx) (sz gx) 1 true) f (fun u Hu => res_deriv _ _ u Kx (res_full _ _ _ _ _ Kx Hd Hu)) H) as (g & Hg & Sg). apply (sep_ext _ _ g); auto. intros. now apply (partial_x_unique f).
Qed.
Lemma S_dy dx dy t f fy : (dy <= 1)%nat -> S2 dx dy t f -> partial_y f fy -> separable (resolved (kd gx) (sz gx) dx t) (resolved (kd gy) (sz gy) 1 true) fy.
Proof.
  intros Hd H Hfy. destruct (sep_dy _ _ (resolved (kd gy) (sz gy) 1 true) f (fun u Hu => res_deriv _ _ u Ky (res_full _ _ _ _ _ Ky Hd Hu)) H) as (g & Hg & Sg). apply (sep_ext _ _ g); auto. intros. now apply (partial_y_unique f).
Qed.
(** what is low in x and of degree dy in y is of any degree in x *)
Lemma S_lx dx dy t f : (dx <= 1)%nat -> separable (resolved (kd gx) (sz gx) 1 true) (resolved (kd gy) (sz gy) dy t) f -> S2 dx dy t f.
Proof. intros Hd. apply sep_mono; auto. intros u. now apply low_any. Qed.
Lemma S_ly dx dy t f : (dy <= 1)%nat -> separable (resolved (kd gx) (sz gx) dx t) (resolved (kd gy) (sz gy) 1 true) f -> S2 dx dy t f.
Proof. intros Hd. apply sep_mono; auto. intros u. now apply low_any. Qed.
Lemma S_swap dx dy t f : (dx <= 1)%nat -> (dy <= 1)%nat -> S2 dx dy t f -> S2 (1 - dx) (1 - dy) (negb t) f.
Proof. intros H1 H2. unfold res2. now rewrite (res_swap _ _ dx t), (res_swap _ _ dy t). Qed.
Lemma S_lin dx dy t f g s : S2 dx dy t f -> S2 dx dy t g -> S2 dx dy t (fun x y => f x y + s * g x y).
Proof. apply sep_lin. intros u. now apply res_scal. Qed.
Lemma S_neg dx dy t f : S2 dx dy t f -> S2 dx dy t (fun x y => - f x y).
Proof. intros H. apply (sep_ext _ _ (fun x y => f x y + (-2) * f x y)); [intros; ring|]. now apply S_lin. Qed.
Lemma S_add dx dy t f g : S2 dx dy t f -> S2 dx dy t g -> S2 dx dy t (fun x y => f x y + g x y).
Proof. intros H H'. apply (sep_ext _ _ (fun x y => f x y + 1 * g x y)); [intros; ring|]. now apply S_lin. Qed.
Lemma S_sub dx dy t f g : S2 dx dy t f -> S2 dx dy t g -> S2 dx dy t (fun x y => f x y - g x y).
Proof. intros H H'. apply (sep_ext _ _ (fun x y => f x y + (-1) * g x y)); [intros; ring|]. now apply S_lin. Qed.
Lemma S_cont dx dy t f : S2 dx dy t f -> cont2 f.
Proof. apply sep_cont; intros u Hu z; apply (res_cont _ _ _ _ _ _ Hu). Qed.
Lemma S_cont' dx dy t t' f : separable (resolved (kd gx) (sz gx) dx t) (resolved (kd gy) (sz gy) dy t') f -> cont2 f.
Proof. apply sep_cont; intros u Hu z; apply (res_cont _ _ _ _ _ _ Hu). Qed.
Lemma S_C1 dx dy t f : (dx <= 1)%nat -> (dy <= 1)%nat -> S2 dx dy t f -> exists fx fy, C1_with f fx fy.
Proof.
  intros Hx Hy H. destruct (sep_dx _ _ (resolved (kd gx) (sz gx) 1 true) f (fun u Hu => res_deriv _ _ u Kx (res_full _ _ _ _ _ Kx Hx Hu)) H) as (fx & Hfx & S1).
  destruct (sep_dy _ _ (resolved (kd gy) (sz gy) 1 true) f (fun u Hu => res_deriv _ _ u Ky (res_full _ _ _ _ _ Ky Hy Hu)) H) as (fy & Hfy & S2). exists fx, fy. split; [exact Hfx|split; [exact Hfy|split; eapply S_cont'; eassumption]].
Qed.
(** the mixed derivatives agree *)
Lemma S_mixed dx dy t f fx fy fxy fyx x y : (dx <= 1)%nat -> (dy <= 1)%nat -> S2 dx dy t f -> partial_x f fx -> partial_y f fy -> partial_y fx fxy -> partial_x fy fyx -> fxy x y = fyx x y.
Proof.
  intros Hx Hy (l & Hl & El) Hfx Hfy Hfxy Hfyx.
  assert (exists gx' gy' m, partial_x (sum_uv l) gx' /\ partial_y (sum_uv l) gy' /\ partial_y gx' m /\ partial_x gy' m) as (p & q & m & Hp & Hq & Hpy & Hqx).
  { clear - Hl Kx Ky Hx Hy.  induction l as [|[u v] l IH].
    - exists (fun _ _ => 0), (fun _ _ => 0), (fun _ _ => 0). split; [|split; [|split]]; intros x y; exact (@is_derive_const R_AbsRing R_NormedModule 0 _).
    - destruct IH as (p & q & m & Hp & Hq & Hpy & Hqx); [intros; apply Hl; now right|]. destruct (Hl u v) as [Hu Hv]; [now left|].
      destruct (res_deriv _ _ u Kx (res_full _ _ _ _ _ Kx Hx Hu)) as (u' & Du & _). destruct (res_deriv _ _ v Ky (res_full _ _ _ _ _ Ky Hy Hv)) as (v' & Dv & _).
      assert (forall a b b' (z : R), is_derive b z b' -> is_derive (fun z => a * b z) z (a * b')) as DM by (intros a b b' z Hb; apply (is_derive_scal b z a b'); exact Hb).
      assert (forall a b b' (z : R), is_derive b z b' -> is_derive (fun z => b z * a) z (b' * a)) as DM'.
      { intros a b b' z Hb. apply (is_derive_ext (fun z => a * b z)); [intro; apply Rmult_comm|]. rewrite Rmult_comm. now apply DM. }
      exists (fun x y => u' x * v y + p x y), (fun x y => u x * v' y + q x y), (fun x y => u' x * v' y + m x y). split; [|split; [|split]]; intros x y; cbn [sum_uv].
      + apply (is_derive_plus (fun x => u x * v y) (fun x => sum_uv l x y)); [apply DM', Du|apply Hp].
      + apply (is_derive_plus (fun y => u x * v y) (fun y => sum_uv l x y)); [apply DM, Dv|apply Hq].
      + apply (is_derive_plus (fun y => u' x * v y) (fun y => p x y)); [apply DM, Dv|apply Hpy].
      + apply (is_derive_plus (fun x => u x * v' y) (fun x => q x y)); [apply DM', Du|apply Hqx]. }
  assert (f = sum_uv l) as -> by (do 2 (apply functional_extensionality; intro); apply El).
  assert (p = fx) as -> by (do 2 (apply functional_extensionality; intro); now apply (partial_x_unique (sum_uv l))). assert (q = fy) as -> by (do 2 (apply functional_extensionality; intro); now apply (partial_y_unique (sum_uv l))).
  rewrite (partial_y_unique fx fxy m x y Hfxy Hpy). symmetry. now apply (partial_x_unique fy).
Qed.
Lemma tn_app l m A B i j : tn (l ++ m) A B i j = tn l A B i j + tn m A B i j.
Proof. induction l as [|[u v] l IH]; cbn [app tn]; [ring|]. rewrite IH. ring. Qed.
(** the discretisation is additive *)
Definition addf (a b : list (R -> R -> R)) : list (R -> R -> R) := zipw (fun f g x y => f x y + g x y) a b.
Lemma disc_add t w w' a b : resolved2 gx gy 1 t w -> resolved2 gx gy 1 t w' -> disc G 1 t w a -> disc G 1 t w' b -> length a = length b /\ disc G 1 t (addf w w') (vadd a b).
Proof.
  intros H H' Da Db. destruct Hr as [EG _]. pose proof (works_good close gx Dx Wx) as Gx. pose proof (works_good close gy Dy Wy) as Gy. destruct (product_ok close gx gy Gx Gy) as (sx & sy & _ & Ex & Ey & _).
  destruct (resolved_repr gx gy 1 t w ltac:(lia) H) as (ls & Rl & Ll & Nl). destruct (resolved_repr gx gy 1 t w' ltac:(lia) H') as (ms & Rm & Lm & Nm).
  cbn [ncomp Nat.eqb] in *. destruct w as [|f [|g [|]]]; try discriminate. destruct w' as [|f' [|g' [|]]]; try discriminate.
  pose proof Rl as Rl0. pose proof Rm as Rm0. apply repr2 in Rl as (l & k & -> & Cl & El & Ck & Ek). apply repr2 in Rm as (l' & k' & -> & Cl' & El' & Ck' & Ek').
  pose proof (disc_fun G 1 t _ _ _ Da (disc_val close gx gy G EG Gx Gy sx sy Ex Ey 1 t [f; g] [l; k] ltac:(lia) Rl0 eq_refl)) as ->.
  pose proof (disc_fun G 1 t _ _ _ Db (disc_val close gx gy G EG Gx Gy sx sy Ex Ey 1 t [f'; g'] [l'; k'] ltac:(lia) Rm0 eq_refl)) as ->.
  split; [cbn [pjs]; unfold Exact2.pj; now rewrite !app_length, !length_flat|].
  replace (vadd (pjs gx gy sx sy 1 t [l; k]) (pjs gx gy sx sy 1 t [l'; k'])) with (pjs gx gy sx sy 1 t [l ++ l'; k ++ k']).
  - apply (disc_val close); auto. assert (forall a b : uvs, conts a -> conts b -> conts (a ++ b)) as CA by (intros p q Hp Hq u v K; apply in_app_or in K as [K|K]; auto).
    unfold addf. cbn [zipw]. constructor; [|constructor; [|constructor]]; (split; [auto|]); intros x y; rewrite sum_app; congruence.
  - cbn [pjs]. unfold Exact2.pj, vadd. rewrite zipw_app by (now rewrite !length_flat). rewrite !flat_zip. f_equal; apply flat_ext; intros i j _ _; apply tn_app.
Qed.

Lemma bc_zero d w BC bc : kd gx = Periodic -> kd gy = Periodic -> (d <= 1)%nat -> tget (g2BC G) ((d + 1)%nat, false) = Ok BC -> BC w = Ok bc -> exists n, bc = repeat 0 n.
Proof.
  intros Ekx Eky Hd EB FB. pose proof Hr as [EG Eh]. pose proof (works_good close gx Dx Wx) as Gx. pose proof (works_good close gy Dy Wy) as Gy.
  destruct (product_ok close gx gy Gx Gy) as (sx & sy & G' & Ex & Ey & EG' & _ & _ & _ & _ & _ & HB & _). rewrite EG in EG'. injection EG' as <-. rewrite HB in EB.
  destruct d as [|[|d]]; [| |lia]; cbn [Nat.add] in EB.
  - destruct w as [|f [|]]; try (injection EB as <-; discriminate FB).
    destruct (B1_flat gx gy sx sy Gx Gy Ex Ey f) as (b' & Eb & Hb). rewrite EB in Eb. injection Eb as <-. rewrite FB in Hb. injection Hb as ->. rewrite !flat_zero.
    + rewrite <- repeat_app. eauto.
    + intros i j Hi Hj. destruct (mask_periodic gy sy i Gy Ey Eky Hi) as [M1 M2]. rewrite !when_Reqb_neq by assumption. ring.
    + intros i j Hi Hj. destruct (mask_periodic gx sx j Gx Ex Ekx Hj) as [M1 M2]. rewrite !when_Reqb_neq by assumption. ring.
  - destruct w as [|f [|g [|]]]; try (injection EB as <-; discriminate FB).
    destruct (B2_flat gx gy sx sy Gx Gy Ex Ey f g) as (b' & Eb & Hb). rewrite EB in Eb. injection Eb as <-. rewrite FB in Hb. injection Hb as ->. rewrite flat_zero; [eauto|].
    intros i j Hi Hj. cbv zeta. destruct (mask_periodic gx sx j Gx Ex Ekx Hj) as [M1 M2]. destruct (mask_periodic gy sy i Gy Ey Eky Hi) as [M3 M4]. rewrite !when_Reqb_neq by assumption. ring.
Qed.
Lemma vadd_zeros (a : list R) n : length a = n -> vadd a (repeat 0 n) = a.
Proof. intros <-. unfold vadd. induction a as [|x a IH]; cbn [length repeat zipw]; [reflexivity|]. rewrite IH. f_equal. change nadd with Rplus. ring. Qed.
Lemma dplus_fun a w z z' : dplus heap G a w z -> dplus heap G a w z' -> z = z'.
Proof.
  intros (y & E & H) (y' & E' & H'). rewrite E in E'. injection E' as <-. destruct (isprimal a); [congruence|]. destruct H as (BC & b & EB & FB & A), H' as (BC' & b' & EB' & FB' & A').
  rewrite EB in EB'. injection EB' as <-. rewrite FB in FB'. injection FB' as <-. congruence.
Qed.

(** one step: the derivative of a resolved form is resolved, and the discrete derivative with the boundary values of the form is
    its discretisation *)
Theorem C96_derivative d t w dw : (d <= 1)%nat -> resolved2 gx gy d t w -> is_d w dw ->
  resolved2 gx gy (d + 1) t dw /\
  exists a b, disc G d t w a /\ disc G (d + 1) t dw b /\ dplus heap G (MkForm d t r a) w (MkForm (d + 1) t r b) /\
    (kd gx = Periodic -> kd gy = Periodic -> form_D heap (MkForm d t r a) = Ok (ZForm (MkForm (d + 1) t r b))).
Proof.
  intros Hd Hw Hi. pose proof Hr as [EG Eh]. pose proof (works_good close gx Dx Wx) as Gx. pose proof (works_good close gy Dy Wy) as Gy.
  assert (forall a b v, length a = length b -> vadd a b = v -> binary Badd (MkForm (d + 1) t r a) (OArr b) = Ok (MkForm (d + 1) t r v)) as BA.
  { intros a b v L E. unfold binary. cbn [bop_fn bind degree isprimal gref array]. unfold np_bin. rewrite L, Nat.eqb_refl. cbn [bind]. rewrite <- E. reflexivity. }
  destruct d as [|[|d]]; [| |lia]; cbn [resolved2] in Hw.
  - destruct w as [|f [|]]; try contradiction. destruct dw as [|fx [|fy [|]]]; try contradiction. destruct Hi as [Hfx Hfy].
    assert (S2 1 0 t fx) as Sx by (apply S_lx; [lia|]; apply (S_dx 0 0 t f); auto). assert (S2 0 1 t fy) as Sy by (apply S_ly; [lia|]; apply (S_dy 0 0 t f); auto).
    split; [split; assumption|]. assert (C1_with f fx fy) as C1 by (split; [assumption|split; [assumption|split; eapply S_cont; eassumption]]).
    pose proof (sep_periodic_x gx gy 0 0 t f Dx Hw) as Px. pose proof (sep_periodic_y gx gy 0 0 t f Dy Hw) as Py. destruct t.
    + destruct (C45_stokes0_primal close gx gy G f fx fy Gx Gy EG C1 (periodic_wraps_x _ _ Px) (periodic_wraps_y _ _ Py)) as (P0 & P1 & D0 & u & v & E0 & E1 & ED & F0 & F1 & FD).
      exists u, v. split; [apply (disc_get G 0 true _ P0 E0 u F0)|]. split; [apply (disc_get G 1 true _ P1 E1 v F1)|]. assert (form_D heap (MkForm 0 true r u) = Ok (ZForm (MkForm 1 true r v))) as FDu by (apply (form_D2 close heap gx gy G r 0 true D0); auto). split; [|auto]. exists (MkForm 1 true r v). split; [exact FDu|reflexivity].
    + destruct (C45_stokes0_dual close gx gy G f fx fy Gx Gy EG C1 Px Py) as (P0 & P1 & D0 & BC & u & v & z & b & E0 & E1 & ED & EB & F0 & F1 & FD & FB & L & E).
      exists u, v. split; [apply (disc_get G 0 false _ P0 E0 u F0)|]. split; [apply (disc_get G 1 false _ P1 E1 v F1)|]. split.
      * exists (MkForm 1 false r z). split; [apply (form_D2 close heap gx gy G r 0 false D0); auto|]. exists BC, b. split; [exact EB|]. split; [exact FB|]. now apply BA.
      * intros Ekx Eky. destruct (bc_zero 0 _ BC b Ekx Eky ltac:(lia) EB FB) as [m ->]. rewrite repeat_length in L. rewrite (vadd_zeros z m L) in E. subst z. apply (form_D2 close heap gx gy G r 0 false D0); auto.
  - destruct w as [|u [|v [|]]]; try contradiction. destruct dw as [|c [|]]; try contradiction. destruct Hi as (uy & vx & Huy & Hvx & Ec). destruct Hw as [Su Sv].
    assert (S2 1 1 t uy) as Sy by (apply S_ly; [lia|]; apply (S_dy 1 0 t u); auto). assert (S2 1 1 t vx) as Sx by (apply S_lx; [lia|]; apply (S_dx 0 1 t v); auto).
    assert (c = fun x y => vx x y - uy x y) as -> by (do 2 (apply functional_extensionality; intro); apply Ec).
    split; [now apply S_sub|]. destruct (S_C1 1 0 t u ltac:(lia) ltac:(lia) Su) as (ux & uy' & C1). destruct (S_C1 0 1 t v ltac:(lia) ltac:(lia) Sv) as (vx' & vy & C2).
    assert (uy' = uy) as -> by (do 2 (apply functional_extensionality; intro); apply (partial_y_unique u); auto; apply C1). assert (vx' = vx) as -> by (do 2 (apply functional_extensionality; intro); apply (partial_x_unique v); auto; apply C2).
    pose proof (sep_periodic_y gx gy 1 0 t u Dy Su) as Pu. pose proof (sep_periodic_x gx gy 0 1 t v Dx Sv) as Pv. destruct t.
    + destruct (C45_stokes1_primal close gx gy G u ux uy v vx vy Gx Gy EG C1 C2 (periodic_wraps_y _ _ Pu) (periodic_wraps_x _ _ Pv)) as (P0 & P1 & D0 & a & b & E0 & E1 & ED & F0 & F1 & FD).
      exists a, b. split; [apply (disc_get G 1 true _ P0 E0 a F0)|]. split; [apply (disc_get G 2 true _ P1 E1 b F1)|]. assert (form_D heap (MkForm 1 true r a) = Ok (ZForm (MkForm 2 true r b))) as FDu by (apply (form_D2 close heap gx gy G r 1 true D0); auto). split; [|auto]. exists (MkForm 2 true r b). split; [exact FDu|reflexivity].
    + destruct (C45_stokes1_dual close gx gy G u ux uy v vx vy Gx Gy EG C1 C2 Pu Pv) as (P0 & P1 & D0 & BC & a & q & z & b & E0 & E1 & ED & EB & F0 & F1 & FD & FB & L & E).
      exists a, q. split; [apply (disc_get G 1 false _ P0 E0 a F0)|]. split; [apply (disc_get G 2 false _ P1 E1 q F1)|]. split.
      * exists (MkForm 2 false r z). split; [apply (form_D2 close heap gx gy G r 1 false D0); auto|]. exists BC, b. split; [exact EB|]. split; [exact FB|]. now apply BA.
      * intros Ekx Eky. destruct (bc_zero 1 _ BC b Ekx Eky ltac:(lia) EB FB) as [m ->]. rewrite repeat_length in L. rewrite (vadd_zeros z m L) in E. subst z. apply (form_D2 close heap gx gy G r 1 false D0); auto.
Qed.
Lemma star_resolved d t w : (d <= 2)%nat -> resolved2 gx gy d t w -> resolved2 gx gy (2 - d) (negb t) (star w).
Proof.
  intros Hd H. destruct d as [|[|[|d]]]; [| | |lia]; cbn [resolved2] in H; destruct w as [|f [|g [|]]]; try contradiction; cbn [star Nat.sub resolved2].
  - apply (S_swap 0 0 t); [lia|lia|assumption].
  - destruct H as [Hf Hg]. split; [apply S_neg; apply (S_swap 0 1 t); [lia|lia|assumption]|apply (S_swap 1 0 t); [lia|lia|assumption]].
  - apply (S_swap 1 1 t); [lia|lia|assumption].
Qed.
(** the two kinds of steps, from a given array *)
Lemma step_D d t w dw a : (d <= 1)%nat -> resolved2 gx gy d t w -> is_d w dw -> disc G d t w a ->
  resolved2 gx gy (d + 1) t dw /\ exists b, disc G (d + 1) t dw b /\ dplus heap G (MkForm d t r a) w (MkForm (d + 1) t r b).
Proof.
  intros Hd Hw Hi Da. destruct (C96_derivative d t w dw Hd Hw Hi) as (Sw & a' & b & Da' & Db & E & _). pose proof (disc_fun G d t w a a' Da Da') as <-. split; [assumption|]. exists b. auto.
Qed.
Lemma step_H d t w a : (d <= 2)%nat -> resolved2 gx gy d t w -> disc G d t w a ->
  resolved2 gx gy (2 - d) (negb t) (star w) /\ exists b, disc G (2 - d) (negb t) (star w) b /\ form_H heap (MkForm d t r a) = Ok (MkForm (2 - d) (negb t) r b).
Proof.
  intros Hd Hw Da. destruct (C80_hodge_exact close heap gx gy G r d t w Hr Dx Dy Wx Wy Hd Hw) as (a' & b & Da' & Db & E). pose proof (disc_fun G d t w a a' Da Da') as <-. split; [now apply star_resolved|]. exists b. auto.
Qed.
Lemma disc_exists d t w : (d <= 2)%nat -> resolved2 gx gy d t w -> exists a, disc G d t w a.
Proof. intros Hd Hw. destruct (C80_hodge_exact close heap gx gy G r d t w Hr Dx Dy Wx Wy Hd Hw) as (a & b & Da & _). eauto. Qed.
Lemma disc_ext d t w w' a : Forall2 (fun f g => forall x y, f x y = g x y) w w' -> disc G d t w a -> disc G d t w' a.
Proof. intros H. assert (w = w') as ->; auto. induction H as [|f g w w' E H IH]; [reflexivity|]. f_equal; [|exact IH]. do 2 (apply functional_extensionality; intro). apply E. Qed.
Lemma partial_y_neg f g : partial_y f g -> partial_y (fun x y => - f x y) (fun x y => - g x y).
Proof. intros H x y. apply (is_derive_opp (fun y => f x y)). apply H. Qed.
Lemma partial_x_neg f g : partial_x f g -> partial_x (fun x y => - f x y) (fun x y => - g x y).
Proof. intros H x y. apply (is_derive_opp (fun x => f x y)). apply H. Qed.

(** *d*d f = f_xx + f_yy for 0-forms *)
Theorem C96_laplacian0 t f fx fy fxx fyy : resolved2 gx gy 0 t [f] -> partial_x f fx -> partial_y f fy -> partial_x fx fxx -> partial_y fy fyy ->
  exists a z1 z2 z3 c, disc G 0 t [f] a /\
    dplus heap G (MkForm 0 t r a) [f] z1 /\ form_H heap z1 = Ok z2 /\ dplus heap G z2 [fun x y => - fy x y; fx] z3 /\ form_H heap z3 = Ok (MkForm 0 t r c) /\
    disc G 0 t [fun x y => fxx x y + fyy x y] c.
Proof.
  intros Hf Hfx Hfy Hfxx Hfyy. destruct (disc_exists 0 t [f] ltac:(lia) Hf) as (a & Da).
  destruct (step_D 0 t [f] [fx; fy] a ltac:(lia) Hf (conj Hfx Hfy) Da) as (S1 & b & Db & E1). destruct (step_H 1 t _ b ltac:(lia) S1 Db) as (S2' & c & Dc & E2). cbn [star Nat.sub Nat.add] in *.
  destruct (step_D 1 (negb t) _ [fun x y => fxx x y + fyy x y] c ltac:(lia) S2') as (S3 & e & De & E3); [|exact Dc|].
  { exists (fun x y => - fyy x y), fxx. split; [now apply partial_y_neg|]. split; [assumption|]. intros. ring. }
  destruct (step_H 2 (negb t) _ e ltac:(lia) S3 De) as (S4 & h & Dh & E4). cbn [star Nat.sub Nat.add] in *. rewrite negb_involutive in *.
  exists a, (MkForm 1 t r b), (MkForm 1 (negb t) r c), (MkForm 2 (negb t) r e), h. auto 10.
Qed.
(** d*d* (f dx^dy) = (f_xx + f_yy) dx^dy for 2-forms *)
Theorem C96_laplacian2 t f fx fy fxx fyy : resolved2 gx gy 2 t [f] -> partial_x f fx -> partial_y f fy -> partial_x fx fxx -> partial_y fy fyy ->
  exists a z1 z2 z3 c, disc G 2 t [f] a /\
    form_H heap (MkForm 2 t r a) = Ok z1 /\ dplus heap G z1 [f] z2 /\ form_H heap z2 = Ok z3 /\ dplus heap G z3 [fun x y => - fy x y; fx] (MkForm 2 t r c) /\
    disc G 2 t [fun x y => fxx x y + fyy x y] c.
Proof.
  intros Hf Hfx Hfy Hfxx Hfyy. destruct (disc_exists 2 t [f] ltac:(lia) Hf) as (a & Da).
  destruct (step_H 2 t _ a ltac:(lia) Hf Da) as (S0 & b & Db & E0). cbn [star Nat.sub Nat.add] in *.
  destruct (step_D 0 (negb t) [f] [fx; fy] b ltac:(lia) S0 (conj Hfx Hfy) Db) as (S1 & c & Dc & E1). destruct (step_H 1 (negb t) _ c ltac:(lia) S1 Dc) as (S2' & e & De & E2). cbn [star Nat.sub Nat.add] in *. rewrite negb_involutive in *.
  destruct (step_D 1 t _ [fun x y => fxx x y + fyy x y] e ltac:(lia) S2') as (S3 & h & Dh & E3); [|exact De|].
  { exists (fun x y => - fyy x y), fxx. split; [now apply partial_y_neg|]. split; [assumption|]. intros. ring. }
  exists a, (MkForm 0 (negb t) r b), (MkForm 1 (negb t) r c), (MkForm 1 t r e), h. auto 10.
Qed.
(** *d*d w + d*d* w, w = u dx + v dy, is (u_xx + u_yy) dx + (v_xx + v_yy) dy for 1-forms: the boundary values of the form, of its curl, of
    its Hodge star and of its divergence enter *)
Theorem C96_laplacian1 t u v ux uy vx vy uxx uyy vxx vyy : resolved2 gx gy 1 t [u; v] ->
  partial_x u ux -> partial_y u uy -> partial_x v vx -> partial_y v vy -> partial_x ux uxx -> partial_y uy uyy -> partial_x vx vxx -> partial_y vy vyy ->
  exists a z1 z2 z3 z4 y1 y2 y3 y4 c, disc G 1 t [u; v] a /\
    dplus heap G (MkForm 1 t r a) [u; v] z1 /\ form_H heap z1 = Ok z2 /\ dplus heap G z2 [fun x y => vx x y - uy x y] z3 /\ form_H heap z3 = Ok z4 /\
    form_H heap (MkForm 1 t r a) = Ok y1 /\ dplus heap G y1 [fun x y => - v x y; u] y2 /\ form_H heap y2 = Ok y3 /\ dplus heap G y3 [fun x y => ux x y + vy x y] y4 /\
    binary Badd z4 (OForm y4) = Ok (MkForm 1 t r c) /\
    disc G 1 t [fun x y => uxx x y + uyy x y; fun x y => vxx x y + vyy x y] c.
Proof.
  intros H Hux Huy Hvx Hvy Huxx Huyy Hvxx Hvyy. destruct (disc_exists 1 t [u; v] ltac:(lia) H) as (a & Da).
  destruct H as [Su Sv].
  assert (S2 0 0 t ux) as Sux by (apply S_lx; [lia|]; apply (S_dx 1 0 t u); [lia|assumption|assumption]). assert (S2 1 1 t uy) as Suy by (apply S_ly; [lia|]; apply (S_dy 1 0 t u); [lia|assumption|assumption]).
  assert (S2 1 1 t vx) as Svx by (apply S_lx; [lia|]; apply (S_dx 0 1 t v); [lia|assumption|assumption]). assert (S2 0 0 t vy) as Svy by (apply S_ly; [lia|]; apply (S_dy 0 1 t v); [lia|assumption|assumption]).
  destruct (S_C1 0 0 t ux ltac:(lia) ltac:(lia) Sux) as (uxx' & uxy & C1). destruct (S_C1 1 1 t uy ltac:(lia) ltac:(lia) Suy) as (uyx & uyy' & C2).
  destruct (S_C1 1 1 t vx ltac:(lia) ltac:(lia) Svx) as (vxx' & vxy & C3). destruct (S_C1 0 0 t vy ltac:(lia) ltac:(lia) Svy) as (vyx & vyy' & C4).
  pose proof C1 as (_ & Huxy & _). pose proof C2 as (Huyx & _). pose proof C3 as (_ & Hvxy & _). pose proof C4 as (Hvyx & _).
  assert (forall p q p' q', partial_x p p' -> partial_x q q' -> partial_x (fun x y => p x y + q x y) (fun x y => p' x y + q' x y)) as PX by (intros p q p' q' A B x y; apply (is_derive_plus (fun x => p x y) (fun x => q x y)); [apply A|apply B]).
  assert (forall p q p' q', partial_y p p' -> partial_y q q' -> partial_y (fun x y => p x y + q x y) (fun x y => p' x y + q' x y)) as PY by (intros p q p' q' A B x y; apply (is_derive_plus (fun y => p x y) (fun y => q x y)); [apply A|apply B]).
  assert (forall p q p' q', partial_x p p' -> partial_x q q' -> partial_x (fun x y => p x y - q x y) (fun x y => p' x y - q' x y)) as MX by (intros p q p' q' A B x y; apply (is_derive_minus (fun x => p x y) (fun x => q x y)); [apply A|apply B]).
  assert (forall p q p' q', partial_y p p' -> partial_y q q' -> partial_y (fun x y => p x y - q x y) (fun x y => p' x y - q' x y)) as MY by (intros p q p' q' A B x y; apply (is_derive_minus (fun y => p x y) (fun y => q x y)); [apply A|apply B]).
  (* *d*d *)
  destruct (step_D 1 t [u; v] [fun x y => vx x y - uy x y] a ltac:(lia) (conj Su Sv)) as (Q1 & b & Db & E1); [exists uy, vx; auto|exact Da|].
  destruct (step_H 2 t _ b ltac:(lia) Q1 Db) as (Q2 & c & Dc & E2). cbn [star Nat.sub Nat.add] in *.
  destruct (step_D 0 (negb t) _ [fun x y => vxx x y - uyx x y; fun x y => vxy x y - uyy x y] c ltac:(lia) Q2) as (Q3 & e & De & E3); [split; [now apply MX|now apply MY]|exact Dc|].
  destruct (step_H 1 (negb t) _ e ltac:(lia) Q3 De) as (Q4 & h & Dh & E4). cbn [star Nat.sub Nat.add] in *. rewrite negb_involutive in *.
  (* d*d* *)
  destruct (step_H 1 t [u; v] a ltac:(lia) (conj Su Sv) Da) as (R1 & b' & Db' & E1'). cbn [star Nat.sub Nat.add] in *.
  destruct (step_D 1 (negb t) _ [fun x y => ux x y + vy x y] b' ltac:(lia) R1) as (R2 & c' & Dc' & E2'); [|exact Db'|].
  { exists (fun x y => - vy x y), ux. split; [now apply partial_y_neg|]. split; [assumption|]. intros. ring. }
  destruct (step_H 2 (negb t) _ c' ltac:(lia) R2 Dc') as (R3 & e' & De' & E3'). cbn [star Nat.sub Nat.add] in *. rewrite negb_involutive in *.
  destruct (step_D 0 t _ [fun x y => uxx x y + vyx x y; fun x y => uxy x y + vyy x y] e' ltac:(lia) R3) as (R4 & h' & Dh' & E4'); [split; [now apply PX|now apply PY]|exact De'|].
  destruct (disc_add t _ _ h h' Q4 R4 Dh Dh') as [Lh Ds].
  exists a, (MkForm 2 t r b), (MkForm 0 (negb t) r c), (MkForm 1 (negb t) r e), (MkForm 1 t r h), (MkForm 1 (negb t) r b'), (MkForm 2 (negb t) r c'), (MkForm 0 t r e'), (MkForm 1 t r h'), (vadd h h').
  do 9 (split; [assumption|]). split.
  - unfold binary. cbn [degree gref isprimal array Nat.eqb negb]. rewrite Nat.eqb_refl, eqb_reflx. cbn [negb bop_fn bind]. unfold np_bin. rewrite Lh, Nat.eqb_refl. reflexivity.
  - revert Ds. apply disc_ext. unfold addf. cbn [zipw]. constructor; [|constructor; [|constructor]]; intros x y.
    + rewrite <- (S_mixed 0 1 t v vx vy vxy vyx x y ltac:(lia) ltac:(lia)) by assumption. ring.
    + rewrite <- (S_mixed 1 0 t u ux uy uxy uyx x y ltac:(lia) ltac:(lia)) by assumption. ring.
Qed.
(** on doubly periodic grids there is no boundary: the boundary terms of the theorems above vanish *)
Theorem C96_periodic d t w dw a z : kd gx = Periodic -> kd gy = Periodic -> (d <= 1)%nat -> resolved2 gx gy d t w -> is_d w dw -> disc G d t w a ->
  dplus heap G (MkForm d t r a) w z -> form_D heap (MkForm d t r a) = Ok (ZForm z).
Proof.
  intros Ekx Eky Hd Hw Hi Da Hz. destruct (C96_derivative d t w dw Hd Hw Hi) as (Sw & a' & b & Da' & Db & E & F). pose proof (disc_fun G d t w a a' Da Da') as <-. rewrite (dplus_fun _ _ _ _ Hz E). now apply F.
Qed.
End L.

(** ** instances on the product of the periodic and the Chebyshev grid with 3 points: the dual 0-form sin(x) y, the dual 1-form
    sin(x) y dx + sin(x) y^2 dy *)
Lemma id_poly m : (1 <= m)%nat -> polynomial m (fun y => y).
Proof.
  intro Hm. apply (poly_mono 1); auto. exists (fun i => if Nat.eqb i 1 then 1 else 0). intro x. cbn [Rsum Nat.eqb pow]. ring.
Qed.
Definition ui (x y : R) : R := sin x * y.
Definition vi (x y : R) : R := sin x * y ^ 2.
Lemma ui_resolved : resolved2 per3 che3 0 false [ui].
Proof. apply (sep1 _ _ sin (fun y => y)); [now apply sin_resolved|]. apply id_poly. cbn. lia. Qed.
Lemma uvi_resolved : resolved2 per3 che3 1 false [ui; vi].
Proof. split; [apply (sep1 _ _ sin (fun y => y)); [now apply sin_resolved|]; apply id_poly; cbn; lia|apply (sep1 _ _ sin (fun y => y ^ 2)); [now apply sin_resolved|exact sqr_poly]]. Qed.
Example C96_instance : exists G, product never per3 che3 = Ok G /\ let heap := fun _ : nat => grid_of2 G in
  (exists a z1 z2 z3 c, disc G 0 false [ui] a /\ dplus heap G (MkForm 0 false 0 a) [ui] z1 /\ form_H heap z1 = Ok z2 /\
     dplus heap G z2 [fun x y => - sin x; fun x y => cos x * y] z3 /\ form_H heap z3 = Ok (MkForm 0 false 0 c) /\ disc G 0 false [fun x y => - sin x * y + 0] c) /\
  (exists a z1 z2 z3 z4 y1 y2 y3 y4 c, disc G 1 false [ui; vi] a /\
     dplus heap G (MkForm 1 false 0 a) [ui; vi] z1 /\ form_H heap z1 = Ok z2 /\ dplus heap G z2 [fun x y => cos x * y ^ 2 - sin x] z3 /\ form_H heap z3 = Ok z4 /\
     form_H heap (MkForm 1 false 0 a) = Ok y1 /\ dplus heap G y1 [fun x y => - vi x y; ui] y2 /\ form_H heap y2 = Ok y3 /\ dplus heap G y3 [fun x y => cos x * y + sin x * (2 * y)] y4 /\
     binary Badd z4 (OForm y4) = Ok (MkForm 1 false 0 c) /\ disc G 1 false [fun x y => - sin x * y + 0; fun x y => - sin x * y ^ 2 + sin x * 2] c).
Proof.
  destruct che_works as [Wc Uc]. assert (works never Periodic 3) as Wp by (cbn; lia).
  assert (good per3 /\ good che3) as [Gp Gc] by (split; split; cbn; try lia; pose proof PI_RGT_0; lra).
  destruct (Props.Grid2.C46_product_exists never per3 che3 Gp Gc) as (G & EG). exists G. split; [exact EG|]. cbn zeta.
  assert (refers2 never (fun _ => grid_of2 G) per3 che3 G 0) as HR by (split; auto).
  assert (default_extent per3 /\ default_extent che3) as [Dp Dc] by (split; split; reflexivity). split.
  - apply (C96_laplacian0 never (fun _ => grid_of2 G) per3 che3 G 0 HR Dp Dc Wp Wc ltac:(discriminate) ltac:(discriminate) false ui (fun x y => cos x * y) (fun x y => sin x) (fun x y => - sin x * y) (fun _ _ => 0) ui_resolved);
    intros x y; unfold ui; auto_derive; auto; ring.
  - apply (C96_laplacian1 never (fun _ => grid_of2 G) per3 che3 G 0 HR Dp Dc Wp Wc ltac:(discriminate) ltac:(discriminate) false ui vi (fun x y => cos x * y) (fun x y => sin x) (fun x y => cos x * y ^ 2) (fun x y => sin x * (2 * y))
      (fun x y => - sin x * y) (fun _ _ => 0) (fun x y => - sin x * y ^ 2) (fun x y => sin x * 2) uvi_resolved);
    intros x y; unfold ui, vi; auto_derive; auto; ring.
Qed.
