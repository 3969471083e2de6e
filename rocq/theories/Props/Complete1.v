(** C82: on a 1D grid every discrete form is the discretisation of exactly one function the grid resolves, the reconstruction
    is this function, and the discrete operators are the continuous operators on the reconstructions. *)
From Coq Require Import ZArith Reals List Lia Lra Arith Bool.
From Coq Require Import ZifyNat FinFun.
From Verif Require Import Model.Sym.
From Coquelicot Require Import Coquelicot.
From Verif Require Import Model.Num Model.Np Model.Spectral Model.Basis Model.Grids1 Model.Regular Model.Chebyshev Model.Common Model.Decform Model.Grid2 Spec.Trig Spec.Poly Spec.Resolved
  Proofs.ListLemmas Proofs.Sums Proofs.Fourier Proofs.RIntLemmas Proofs.Trig Proofs.Grids1P Proofs.GridsThm Proofs.PeriodicBasis Proofs.RegularBasis Proofs.TrigAlg Proofs.Lin Proofs.TableLin Proofs.ChebPoly Proofs.Cheb2 Proofs.Refine Proofs.Grid2P.
From Verif Require Import Props.Chebyshev Props.Lagrange Props.Decform Props.Refinement Props.Basis2 Props.Grid2 Proofs.Exact1 Props.Exact1.
Import ListNotations.
Local Open Scope R_scope.
Ltac Zify.zify_post_hook ::= Z.div_mod_to_equations.

(** a periodic grid with an even number of points does not tell sin(nx/2) from 0 *)
Definition complete (g : grid1) : Prop := kd g = Periodic -> Nat.odd (sz g) = true.

Lemma works_good close g : default_extent g -> works close (kd g) (sz g) -> sound close g.
Proof.
  intros He Hw. destruct g as [k n l h]. unfold default_extent in He. cbn [kd sz lo hi] in *. pose proof PI_RGT_0. destruct k; cbn in Hw, He; (split; [split; cbn; auto; try tauto; lra|cbn; try discriminate; tauto]).
Qed.
Lemma resolve0 close g c p a : default_extent g -> works close (kd g) (sz g) -> complete g -> cells_of g = Ok c -> length a = grid_N (kd g) (sz g) 0 p ->
  exists f, resolved (kd g) (sz g) 0 p f /\ proj c 0 p f = a.
Proof.
  intros He Hw Ho E L. pose proof (default_cells g c He E) as Hc. destruct g as [k n l h]. unfold complete in Ho. cbn [kd sz] in *. destruct k; cbn [works grid_N resolved] in *.
  - subst c. assert (length a = n) as L' by (rewrite L; destruct p; reflexivity). clear L. specialize (Ho eq_refl). rewrite <- L' in *.
    assert (trig_degree (length a / 2) (interp a)) as Hi by (destruct (interp_trig a) as (u & v & _ & H); [lia|]; exists u, v; exact H).
    assert (forall s, resolved_periodic (length a) (fun t => interp a (t + s))) as R.
    { intro s. exists (length a / 2)%nat. split; [|now apply td_shift]. apply Nat.odd_spec in Ho as [m Hm]. lia. }
    exists (fun t => interp a (t + if p then 0 else - (hstep (length a) / 2))). split; [change (sizes_periodic (length a) 0 p) with (length a); apply R|].
    rewrite per_val by (auto; intro t; apply (td_cont (length a / 2)); now apply td_shift). apply tab_nth; auto. intros i Hi'. rewrite <- (interp_grid a i Hi'). destruct p; f_equal; ring.
  - destruct (cd_cells n Hw) as (c' & E' & Ev & _ & Ed & _). destruct (rc n Hw c Hc) as (Ev' & _ & Ed' & _).
    destruct (C30_interpolation n Hw) as (c'' & E'' & _ & I0 & _ & I1 & _). rewrite E' in E''. injection E'' as <-. destruct p; cbn [sizes_interval] in *.
    + destruct (I0 a L) as (q & Hq & Hp). exists (fun t => q (- cos t)). split; [now apply poly_cosp|]. rewrite <- Hp. cbn [proj]. unfold P0, proj0. now rewrite Ev, Ev', !map_tab.
    + destruct (I1 a L) as (q & Hq & Hp). exists (fun t => q (- cos t)). split; [replace (n - 1)%nat with (S (n - 2)) by lia; unfold resolved_regular; cbn [Nat.sub]; rewrite Nat.sub_0_r; now apply poly_cosp|].
      rewrite <- Hp. cbn [proj]. unfold P0d, proj0. now rewrite Ed, Ed', !map_tab.
  - destruct Hw as [Hn _]. destruct (C30_interpolation n Hn) as (c' & E' & _ & I0 & _ & I1 & _). rewrite Hc in E'. injection E' as <-. destruct p; cbn [sizes_interval] in *.
    + exact (I0 a L).
    + destruct (I1 a L) as (q & Hq & Hp). exists q. split; auto. unfold resolved_chebyshev. now replace (n - 1 - 1)%nat with (n - 2)%nat by lia.
Qed.
Lemma resolve close g c d p a : default_extent g -> works close (kd g) (sz g) -> complete g -> cells_of g = Ok c -> (d <= 1)%nat -> length a = grid_N (kd g) (sz g) d p ->
  exists f, resolved (kd g) (sz g) d p f /\ proj c d p f = a.
Proof.
  intros He Hw Ho E Hd L. destruct d as [|[|d]]; [| |lia]; [now apply (resolve0 close)|].
  pose proof (works_good close g He Hw) as Sg. assert (grid_N (kd g) (sz g) 1 p = grid_N (kd g) (sz g) 0 (negb p)) as EN by (destruct (kd g), p; reflexivity).
  destruct (h_pair close g 1 p Sg ltac:(lia)) as (h & h' & Lh & Lh' & Eh & Eh' & Hinv). cbn [Nat.sub] in *.
  assert (length (h a) = Nd g 0 (negb p)) as Lha by (apply (Logic.proj1 Lh a); exact L).
  destruct (resolve0 close g c (negb p) (h a) He Hw Ho E Lha) as (f & Hf & Pf). exists f. split; [unfold resolved in *; now rewrite EN|].
  destruct (table_H_exact close g c 0 (negb p) f He Hw E ltac:(lia) Hf) as (o & Eo & Ho'). rewrite negb_involutive in Ho'. cbn [Nat.sub] in Ho'. rewrite Pf in Ho'.
  specialize (Eh' (h a) Lha). unfold hget in Eh'. rewrite Eo in Eh'. rewrite Ho' in Eh'. assert (proj c 1 p f = h' (h a)) as -> by congruence. now apply Hinv.
Qed.

(** two resolved functions that agree inside the grid agree everywhere *)
Lemma cosp_abs K f x : cosp K f -> exists y, 0 <= y <= PI /\ f x = f y.
Proof.
  intro H. assert (forall z x, f (x + 2 * PI * IZR z) = f x) as Hp.
  { assert (forall m x, f (x + 2 * PI * INR m) = f x) as HP.
    { induction m as [|m IH]; intro u; [cbn; f_equal; ring|]. rewrite <- (IH u). rewrite S_INR. rewrite <- (cosp_period K f (u + 2 * PI * INR m) H). f_equal. ring. }
    intros z u. destruct (Z_le_gt_dec 0 z) as [Hz|Hz].
    - replace (IZR z) with (INR (Z.to_nat z)) by (rewrite INR_IZR_INZ; f_equal; lia). apply HP.
    - rewrite <- (HP (Z.to_nat (- z)) (u + 2 * PI * IZR z)). f_equal. replace (INR (Z.to_nat (- z))) with (- IZR z) by (rewrite INR_IZR_INZ, <- opp_IZR; f_equal; lia). ring. }
  pose proof PI_RGT_0. destruct (euclidian_division x (2 * PI)) as (z & y & Ex & Hy & Hy'); [lra|]. rewrite Rabs_pos_eq in Hy' by lra.
  assert (f x = f y) as Exy by (rewrite Ex, <- (Hp z y); f_equal; ring). destruct (Rle_dec y PI); [exists y; split; auto; lra|].
  exists (2 * PI - y). split; [lra|]. rewrite Exy. symmetry. rewrite <- (cosp_even K f _ H). rewrite <- (Hp 1%Z). f_equal. cbn. ring.
Qed.
Lemma td_abs K f x : trig_degree K f -> exists y, 0 <= y < 2 * PI /\ f x = f y.
Proof.
  intro H. assert (forall z x, f (x + 2 * PI * IZR z) = f x) as Hp.
  { assert (forall m x, f (x + 2 * PI * INR m) = f x) as HP.
    { induction m as [|m IH]; intro u; [cbn; f_equal; ring|]. rewrite <- (IH u). rewrite S_INR. rewrite <- (td_periodic K f (u + 2 * PI * INR m) H). f_equal. ring. }
    intros z u. destruct (Z_le_gt_dec 0 z) as [Hz|Hz].
    - replace (IZR z) with (INR (Z.to_nat z)) by (rewrite INR_IZR_INZ; f_equal; lia). apply HP.
    - rewrite <- (HP (Z.to_nat (- z)) (u + 2 * PI * IZR z)). f_equal. replace (INR (Z.to_nat (- z))) with (- IZR z) by (rewrite INR_IZR_INZ, <- opp_IZR; f_equal; lia). ring. }
  pose proof PI_RGT_0. destruct (euclidian_division x (2 * PI)) as (z & y & Ex & Hy & Hy'); [lra|]. rewrite Rabs_pos_eq in Hy' by lra.
  exists y. split; [lra|]. rewrite Ex, <- (Hp z y). f_equal. ring.
Qed.
Lemma resolved_unique k n d p d' f f' : resolved k n d p f -> resolved k n d p f' -> (forall x, inside k d' x -> f x = f' x) -> forall x, f x = f' x.
Proof.
  destruct k; cbn [resolved inside]; intros Hf Hf' H x.
  - destruct Hf as (K & HK & Hf), Hf' as (K' & HK' & Hf').
    assert (trig_degree (K + K') (fun x => f x + -1 * f' x)) as Hd by (apply td_plus; [apply (td_mono K)|apply td_scal, (td_mono K')]; auto; lia).
    destruct (td_abs _ _ x Hd) as (y & Hy & E). cbn in E. rewrite (H y Hy) in E. lra.
  - assert (cosp (grid_N Regular n d p - 1) (fun x => f x + -1 * f' x)) as Hd by (apply cosp_plus; [exact Hf|now apply cosp_scal]).
    destruct (cosp_abs _ _ x Hd) as (y & Hy & E). cbn in E. rewrite (H y Hy) in E. lra.
  - set (D := (grid_N Chebyshev n d p - 1)%nat) in *. apply (poly_uniq D f f' (map (fun i => INR i / INR (S (S D))) (seq 0 (S D)))); auto.
    + apply Injective_map_NoDup; [|apply seq_NoDup]. intros i j E. apply INR_eq. assert (INR (S (S D)) <> 0) by (apply not_0_INR; lia). apply (Rmult_eq_reg_r (/ INR (S (S D)))); auto. now apply Rinv_neq_0_compat.
    + rewrite map_length, seq_length. lia.
    + intros y Hy. apply in_map_iff in Hy as (i & <- & Hi). apply in_seq in Hi. assert (0 < INR (S (S D))) as P by (apply lt_0_INR; lia).
      assert (0 <= INR i / INR (S (S D)) < 1) as B. { split; [apply Rdiv_le_0_compat; auto; apply pos_INR|]. apply (Rmult_lt_reg_r (INR (S (S D)))); auto. unfold Rdiv. rewrite Rmult_assoc, Rinv_l, Rmult_1_r, Rmult_1_l by lra. apply lt_INR. lia. }
      apply H. destruct d'; lra.
Qed.

Section Forms1.
Variable close : C -> C -> bool.
Variable heap : nat -> grid (list R).
(** f is the reconstruction of the discrete form with array a: [form.R] evaluates to f *)
Definition reconstructs (r : nat) (g : grid1) (d : nat) (p : bool) (a : list R) (f : R -> R) : Prop :=
  resolved (kd g) (sz g) d p f /\ forall x, inside (kd g) d x -> form_R heap (MkForm d p r a) [x] = Ok (Some [f x]).
Notation refers := (refers close heap).

(** C82: discretisation is a bijection between resolved functions and arrays, with reconstruction as inverse *)
Theorem C82_bijection r g c d p a : refers r g c -> default_extent g -> works close (kd g) (sz g) -> complete g -> (d <= 1)%nat -> length a = grid_N (kd g) (sz g) d p ->
  exists f, reconstructs r g d p a f /\ proj c d p f = a /\
    (forall f', resolved (kd g) (sz g) d p f' -> proj c d p f' = a -> forall x, f' x = f x) /\
    (forall f', reconstructs r g d p a f' -> forall x, f' x = f x).
Proof.
  intros Hr He Hw Ho Hd L. destruct (resolve close g c d p a He Hw Ho (proj2 Hr) Hd L) as (f & Hf & Pf). exists f.
  assert (forall f', resolved (kd g) (sz g) d p f' -> proj c d p f' = a -> reconstructs r g d p a f') as RR.
  { intros f' H' P'. split; auto. intros x Hx. rewrite <- P'. now apply (C72_reconstruction_exact close heap r g c). }
  assert (forall f', reconstructs r g d p a f' -> forall x, f' x = f x) as U.
  { intros f' [H' H]. apply (resolved_unique (kd g) (sz g) d p d); auto. intros x Hx. pose proof (H x Hx) as E. destruct (RR f Hf Pf) as [_ E']. rewrite (E' x Hx) in E. now injection E. }
  split; [now apply RR|]. split; auto.
Qed.
Lemma reconstructs_proj r g c d p a f : refers r g c -> default_extent g -> works close (kd g) (sz g) -> complete g -> (d <= 1)%nat -> length a = grid_N (kd g) (sz g) d p ->
  reconstructs r g d p a f -> MkForm d p r a = form r c d p f.
Proof.
  intros Hr He Hw Ho Hd L H. destruct (C82_bijection r g c d p a Hr He Hw Ho Hd L) as (f0 & _ & P0 & _ & U). unfold form. rewrite <- P0. f_equal. f_equal. apply FunctionalExtensionality.functional_extensionality. intro x. symmetry. now apply U.
Qed.
(** the Hodge star of every discrete form is its reconstruction, discretised on the dual cells *)
Theorem C82_hodge r g c d p a f : refers r g c -> default_extent g -> works close (kd g) (sz g) -> complete g -> (d <= 1)%nat -> length a = grid_N (kd g) (sz g) d p ->
  reconstructs r g d p a f -> form_H heap (MkForm d p r a) = Ok (form r c (1 - d) (negb p) f).
Proof. intros Hr He Hw Ho Hd L H. rewrite (reconstructs_proj r g c d p a f) by auto. apply (C71_hodge_exact close heap r g); auto. apply H. Qed.
(** and its reconstruction is the same function *)
Theorem C82_hodge_same_function r g c d p a f : refers r g c -> default_extent g -> works close (kd g) (sz g) -> complete g -> (d <= 1)%nat -> length a = grid_N (kd g) (sz g) d p ->
  reconstructs r g d p a f -> exists b, form_H heap (MkForm d p r a) = Ok (MkForm (1 - d) (negb p) r b) /\ reconstructs r g (1 - d) (negb p) b f.
Proof.
  intros Hr He Hw Ho Hd L H. exists (proj c (1 - d) (negb p) f). split; [now apply (C82_hodge r g)|]. 
  assert (resolved (kd g) (sz g) (1 - d) (negb p) f) as Hf.
  { destruct H as [H _]. unfold resolved in *. replace (grid_N (kd g) (sz g) (1 - d) (negb p)) with (grid_N (kd g) (sz g) d p); auto. destruct d as [|[|d]], (kd g), p; try reflexivity; lia. }
  split; auto. intros x Hx. apply (C72_reconstruction_exact close heap r g c); auto. lia.
Qed.
(** the wedge product of two discrete forms is the product of their reconstructions, discretised *)
Theorem C82_wedge r g c t d0 p0 a f d1 p1 b h : refers r g c -> default_extent g -> usable close (kd g) (sz g) -> complete g -> (d0 + d1 <= 1)%nat ->
  length a = grid_N (kd g) (sz g) d0 p0 -> length b = grid_N (kd g) (sz g) d1 p1 -> reconstructs r g d0 p0 a f -> reconstructs r g d1 p1 b h ->
  (kd g = Chebyshev -> (d0 + d1 = 1)%nat -> polynomial (2 * sz g - 3) (fun x => f x * h x)) ->
  form_W heap t (MkForm d0 p0 r a) (MkForm d1 p1 r b) = Ok (form r c (d0 + d1) t (fun x => f x * h x)).
Proof.
  intros Hr He Hu Ho Hd La Lb Hf Hh HC. assert (works close (kd g) (sz g)) as Hw by (destruct (kd g); cbn in *; tauto).
  rewrite (reconstructs_proj r g c d0 p0 a f), (reconstructs_proj r g c d1 p1 b h) by (auto; lia). apply (C73_wedge_exact close heap r g); auto; [apply Hf|apply Hh].
Qed.
(** the contraction of a 1-form with a vector field (given as a 1-form) *)
Theorem C82_contraction r g c t p0 a f p1 b h : refers r g c -> default_extent g -> usable close (kd g) (sz g) -> complete g ->
  length a = grid_N (kd g) (sz g) 1 p0 -> length b = grid_N (kd g) (sz g) 1 p1 -> reconstructs r g 1 p0 a f -> reconstructs r g 1 p1 b h ->
  form_C heap t (MkForm 1 p0 r a) (MkForm 1 p1 r b) = Ok (form r c 0 t (fun x => f x * h x)).
Proof.
  intros Hr He Hu Ho La Lb Hf Hh. assert (works close (kd g) (sz g)) as Hw by (destruct (kd g); cbn in *; tauto).
  rewrite (reconstructs_proj r g c 1 p0 a f), (reconstructs_proj r g c 1 p1 b h) by auto. apply (C73_contraction_exact close heap r g); auto; [apply Hf|apply Hh].
Qed.

(** reconstruction commutes with the derivative *)
Lemma resolved_deriv g p f : kd g <> Regular -> (1 <= sz g)%nat -> resolved (kd g) (sz g) 0 p f -> exists f', (forall x, is_derive f x (f' x)) /\ resolved (kd g) (sz g) 1 p f'.
Proof.
  intros Hk Hn Hf. destruct (kd g) eqn:Ek; cbn [resolved grid_N] in *; [|congruence|].
  - destruct Hf as (K & HK & Hf). destruct (td_deriv K f Hf) as (f' & Hf' & Hd). exists f'. split; auto. exists K. split; auto.
  - assert (exists f', forall x, is_derive f x (f' x)) as (f' & Hd).
    { destruct Hf as [u Hu]. exists (fun x => Derive f x). intro x. apply Derive_correct. apply (ex_derive_ext (fun x => Rsum (S (sizes_interval (sz g) 0 p - 1)) (fun i => u i * x ^ i))); [intro; symmetry; apply Hu|].
      generalize (S (sizes_interval (sz g) 0 p - 1)). intro m. induction m as [|m IH]; cbn; [apply ex_derive_const|]. apply @ex_derive_plus; auto. auto_derive. auto. }
    exists f'. split; auto. pose proof (poly_derivative heap _ f f' Hf Hd) as P. unfold resolved_chebyshev. destruct p; cbn [sizes_interval] in *; [|apply (poly_mono (sz g - 1 - 1 - 1)); auto; lia]. exact P.
Qed.
Theorem C82_derivative r g c p a f : refers r g c -> default_extent g -> works close (kd g) (sz g) -> complete g -> kd g = Periodic \/ (kd g = Chebyshev /\ p = true) ->
  length a = grid_N (kd g) (sz g) 0 p -> reconstructs r g 0 p a f ->
  exists f' b, (forall x, is_derive f x (f' x)) /\ form_D heap (MkForm 0 p r a) = Ok (ZForm (MkForm 1 p r b)) /\ reconstructs r g 1 p b f'.
Proof.
  intros Hr He Hw Ho Hk L H. assert (1 <= sz g)%nat as Hn by (destruct Hk as [Hk|[Hk _]]; rewrite Hk in Hw; cbn in Hw; lia).
  destruct (resolved_deriv g p f) as (f' & Hd & Hf'); auto; [destruct Hk as [Hk|[Hk _]]; congruence|apply H|]. exists f', (proj c 1 p f'). split; auto.
  split; [|split; auto; intros x Hx; now apply (C72_reconstruction_exact close heap r g c)]. rewrite (reconstructs_proj r g c 0 p a f) by auto.
  assert (forall x, continuous f' x) as Hc. { intro x. destruct (kd g) eqn:Ek; cbn [resolved] in Hf'; [destruct Hf' as (K & _ & Hf'); now apply (td_cont K)|destruct Hk as [Hk|[Hk _]]; congruence|eapply poly_cont; exact Hf']. }
  destruct H as [Hf _]. unfold default_extent in He. pose proof PI_RGT_0. destruct Hk as [Hk|[Hk ->]].
  - rewrite Hk in He, Hf. destruct He as [El Eh]. destruct Hf as (K & _ & Hf). destruct p.
    + apply (C74_derivative_primal close heap r g); auto; [lra|now rewrite Hk|]. intros _. rewrite El, Eh. rewrite <- (td_periodic K f 0 Hf). f_equal. ring.
    + apply (C74_derivative_dual_periodic close heap r g); auto; [lra|]. intro x. rewrite El, Eh, Rminus_0_r. now apply (td_periodic K).
  - rewrite Hk in He. apply (C74_derivative_primal close heap r g); auto; [lra|rewrite Hk in *; cbn in *; lia|congruence].
Qed.
(** on the dual of a Chebyshev grid, with the boundary form added *)
Theorem C82_derivative_dual r g c a f : refers r g c -> default_extent g -> works close (kd g) (sz g) -> kd g = Chebyshev ->
  length a = grid_N (kd g) (sz g) 0 false -> reconstructs r g 0 false a f ->
  exists f' z bc b, (forall x, is_derive f x (f' x)) /\ form_D heap (MkForm 0 false r a) = Ok (ZForm z) /\ boundary_condition (sz g) (lo g) (hi g) f = Ok bc /\
    binary Badd z (OArr bc) = Ok (MkForm 1 false r b) /\ reconstructs r g 1 false b f'.
Proof.
  intros Hr He Hw Hk L H. assert (2 <= sz g)%nat as Hn by (rewrite Hk in Hw; cbn in Hw; lia). assert (complete g) as Ho by (intro; congruence).
  destruct (resolved_deriv g false f) as (f' & Hd & Hf'); auto; [congruence|lia|apply H|].
  rewrite (reconstructs_proj r g c 0 false a f) by auto. assert (forall x, continuous f' x) as Hc by (intro; rewrite Hk in Hf'; eapply poly_cont; exact Hf').
  destruct (C74_derivative_dual_interval close heap r g c f f') as (z & bc & E1 & E2 & E3); auto; [congruence|unfold default_extent in He; rewrite Hk in He; lra|].
  exists f', z, bc, (proj c 1 false f'). split; auto. split; auto. split; auto. split; auto. split; auto. intros x Hx. now apply (C72_reconstruction_exact close heap r g c).
Qed.
(** not so on a regular grid: the derivative of a cosine polynomial is a sine polynomial, which the grid does not represent *)
Theorem C82_derivative_regular_refuted r g c : refers r g c -> default_extent g -> kd g = Regular -> (2 <= sz g)%nat ->
  exists a b f h, length a = grid_N (kd g) (sz g) 0 true /\ reconstructs r g 0 true a f /\ form_D heap (MkForm 0 true r a) = Ok (ZForm (MkForm 1 true r b)) /\ reconstructs r g 1 true b h /\
    ~ (forall x, inside Regular 0 x -> is_derive f x (h x)).
Proof.
  intros Hr He Hk Hn. assert (works close (kd g) (sz g)) as Hw by (rewrite Hk; exact Hn). assert (complete g) as Ho by (intro; congruence). destruct (works_ok _ _ _ Hw) as [Hb _].
  assert (forall d, (d <= 1)%nat -> forall f, length (proj c d true f) = grid_N (kd g) (sz g) d true) as LP by (intros; apply proj_length; auto; apply Hr).
  assert (resolved (kd g) (sz g) 0 true cos) as Rc by (rewrite Hk; cbn; now apply cos_resolved).
  exists (proj c 0 true cos), (proj c 1 true (fun x => - sin x)), cos. destruct (C82_bijection r g c 1 true (proj c 1 true (fun x => - sin x)) Hr He Hw Ho ltac:(lia) (LP 1%nat ltac:(lia) _)) as (h & Hh & _). exists h.
  split; [apply LP; lia|]. split; [split; auto; intros x Hx; apply (C72_reconstruction_exact close heap r g c 0 true cos); auto; lia|]. pose proof PI_RGT_0 as HP. pose proof PI2_1 as HP2.
  split; [|split; [exact Hh|]].
  - unfold default_extent in He. rewrite Hk in He. apply (C74_derivative_primal close heap r g c cos (fun x => - sin x)); auto; [lra|rewrite Hk in *; cbn; lia| | |congruence].
    + intros x _. auto_derive; auto; ring.
    + intros x _. apply (continuous_opp sin). apply continuous_sin.
  - intro A. destruct Hh as [Hh _]. rewrite Hk in Hh. cbn [resolved] in Hh. pose proof (cosp_degree _ _ Hh) as Ht. destruct (td_deriv _ _ Ht) as (h' & Ht' & Hd).
    assert (h' 0 = 0) as Z.
    { pose proof (is_derive_comp h Ropp 0 (h' 0) (-1)) as C. assert (is_derive (fun x => h (- x)) 0 (-1 * h' 0)) as D by (apply C; [replace (- 0) with 0 by ring; apply Hd|auto_derive; auto; ring]).
      apply (is_derive_ext _ h) in D; [|intro; eapply cosp_even; exact Hh]. pose proof (is_derive_unique _ _ _ D). rewrite (is_derive_unique _ _ _ (Hd 0)) in H. lra. }
    assert (forall x, 0 < x < PI -> h' x = - cos x) as Hc.
    { intros x Hx. assert (is_derive h x (- cos x)) as D.
      { apply (is_derive_ext_loc (fun x => - sin x)); [|auto_derive; auto; ring]. exists (mkposreal (Rmin x (PI - x)) ltac:(apply Rmin_case; lra)). intros y Hy. cbn in Hy. unfold AbsRing_ball, abs, minus, plus, opp in Hy; cbn in Hy.
        pose proof (Rmin_l x (PI - x)). pose proof (Rmin_r x (PI - x)). apply Rabs_def2 in Hy. symmetry. assert (0 <= y <= PI) as Iy by lra. rewrite <- (is_derive_unique _ _ _ (A y Iy)). apply is_derive_unique. auto_derive; auto; ring. }
      rewrite <- (is_derive_unique _ _ _ D). symmetry. now apply is_derive_unique. }
    assert (continuous h' 0) as Cc by (eapply td_cont; exact Ht'). destruct (Cc (ball (h' 0) (mkposreal (/ 2) ltac:(lra)))) as [e He']; [now apply locally_ball|].
    set (x := Rmin (e / 2) (/ 2)). assert (0 < x) as X0 by (apply Rmin_case; [destruct e; cbn; lra|lra]). assert (x <= e / 2 /\ x <= / 2) as [X1 X2] by (split; [apply Rmin_l|apply Rmin_r]).
    assert (ball 0 e x) as Bx by (unfold ball; cbn; unfold AbsRing_ball, abs, minus, plus, opp; cbn; rewrite Rabs_pos_eq; destruct e; cbn in *; lra).
    apply He' in Bx. unfold ball in Bx; cbn in Bx. unfold AbsRing_ball, abs, minus, plus, opp in Bx; cbn in Bx. rewrite Z, Hc in Bx by lra. apply Rabs_def2 in Bx.
    assert (cos (PI / 3) <= cos x) by (apply cos_decr_1; lra). rewrite cos_PI3 in H. lra.
Qed.
End Forms1.

(** ** an arbitrary array on the Chebyshev and the periodic grid with 3 points *)
Lemma che3_ok : default_extent che3 /\ works never Chebyshev 3 /\ complete che3.
Proof. split; [split; reflexivity|]. split; [split; [lia|left; intros ? ? E; discriminate E]|]. intro; discriminate. Qed.
Lemma per3_ok : default_extent per3 /\ works never Periodic 3 /\ complete per3.
Proof. split; [split; reflexivity|]. split; [cbn; lia|]. intros _. reflexivity. Qed.
Example C82_instance : (exists f f' b h, reconstructs (fun _ => grid_1d never Chebyshev 3) 0 che3 0 true [1; 5; -2] f /\ (forall x, is_derive f x (f' x)) /\
    form_D (fun _ => grid_1d never Chebyshev 3) (MkForm 0 true 0 [1; 5; -2]) = Ok (ZForm (MkForm 1 true 0 b)) /\ reconstructs (fun _ => grid_1d never Chebyshev 3) 0 che3 1 true b f' /\
    form_H (fun _ => grid_1d never Chebyshev 3) (MkForm 0 true 0 [1; 5; -2]) = Ok (MkForm 1 false 0 h)) /\
  exists f, reconstructs (fun _ => grid_1d never Periodic 3) 0 per3 1 false [1; 5; -2] f /\ proj (periodic_default 3) 1 false f = [1; 5; -2].
Proof.
  destruct che3_ok as (E & W & K), per3_ok as (E' & W' & K'). split.
  - destruct (cd_cells 3 ltac:(lia)) as (c & Ec & _). assert (refers never (fun _ => grid_1d never Chebyshev 3) 0 che3 c) as Hr by (split; auto).
    destruct (C82_bijection never _ 0 che3 c 0 true [1; 5; -2] Hr E W K ltac:(lia) eq_refl) as (f & Hf & _).
    destruct (C82_derivative never _ 0 che3 c true [1; 5; -2] f Hr E W K ltac:(auto) eq_refl Hf) as (f' & b & H1 & H2 & H3).
    destruct (C82_hodge_same_function never _ 0 che3 c 0 true [1; 5; -2] f Hr E W K ltac:(lia) eq_refl Hf) as (h & H4 & _). exists f, f', b, h. auto.
  - destruct (C82_bijection never (fun _ => grid_1d never Periodic 3) 0 per3 (periodic_default 3) 1 false [1; 5; -2]) as (f & Hf & Pf & _); auto; [split; auto|]. exists f. auto.
Qed.

(** form.R on any grid: an array shorter than the number of basis functions raises IndexError; otherwise the
    value is undefined (nan) exactly where one of the basis functions is, even if its coefficient is 0 *)
Lemma all_some_none {A} (l : list (option A)) : all_some l = None <-> In None l.
Proof.
  induction l as [|[a|] l IH]; cbn; [split; [discriminate|tauto]| |tauto].
  destruct (all_some l); split; intro E; try discriminate; auto.
  - destruct E as [E|E]; [discriminate|]. now apply IH in E.
  - right. now apply IH.
Qed.
Theorem C82_value_defined {X} (heap : nat -> grid X) f x n B :
  tget (gN (heap (gref f))) (degree f, isprimal f) = Ok n -> tget (gB (heap (gref f))) (degree f, isprimal f) = Ok B ->
  ((length (array f) < n)%nat -> form_R heap f x = Err IndexError) /\
  ((n <= length (array f))%nat -> (exists v, form_R heap f x = Ok v) /\ (form_R heap f x = Ok None <-> exists i, (i < n)%nat /\ B i x = None)).
Proof.
  intros HN HB. unfold form_R. rewrite HN, HB. cbn [bind]. split; intro Hl.
  - apply Nat.ltb_lt in Hl. now rewrite Hl.
  - apply Nat.ltb_ge in Hl. rewrite Hl. split; [eexists; reflexivity|].
    match goal with |- Ok (match all_some ?l with _ => _ end) = _ <-> _ => pose proof (all_some_none l) as K; destruct (all_some l) as [v|] end.
    + split; [discriminate|]. intros (i & Hi & E). exfalso. assert (@None (list R) = None) as Z by reflexivity. 
      assert (Some v = None) as Q; [|discriminate Q]. apply K. apply in_map_iff. exists i. rewrite E. split; [reflexivity|]. apply in_seq. lia.
    + split; [|reflexivity]. intros _. destruct K as [K _]. specialize (K eq_refl). apply in_map_iff in K as (i & E & Hi). exists i. apply in_seq in Hi. split; [lia|]. now destruct (B i x).
Qed.
