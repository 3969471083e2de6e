(** C71-C74: on the functions a 1D grid resolves, the discrete operators are the continuous ones. *)
From Coq Require Import ZArith Reals List Lia Lra Arith Bool.
From Coq Require Import ZifyNat.
From Verif Require Import Model.Sym.
From Coquelicot Require Import Coquelicot.
From Verif Require Import Model.Num Model.Np Model.Spectral Model.Basis Model.Grids1 Model.Regular Model.Chebyshev Model.Common Model.Decform Model.Grid2 Spec.Trig Spec.Poly Spec.Resolved
  Proofs.ListLemmas Proofs.Sums Proofs.Fourier Proofs.RIntLemmas Proofs.Kernels Proofs.Trig Proofs.Ops Proofs.Exact Proofs.BasisP Proofs.Grids1P Proofs.GridsThm Proofs.Mirror Proofs.PeriodicBasis
  Proofs.RegularP Proofs.RegularBasis Proofs.TrigAlg Proofs.Lin Proofs.TableLin Proofs.Refine Proofs.Leibniz Proofs.Cheb1 Proofs.ChebGuard Proofs.ChebPoly Proofs.Cheb2 Proofs.Cheb3 Proofs.ChebBasis Proofs.ChebRefine
  Props.Spectral Props.Regular Props.Decform Props.Refinement Props.Basis2 Proofs.Exact1.
Import ListNotations.
Local Open Scope R_scope.
Ltac Zify.zify_post_hook ::= Z.div_mod_to_equations.

(** the functions that the (d, p)-forms of a grid represent exactly *)
Definition resolved (k : kind1) (n d : nat) (p : bool) (f : R -> R) : Prop :=
  match k with
  | Periodic => resolved_periodic (grid_N k n d p) f
  | Regular => resolved_regular (grid_N k n d p) f
  | Chebyshev => resolved_chebyshev (grid_N k n d p) f
  end.
(** the grid works: it has enough points, and on Chebyshev grids the guard of fourier_K_inv does not raise *)
Definition works (close : C -> C -> bool) (k : kind1) (n : nat) : Prop :=
  match k with Periodic => (1 <= n)%nat | Regular => (2 <= n)%nat | Chebyshev => (2 <= n)%nat /\ guard_ok close n end.
Lemma works_ok close k n : works close k n -> big_enough k n /\ guarded close k n.
Proof. destruct k; cbn; auto. intros [H G]. split; auto. now apply guard_ok_guarded. Qed.
(** where the reconstruction is defined: the basis functions are 0/0 at the right end of a periodic grid,
    and those of 1-forms divide by sqrt(1-x^2) on Chebyshev grids *)
Definition inside (k : kind1) (d : nat) (x : R) : Prop :=
  match k, d with
  | Periodic, _ => 0 <= x < 2 * PI
  | Regular, _ => 0 <= x <= PI
  | Chebyshev, O => -1 <= x <= 1
  | Chebyshev, _ => -1 < x < 1
  end.
Lemma default_cells g c : default_extent g -> cells_of g = Ok c ->
  match kd g with Periodic => c = periodic_default (sz g) | Regular => regular_default (sz g) = Ok c | Chebyshev => chebyshev_default (sz g) = Ok c end.
Proof.
  intros He E. unfold default_extent, cells_of in *. destruct (kd g); destruct He as [El Eh]; rewrite El, Eh in E; cbn [make_cells] in E; auto. destruct (sz g); [discriminate|]. now injection E as <-.
Qed.

Lemma proj_length g c d p f : default_extent g -> big_enough (kd g) (sz g) -> cells_of g = Ok c -> (d <= 1)%nat -> length (proj c d p f) = grid_N (kd g) (sz g) d p.
Proof.
  intros He Hb E Hd. pose proof (default_cells g c He E) as Hc. destruct g as [k n l h]. cbn [kd sz] in *. destruct k; cbn [grid_N big_enough] in *.
  - subst c. now apply per_len. - now apply reg_len. - now apply cheb_len.
Qed.
Lemma P1d_ext c n (f g : R -> R) (u v : nat -> R) (lo hi : R) : edges_dual c = (tab n u, tab n v) -> (forall i, (i < n)%nat -> lo <= u i <= v i /\ v i <= hi) ->
  (forall x, lo <= x <= hi -> f x = g x) -> P1d c f = P1d c g.
Proof.
  intros E Hr H. unfold P1d, Grids1.proj1. rewrite E. cbn [fst snd]. rewrite !zipw_tab. apply tab_ext. intros i Hi. destruct (Hr i Hi). apply RInt_ext. intros x Hx. apply H. rewrite Rmin_left, Rmax_right in Hx; lra.
Qed.
Lemma P1_ext c n (f g : R -> R) (u v : nat -> R) (lo hi : R) : edges c = (tab n u, tab n v) -> (forall i, (i < n)%nat -> lo <= u i <= v i /\ v i <= hi) ->
  (forall x, lo <= x <= hi -> f x = g x) -> P1 c f = P1 c g.
Proof.
  intros E Hr H. unfold P1, Grids1.proj1. rewrite E. cbn [fst snd]. rewrite !zipw_tab. apply tab_ext. intros i Hi. destruct (Hr i Hi). apply RInt_ext. intros x Hx. apply H. rewrite Rmin_left, Rmax_right in Hx; lra.
Qed.
Lemma some_inj {A} (u v : list A) : map Some u = map Some v -> u = v.
Proof. revert v. induction u as [|x u IH]; intros [|y v] E; try discriminate; auto. cbn in E. injection E as -> E. f_equal. now apply IH. Qed.
Lemma real_cplx (v : list R) : realv (cplxv v) = v.
Proof. unfold realv, cplxv. rewrite map_map. apply map_id. Qed.
Lemma reg_H n c d p f : (2 <= n)%nat -> regular_default n = Ok c -> (d <= 1)%nat -> resolved Regular n d p f ->
  exists o, tget (Common.dH (dec_of never Regular)) (d, p) = Ok o /\ o (proj c d p f) = Ok (proj c (1 - d) (negb p) f).
Proof.
  intros Hn Ec Hd Hf. assert (forall x, 0 <= x <= PI -> R_form (B_regular n) (sizes_interval n) d p (proj c d p f) x = Some (f x)) as RR by (intros; now apply reg_R).
  destruct (rc n Hn c Ec) as (Ev & Ee & Evd & Eed). set (N := (2 * (n - 1))%nat) in *. assert (0 < hstep N) as Hh by (apply hstep_pos; unfold N; lia).
  assert (forall i, (i < n)%nat -> 0 <= xg N i <= PI) as R0 by (intros; now apply (xg_le_PI n Hn)).
  assert (forall i, (i < n - 1)%nat -> 0 <= xg N i /\ xg N i + hstep N <= PI) as R1 by (intros; now apply (xg_lt_PI n Hn)).
  pose proof (reg_len n Hn c Ec d p f Hd) as L.
  destruct d as [|[|d]]; [| |lia]; destruct p; (eexists; split; [reflexivity|]); cbn [proj sizes_interval negb Nat.sub] in *; unfold real_of.
  - destruct (C23_hodge_is_P_R n (P0 c f) (zeros (n - 1)) Hn L (repeat_length _ _)) as (c' & E' & A & _). rewrite Ec in E'. injection E' as <-. rewrite A. cbn [bind]. rewrite real_cplx. apply (f_equal (@Ok (list R))).
    apply (P1d_ext c n _ _ _ _ 0 PI Eed); [intros i Hi; apply (tdual_range n Hn i Hi)|]. intros x Hx. unfold tot. now rewrite RR.
  - destruct (C23_hodge_is_P_R n (zeros n) (P0d c f) Hn (repeat_length _ _) L) as (c' & E' & _ & A & _). rewrite Ec in E'. injection E' as <-. rewrite A. cbn [bind]. rewrite real_cplx. apply (f_equal (@Ok (list R))).
    apply (P1_ext c (n - 1) _ _ _ _ 0 PI Ee); [intros i Hi; rewrite xg_S; specialize (R1 i Hi); lra|]. intros x Hx. unfold tot. now rewrite RR.
  - destruct (C23_hodge_is_P_R n (zeros n) (P1 c f) Hn (repeat_length _ _) L) as (c' & E' & _ & _ & (v & A & B) & _). rewrite Ec in E'. injection E' as <-. rewrite B. cbn [bind]. rewrite real_cplx. apply (f_equal (@Ok (list R))).
    apply some_inj. rewrite <- A. unfold P0d, proj0. rewrite Evd, !map_tab. apply tab_ext. intros i Hi. apply RR. specialize (R1 i Hi). lra.
  - destruct (C23_hodge_is_P_R n (P1d c f) (zeros (n - 1)) Hn L (repeat_length _ _)) as (c' & E' & _ & _ & _ & (v & A & B)). rewrite Ec in E'. injection E' as <-. rewrite B. cbn [bind]. rewrite real_cplx. apply (f_equal (@Ok (list R))).
    apply some_inj. rewrite <- A. unfold P0, proj0. rewrite Ev, !map_tab. apply tab_ext. intros i Hi. apply RR. auto.
Qed.
Lemma table_H_exact close g c d p f : default_extent g -> works close (kd g) (sz g) -> cells_of g = Ok c -> (d <= 1)%nat -> resolved (kd g) (sz g) d p f ->
  exists o, tget (Common.dH (dec_of close (kd g))) (d, p) = Ok o /\ o (proj c d p f) = Ok (proj c (1 - d) (negb p) f).
Proof.
  intros He Hw E Hd Hf. pose proof (default_cells g c He E) as Hc. destruct g as [k n l h]. cbn [kd sz] in *. destruct k; cbn [works] in *.
  - subst c. assert (forall p, (0 < length (proj (periodic_default n) 0 p f))%nat) as L0 by (intro; rewrite per_len; lia).
    destruct d as [|[|d]]; [| |lia].
    + exists (spec opH). split; [destruct p; reflexivity|]. rewrite spec_ok by apply L0. now rewrite per_H.
    + exists (spec opHinv). split; [destruct p; reflexivity|]. cbn [resolved grid_N] in Hf. change (sizes_periodic n 1 p) with n in Hf.
      rewrite spec_ok by (rewrite per_len; lia). rewrite <- (negb_involutive p) at 1. rewrite <- per_H by auto. apply (f_equal (@Ok (list R))). apply C12_H_inverse. apply L0.
  - destruct (reg_H n c d p f Hw Hc Hd Hf) as (o & Eo & H). exists o. split; [|exact H]. rewrite <- Eo. reflexivity.
  - destruct Hw as [Hn G]. pose proof (guard_ok_guarded close n Hn G) as G'. unfold resolved, resolved_chebyshev, grid_N in Hf.
    destruct d as [|[|d]]; [| |lia]; destruct p; (eexists; split; [reflexivity|]); cbn [proj sizes_interval negb Nat.sub] in *; try replace (n - 1 - 1)%nat with (n - 2)%nat in Hf by lia.
    + now apply (H0_poly n Hn).
    + now apply (H0d_poly n).
    + pose proof (Cheb1.H1_H0d n Hn close (P0d c f) G' (cheb_len n Hn c Hc 0 false f ltac:(lia))) as X. rewrite (H0d_poly n c) in X by auto. exact X.
    + pose proof (Cheb3.H1d_H0 n Hn (P0 c f) (cheb_len n Hn c Hc 0 true f ltac:(lia))) as X. rewrite (H0_poly n Hn c Hc) in X by auto. exact X.
Qed.

Lemma map_weave (f : R -> R) (u v : list R) : (length v <= length u <= length v + 1)%nat -> map f (weave u v) = weave (map f u) (map f v).
Proof. revert v. induction u as [|a u IH]; intros [|b v] L; cbn [weave map] in *; auto. cbn [length] in L. do 2 f_equal. apply IH. lia. Qed.
(** the reconstruction of a discrete form on a 1D grid *)
Lemma all_some_map n (g : nat -> R) : all_some (map (fun i => Some [g i]) (seq 0 n)) = Some (map (fun i => [g i]) (seq 0 n)).
Proof. generalize 0%nat. induction n as [|n IH]; intro s; cbn; auto. now rewrite IH. Qed.
Lemma vsum_map n (g : nat -> R) : vsum (map (fun i => [g i]) (seq 0 n)) = [Rsum n g].
Proof.
  destruct n as [|n]; [reflexivity|]. cbn [seq map vsum].
  assert (forall m s x, fold_left (zipw Rplus) (map (fun i => [g i]) (seq s m)) [x] = [x + Rsum m (fun i => g (s + i)%nat)]) as F.
  { induction m as [|m IH]; intros s x; cbn [seq map fold_left]; [cbn; f_equal; ring|]. cbn [zipw]. rewrite IH. f_equal.
    rewrite (Rsum_S_l m (fun i => g (s + i)%nat)). rewrite Nat.add_0_r, Rplus_assoc. do 2 f_equal. apply Rsum_ext. intros i _. f_equal. lia. }
  rewrite F. f_equal. rewrite (Rsum_S_l n g). f_equal.
Qed.
Lemma form_R_val close heap r k n d p (a : list R) x : heap r = grid_1d close k n -> (d <= 1)%nat -> length a = grid_N k n d p ->
  forall y, R_form (basis_of k n) (grid_N k n) d p a x = Some y -> form_R heap (MkForm d p r a) [x] = Ok (Some [y]).
Proof.
  intros Eh Hd L y. unfold form_R. cbn [degree isprimal gref array]. rewrite Eh. cbn [gN gB grid_1d].
  assert (forall V (v : nat -> bool -> V), tget (tab4 v) (d, p) = Ok (v d p)) as T by (intros; destruct d as [|[|d]]; [| |lia]; destruct p; reflexivity).
  rewrite !T. cbn [bind]. rewrite L. rewrite Nat.ltb_irrefl. set (m := grid_N k n d p) in *. unfold R_form, recon, basis_fn. rewrite map_length, seq_length. fold m.
  set (b := fun i => omap (Rmult (nth i a 0)) (nth i (map (basis_of k n d p) (seq 0 m)) (fun _ => None) x)). intro Hy.
  assert (forall i, (i < m)%nat -> b i <> None) as Hb.
  { assert (forall j acc, fold_left (fun acc i => omap2 Rplus acc (b i)) j acc <> None -> acc <> None /\ forall i, In i j -> b i <> None) as F.
    { induction j as [|i j IH]; intros acc H; cbn in *; [split; auto; intros _ []|]. apply IH in H. destruct H as [H H']. destruct acc as [u|]; cbn in H; [|congruence]. split; [discriminate|]. intros i' [<-|Hi]; auto. destruct (b i); [discriminate|congruence]. }
    intros i Hi. unfold osum in Hy. destruct (F (seq 0 m) (Some 0)) as [_ G]; [rewrite Hy; discriminate|]. apply G. apply in_seq. lia. }
  set (g := fun i => match b i with Some u => u | None => 0 end).
  assert (forall i, (i < m)%nat -> b i = Some (g i)) as Eb by (intros i Hi; unfold g; specialize (Hb i Hi); destruct (b i); congruence).
  rewrite (osum_some m b g Eb) in Hy. injection Hy as <-.
  rewrite (map_ext_in _ (fun i => Some [g i])).
  - now rewrite all_some_map, vsum_map.
  - intros i Hi. apply in_seq in Hi. specialize (Eb i ltac:(lia)). unfold b in Eb. rewrite (nth_indep _ _ (basis_of k n d p 0)) in Eb by (rewrite map_length, seq_length; lia). rewrite map_nth, seq_nth in Eb by lia. cbn [Nat.add] in Eb.
    unfold lift1. destruct (basis_of k n d p i x) as [u|]; cbn in *; [|discriminate]. injection Eb as <-. reflexivity.
Qed.

(** ** Discrete forms.  [form g r c d p f] is the discretisation g.P(d, p, f): the values of f at the vertices or
    its integrals over the edges *)
Section Forms1.
Variable close : C -> C -> bool.
Variable heap : nat -> grid (list R).
Definition form (r : nat) (c : cells1) (d : nat) (p : bool) (f : R -> R) : decform := MkForm d p r (proj c d p f).
(** r refers to the grid g, of cells c *)
Definition refers (r : nat) (g : grid1) (c : cells1) : Prop := heap r = grid_1d close (kd g) (sz g) /\ cells_of g = Ok c.

(** C71: the Hodge star of a discretised function is the function discretised on the dual cells *)
Theorem C71_hodge_exact r g c d p f : refers r g c -> default_extent g -> works close (kd g) (sz g) -> (d <= 1)%nat -> resolved (kd g) (sz g) d p f ->
  form_H heap (form r c d p f) = Ok (form r c (1 - d) (negb p) f).
Proof.
  intros [Eh E] He Hw Hd Hf. destruct (table_H_exact close g c d p f He Hw E Hd Hf) as (o & Eo & H).
  unfold form_H, form. cbn [degree isprimal gref array]. rewrite Eh. cbn [gH grid_1d gdim]. rewrite Eo. cbn [bind]. rewrite H. reflexivity.
Qed.

(** C72: reconstruction inverts discretisation on the resolved functions *)
Theorem C72_reconstruction_exact r g c d p f x : refers r g c -> default_extent g -> works close (kd g) (sz g) -> (d <= 1)%nat -> resolved (kd g) (sz g) d p f ->
  inside (kd g) d x -> form_R heap (form r c d p f) [x] = Ok (Some [f x]).
Proof.
  intros [Eh E] He Hw Hd Hf Hx. destruct (works_ok _ _ _ Hw) as [Hb _]. apply (form_R_val close heap r (kd g) (sz g)); auto.
  - now apply proj_length.
  - pose proof (default_cells g c He E) as Hc. destruct g as [k n l h]. cbn [kd sz] in *. destruct k; cbn [basis_of inside grid_N works resolved] in *.
    + subst c. now apply per_R.
    + now apply reg_R.
    + apply cheb_R; tauto.
Qed.
(** discretisation inverts reconstruction on all discrete forms of the grid: see C17, C23, C29 *)

(** C73: refinement samples, and wedge product and contraction multiply *)
Lemma refines g c d p f : default_extent g -> usable close (kd g) (sz g) -> cells_of g = Ok c -> (d <= 1)%nat -> resolved (kd g) (sz g) d p f ->
  exists T pts, tget (rT (refine_of close (kd g))) (d, p) = Ok T /\ points c = Ok pts /\ T (proj c d p f) = Ok (map f pts).
Proof.
  intros He Hu E Hd Hf. pose proof (default_cells g c He E) as Hc. destruct g as [k n l h]. cbn [kd sz] in *. destruct k; cbn [usable resolved refine_of] in *; [|contradiction|].
  - subst c. destruct Hf as (K & HK & Hf). change (grid_N Periodic n d p) with n in HK. destruct (T_trig n d p f K Hu Hd Hf HK) as (_ & T & ET & EV).
    exists T, (tab (n + n) (fun j => xg (n + n) j)). split; [exact ET|]. split; [|rewrite EV, map_tab; reflexivity].
    destruct (points_ok Periodic n 0 (2 * PI) Hu) as (c & pts & Ec & Ep & Lp & Pv & Pd); [pose proof PI_RGT_0; lra|].
    cbn [make_cells] in Ec. destruct n as [|n']; [lia|]. set (n := S n') in *. injection Ec as <-. fold (periodic_default n) in *. rewrite Ep. apply (f_equal (@Ok (list R))). symmetry.
    apply tab_nth; [rewrite Lp; reflexivity|]. rewrite pd_cells in Pv, Pd by lia. cbn [verts verts_dual grid_N] in Pv, Pd. unfold sizes_periodic in Pv, Pd. destruct Pd as [Pd _]. intros j Hj.
    destruct (Nat.Even_or_Odd j) as [[i ->]|[i ->]].
    + rewrite Pv by lia. rewrite nth_tab by lia. apply xg_e; lia.
    + rewrite Pd by lia. rewrite nth_tab by lia. apply xg_o; lia.
  - destruct Hu as [Hn G]. destruct (cd_cells (2 * n - 1) ltac:(lia)) as (c' & Ec' & _). destruct (T_poly close n c c' d p f Hn G Hd Hc Ec' Hf) as (T & ET & EV).
    exists T, (verts c'). split; [exact ET|]. split; [now apply (points_c n Hn)|]. exact EV.
Qed.
Theorem C73_refinement_exact r g c d p f : refers r g c -> default_extent g -> usable close (kd g) (sz g) -> (d <= 1)%nat -> resolved (kd g) (sz g) d p f ->
  exists pts, points c = Ok pts /\ form_Rf heap (form r c d p f) = Ok (map f pts).
Proof.
  intros [Eh E] He Hu Hd Hf. destruct (refines g c d p f He Hu E Hd Hf) as (T & pts & ET & Ep & EV). exists pts. split; [exact Ep|].
  unfold form_Rf, form. cbn [degree isprimal gref array]. rewrite Eh. change (bind (tget (rT (refine_of close (kd g))) (d, p)) (fun t => t (proj c d p f)) = Ok (map f pts)). rewrite ET. cbn [bind]. exact EV.
Qed.
Theorem C73_wedge_exact r g c t d0 p0 f0 d1 p1 f1 : refers r g c -> default_extent g -> usable close (kd g) (sz g) -> (d0 + d1 <= 1)%nat ->
  resolved (kd g) (sz g) d0 p0 f0 -> resolved (kd g) (sz g) d1 p1 f1 ->
  (kd g = Chebyshev -> (d0 + d1 = 1)%nat -> polynomial (2 * sz g - 3) (fun x => f0 x * f1 x)) ->
  form_W heap t (form r c d0 p0 f0) (form r c d1 p1 f1) = Ok (form r c (d0 + d1) t (fun x => f0 x * f1 x)).
Proof.
  intros [Eh E] He Hu Hd H0 H1 Hp. pose proof (default_cells g c He E) as Hc. unfold form_W, form. cbn [degree isprimal gref array]. rewrite Nat.eqb_refl, Eh. cbn [negb gW grid_1d].
  destruct g as [k n l h]. cbn [kd sz] in *. destruct k; cbn [usable resolved refine_of] in *; [|contradiction|]; cbn [dW dec_of].
  - subst c. destruct H0 as (K & HK & H0), H1 as (L & HL & H1). change (grid_N Periodic n d0 p0) with n in HK. change (grid_N Periodic n d1 p1) with n in HL.
    destruct (C35_exact_trigonometric n d0 p0 d1 p1 t f0 f1 K L Hu Hd H0 H1 HK HL) as (w & Ew & V). rewrite Ew. cbn [bind]. rewrite V. reflexivity.
  - destruct Hu as [Hn G]. destruct (C35_exact_polynomial close n d0 p0 d1 p1 t f0 f1 Hn G Hd H0 H1) as (c' & w & Ec' & Ew & V); [destruct (d0 + d1)%nat as [|[|]]; auto; lia|].
    rewrite Hc in Ec'. injection Ec' as <-. rewrite Ew. cbn [bind]. rewrite V. reflexivity.
Qed.
Lemma U0_exact g c t f pts : default_extent g -> usable close (kd g) (sz g) -> cells_of g = Ok c -> points c = Ok pts ->
  exists U, tget (rU (refine_of close (kd g))) (0%nat, t) = Ok U /\ U (map f pts) = Ok (proj c 0 t f).
Proof.
  intros He Hu E Ep. unfold points in Ep. destruct (_ && _)%bool eqn:B; [|discriminate]. injection Ep as <-. apply andb_prop in B. destruct B as [B1 B2]. apply Nat.eqb_eq in B1, B2.
  assert (forall A (u v : list A), length u = length (verts c) -> length v = length (verts_dual c) -> evens (weave u v) = u /\ odds (weave u v) = v) as W.
  { intros A u v Lu Lv. split; [apply evens_weave|apply odds_weave]; lia. }
  assert (map f (weave (verts c) (verts_dual c)) = weave (map f (verts c)) (map f (verts_dual c))) as -> by (apply map_weave; lia).
  destruct (W R (map f (verts c)) (map f (verts_dual c)) (map_length _ _) (map_length _ _)) as [We Wo].
  destruct g as [k n l h]. cbn [kd sz] in *. destruct k; cbn [usable refine_of] in *; [|contradiction|]; destruct t; (eexists; split; [reflexivity|]); unfold U0_periodic, U0d_periodic, U0_cheb, U0d_cheb; cbn [proj]; unfold P0, P0d, proj0; now rewrite ?We, ?Wo.
Qed.
(** the contraction of the 1-form u dx by the vector field whose 1-form is X dx is the function X*u *)
Theorem C73_contraction_exact r g c t p0 X p1 u : refers r g c -> default_extent g -> usable close (kd g) (sz g) ->
  resolved (kd g) (sz g) 1 p0 X -> resolved (kd g) (sz g) 1 p1 u ->
  form_C heap t (form r c 1 p0 X) (form r c 1 p1 u) = Ok (form r c 0 t (fun x => X x * u x)).
Proof.
  intros [Eh E] He Hu H0 H1. destruct (usable_ok _ _ _ Hu) as (Hb & Hg & Hk). unfold form_C, form. cbn [degree isprimal gref array]. rewrite !Nat.eqb_refl, Eh. cbn [negb andb gC grid_1d].
  destruct (get_c_val close (kd g) (sz g) p0 p1 t (proj c 1 p0 X) (proj c 1 p1 u) Hb Hg Hk (proj_length g c 1 p0 X He Hb E ltac:(lia)) (proj_length g c 1 p1 u He Hb E ltac:(lia)))
    as (t0 & t1 & U & A & B & e & T0 & T1 & TU & EA & EB & Ee & Ec & _).
  destruct (refines g c 1 p0 X He Hu E ltac:(lia) H0) as (T & pts & ET & Ep & EV). rewrite T0 in ET. injection ET as <-. rewrite EA in EV. injection EV as ->.
  destruct (refines g c 1 p1 u He Hu E ltac:(lia) H1) as (T & pts' & ET & Ep' & EV). rewrite Ep in Ep'. injection Ep' as <-. rewrite T1 in ET. injection ET as <-. rewrite EB in EV. injection EV as ->.
  assert (zipw Rmult (map X pts) (map u pts) = map (fun x => X x * u x) pts) as Ez by (clear; induction pts; cbn; congruence). rewrite Ez in Ee.
  destruct (U0_exact g c t (fun x => X x * u x) pts He Hu E Ep) as (U' & EU & V). rewrite TU in EU. injection EU as <-. rewrite Ee in V. injection V as ->.
  assert (Common.dC (dec_of close (kd g)) = Some (contraction (refine_of close (kd g)))) as -> by (destruct (kd g); auto; contradiction).
  rewrite C_entry. cbn [bind]. rewrite Ec. reflexivity.
Qed.

(** C74: exterior derivative and Laplacian *)
Theorem C74_derivative_primal r g c (f f' : R -> R) : refers r g c -> lo g < hi g -> (min_n (kd g) <= sz g)%nat ->
  (forall x, lo g <= x <= hi g -> is_derive f x (f' x)) -> (forall x, lo g <= x <= hi g -> continuous f' x) -> (kd g = Periodic -> f (hi g) = f (lo g)) ->
  form_D heap (form r c 0 true f) = Ok (ZForm (form r c 1 true f')).
Proof.
  intros [Eh E] Hl Hm Hd Hc Hp. pose proof (stokes_primal (kd g) (sz g) (lo g) (hi g) c f f' Hm Hl E Hd Hc Hp) as St.
  unfold form_D, form. cbn [degree isprimal gref array]. rewrite Eh. cbn [proj] in *. rewrite <- St. destruct (kd g); reflexivity.
Qed.
Theorem C74_derivative_dual_periodic r g c (f f' : R -> R) : refers r g c -> kd g = Periodic -> lo g < hi g -> (1 <= sz g)%nat ->
  (forall x, f (x + (hi g - lo g)) = f x) -> (forall x, is_derive f x (f' x)) -> (forall x, continuous f' x) ->
  form_D heap (form r c 0 false f) = Ok (ZForm (form r c 1 false f')).
Proof.
  intros [Eh E] Hk Hl Hm Hp Hd Hc. unfold cells_of in E. rewrite Hk in *. pose proof (stokes_dual_periodic (sz g) (lo g) (hi g) c f f' Hm Hl E Hp Hd Hc) as St.
  unfold form_D, form. cbn [degree isprimal gref array]. rewrite Eh. cbn [proj] in *. rewrite <- St. reflexivity.
Qed.
(** on the other grids the values of f at the two ends have to be added: z + g.boundary_condition(f) *)
Theorem C74_derivative_dual_interval r g c (f f' : R -> R) : refers r g c -> kd g <> Periodic -> lo g < hi g -> (2 <= sz g)%nat ->
  (forall x, lo g <= x <= hi g -> is_derive f x (f' x)) -> (forall x, lo g <= x <= hi g -> continuous f' x) ->
  exists z bc, form_D heap (form r c 0 false f) = Ok (ZForm z) /\ boundary_condition (sz g) (lo g) (hi g) f = Ok bc /\
    binary Badd z (OArr bc) = Ok (form r c 1 false f').
Proof.
  intros [Eh E] Hk Hl Hm Hd Hc. destruct (stokes_dual_interval (kd g) (sz g) (lo g) (hi g) c f f' Hk Hm Hl E Hd Hc) as (bc & Eb & St).
  exists (MkForm 1 false r (grid_D0d (kd g) (P0d c f))), bc. split; [|split; [exact Eb|]].
  - unfold form_D, form. cbn [degree isprimal gref array]. rewrite Eh. destruct (kd g); reflexivity.
  - unfold binary. cbn [bop_fn bind degree isprimal gref array]. unfold np_bin. unfold form. cbn [proj]. rewrite <- St.
    destruct (interval_cells_tab (kd g) (sz g) (lo g) (hi g) Hk Hm Hl) as (v & m & c' & E' & _ & _ & _ & Ec). unfold cells_of in E. rewrite E in E'. injection E' as <-. cbv zeta in Ec.
    assert (length (grid_D0d (kd g) (P0d c f)) = length bc) as L.
    { rewrite Ec. unfold P0d, proj0. cbn [verts_dual]. rewrite map_tab. destruct (kd g); [congruence| |]; cbn [grid_D0d]; unfold D0d_interval; rewrite length_diff, !app_length, length_tab; cbn [length];
      (unfold boundary_condition in Eb; destruct (sz g) as [|[|n]]; [lia|lia|]; injection Eb as <-; cbn [app length]; unfold zeros; rewrite app_length, repeat_length; cbn [length]; lia). }
    rewrite L, Nat.eqb_refl. cbn [bind]. reflexivity.
Qed.
Lemma td_derivative K (f f' : R -> R) : trig_degree K f -> (forall x, is_derive f x (f' x)) -> trig_degree K f'.
Proof.
  intros Hf Hd. destruct (td_deriv K f Hf) as (h & Hh & E). apply (td_ext K f' h); auto. intro t. rewrite <- (is_derive_unique _ _ _ (Hd t)). now rewrite <- (is_derive_unique _ _ _ (E t)).
Qed.
Lemma poly_derivative d (f f' : R -> R) : polynomial d f -> (forall x, is_derive f x (f' x)) -> polynomial (d - 1) f'.
Proof.
  intros [a Ha] Hd. destruct d as [|d].
  - exists (fun _ => 0). intro x. cbn. rewrite <- (is_derive_unique _ _ _ (Hd x)). rewrite (Derive_ext f (fun _ => a 0%nat)) by (intro; rewrite Ha; cbn; ring). rewrite Derive_const. cbn. ring.
  - exists (fun i => INR (S i) * a (S i)). intro x. replace (S d - 1)%nat with d by lia. rewrite <- (is_derive_unique _ _ _ (Hd x)). apply is_derive_unique.
    apply (is_derive_ext (fun t => a 0%nat + Rsum (S d) (fun i => a (S i) * t ^ (S i)))).
    { intro t. req. rewrite Ha. rewrite (Rsum_S_l (S d)). cbn [pow]. ring. }
    replace (Rsum (S d) (fun i => INR (S i) * a (S i) * x ^ i)) with (plus 0 (Rsum (S d) (fun i => INR (S i) * a (S i) * x ^ i))) by (unfold plus; cbn; ring).
    apply (is_derive_plus (fun _ => a 0%nat)); [apply (@is_derive_const R_AbsRing)|].
    apply (is_derive_Rsum (S d) (fun i t => a (S i) * t ^ S i) (fun i t => INR (S i) * a (S i) * t ^ i)). intros i _. auto_derive; auto. change (match i with O => 1 | S _ => INR i + 1 end) with (INR (S i)). ring.
Qed.
Lemma td_periodic K f x : trig_degree K f -> f (x + 2 * PI) = f x.
Proof.
  intros (a & b & H). rewrite !H. unfold trig. f_equal. apply Rsum_ext. intros i _.
  replace (INR (S i) * (x + 2 * PI)) with (INR (S i) * x + 2 * INR (S i) * PI) by ring. now rewrite cos_period, sin_period.
Qed.
(** * d * d f = f'': the Laplacian of a resolved function, through four discrete operators *)
Theorem C74_laplacian_periodic r g c p (f f' f'' : R -> R) : refers r g c -> default_extent g -> kd g = Periodic -> (1 <= sz g)%nat -> resolved_periodic (sz g) f ->
  (forall x, is_derive f x (f' x)) -> (forall x, is_derive f' x (f'' x)) ->
  exists z1 z2 z3, form_D heap (form r c 0 p f) = Ok (ZForm z1) /\ form_H heap z1 = Ok z2 /\ form_D heap z2 = Ok (ZForm z3) /\
    form_H heap z3 = Ok (form r c 0 p f'').
Proof.
  intros Hr He Hk Hn (K & HK & Hf) H1 H2. pose proof (td_derivative K f f' Hf H1) as Hf'. pose proof (td_derivative K f' f'' Hf' H2) as Hf''.
  assert (lo g = 0 /\ hi g = 2 * PI) as [El Ei] by (unfold default_extent in He; now rewrite Hk in He). pose proof PI_RGT_0 as HPI.
  assert (forall h h' q, trig_degree K h -> trig_degree K h' -> (forall x, is_derive h x (h' x)) -> form_D heap (form r c 0 q h) = Ok (ZForm (form r c 1 q h'))) as D.
  { intros h h' q Hh Hh' Hd. destruct q.
    - apply (C74_derivative_primal r g); auto; [lra|now rewrite Hk|intros; now apply (td_cont K)|]. intros _. rewrite El, Ei. rewrite <- (td_periodic K h 0 Hh). f_equal. ring.
    - apply (C74_derivative_dual_periodic r g); auto; [lra| |intros; now apply (td_cont K)]. intro x. rewrite El, Ei. replace (2 * PI - 0) with (2 * PI) by ring. now apply (td_periodic K). }
  assert (forall h q, trig_degree K h -> form_H heap (form r c 1 q h) = Ok (form r c 0 (negb q) h)) as S.
  { intros h q Hh. rewrite (C71_hodge_exact r g); auto; rewrite Hk; cbn; auto. exists K. auto. }
  exists (form r c 1 p f'), (form r c 0 (negb p) f'), (form r c 1 (negb p) f''). rewrite (D f f' p), (S f' p), (D f' f''), (S f'') by auto. now rewrite negb_involutive.
Qed.
Theorem C74_laplacian_chebyshev r g c (f f' f'' : R -> R) : refers r g c -> default_extent g -> kd g = Chebyshev -> (2 <= sz g)%nat -> guard_ok close (sz g) -> polynomial (sz g - 1) f ->
  (forall x, is_derive f x (f' x)) -> (forall x, is_derive f' x (f'' x)) ->
  exists z1 z2 z3 bc z4, form_D heap (form r c 0 true f) = Ok (ZForm z1) /\ form_H heap z1 = Ok z2 /\ form_D heap z2 = Ok (ZForm z3) /\
    boundary_condition (sz g) (lo g) (hi g) f' = Ok bc /\ binary Badd z3 (OArr bc) = Ok z4 /\ form_H heap z4 = Ok (form r c 0 true f'').
Proof.
  intros Hr He Hk Hn G Hf H1 H2. pose proof (poly_derivative _ f f' Hf H1) as Hf'. pose proof (poly_derivative _ f' f'' Hf' H2) as Hf''.
  assert (lo g < hi g) as Hl by (unfold default_extent in He; rewrite Hk in He; lra).
  assert (works close (kd g) (sz g)) as Hw by (rewrite Hk; split; auto).
  destruct (C74_derivative_dual_interval r g c f' f'' Hr ltac:(congruence) Hl Hn (fun x _ => H2 x) (fun x _ => poly_cont _ _ x Hf'')) as (z3 & bc & E3 & Eb & E4).
  exists (form r c 1 true f'), (form r c 0 false f'), z3, bc, (form r c 1 false f''). repeat split; auto.
  - apply (C74_derivative_primal r g); auto; [now rewrite Hk|intros; apply (poly_cont _ _ x Hf')|congruence].
  - apply (C71_hodge_exact r g c 1 true f'); auto. rewrite Hk. exact Hf'.
  - apply (C71_hodge_exact r g c 1 false f''); auto. rewrite Hk. cbn. apply (poly_mono (sz g - 1 - 1 - 1)); auto. lia.
Qed.
End Forms1.

(** ** instances: sin x on a periodic grid with 3 points, x^2 on a Chebyshev grid with 3 points, cos x on a regular grid *)
Definition per3 : grid1 := MkGrid1 Periodic 3 0 (2 * PI).
Definition che3 : grid1 := MkGrid1 Chebyshev 3 (-1) 1.
Definition reg3 : grid1 := MkGrid1 Regular 3 0 PI.
Lemma sin_resolved n : (3 <= n)%nat -> resolved_periodic n sin.
Proof. intro H. exists 1%nat. split; [lia|]. exists (fun _ => 0), (fun _ => 1). intro x. unfold trig. cbn. rewrite Rmult_1_l. ring. Qed.
Lemma sqr_poly : polynomial 2 (fun x => x ^ 2).
Proof. exists (fun i => if Nat.eqb i 2 then 1 else 0). intro x. cbn. ring. Qed.
Lemma cos_resolved n : (2 <= n)%nat -> resolved_regular n cos.
Proof. intro H. apply (cosp_ext _ _ (fun t => cos (INR 1 * t))); [intro; f_equal; cbn; ring|]. apply cosp_cos. lia. Qed.
Example C71_instance : exists c cp, cells_of reg3 = Ok c /\ cells_of per3 = Ok cp /\
  (forall d p, (d <= 1)%nat -> form_H (fun _ => grid_1d never Regular 3) (form 0 c d p cos) = Ok (form 0 c (1 - d) (negb p) cos)) /\
  form_H (fun _ => grid_1d never Periodic 3) (form 0 cp 1 true sin) = Ok (form 0 cp 0 false sin).
Proof.
  destruct (rd_cells 3 ltac:(lia)) as (c & Ec & _). exists c, (periodic_default 3). split; [exact Ec|]. split; [reflexivity|]. split.
  - intros d p Hd. apply (C71_hodge_exact never _ 0 reg3); cbn; auto; [split; auto; exact Ec|]. apply cos_resolved. destruct d as [|[|]], p; cbn; lia.
  - apply (C71_hodge_exact never _ 0 per3); cbn; auto; [split; auto|]. now apply sin_resolved.
Qed.
Example C72_instance : form_R (fun _ => grid_1d never Periodic 3) (form 0 (periodic_default 3) 0 true sin) [1] = Ok (Some [sin 1]).
Proof. apply (C72_reconstruction_exact never _ 0 per3); cbn; auto; [split; auto|now apply sin_resolved|]. pose proof PI2_1. lra. Qed.
Example C73_instance : exists c, cells_of che3 = Ok c /\
  form_W (fun _ => grid_1d never Chebyshev 3) false (form 0 c 0 true (fun x => x ^ 2)) (form 0 c 1 true (fun _ => 2)) = Ok (form 0 c 1 false (fun x => x ^ 2 * 2)) /\
  form_C (fun _ => grid_1d never Chebyshev 3) true (form 0 c 1 false (fun x => x ^ 2)) (form 0 c 1 true (fun _ => 2)) = Ok (form 0 c 0 true (fun x => x ^ 2 * 2)).
Proof.
  destruct (cd_cells 3 ltac:(lia)) as (c & Ec & _). exists c. split; [exact Ec|].
  assert (usable never Chebyshev 3) as U by (split; [lia|left; intros ? ? E; discriminate E]). split.
  - apply (C73_wedge_exact never _ 0 che3); cbn [kd sz]; auto; [split; auto|split; reflexivity|exact sqr_poly|apply poly_const|]. intros _ _.
    apply (poly_mono 2); [cbn; lia|]. apply (poly_ext 2 _ (fun x => 2 * x ^ 2)); [intro; ring|]. apply poly_scal, sqr_poly.
  - apply (C73_contraction_exact never _ 0 che3); cbn [kd sz]; auto; [split; auto|split; reflexivity|exact sqr_poly|apply poly_const].
Qed.
Example C74_instance : exists z1 z2 z3, form_D (fun _ => grid_1d never Periodic 3) (form 0 (periodic_default 3) 0 true sin) = Ok (ZForm z1) /\
  form_H (fun _ => grid_1d never Periodic 3) z1 = Ok z2 /\ form_D (fun _ => grid_1d never Periodic 3) z2 = Ok (ZForm z3) /\
  form_H (fun _ => grid_1d never Periodic 3) z3 = Ok (form 0 (periodic_default 3) 0 true (fun x => - sin x)).
Proof.
  apply (C74_laplacian_periodic never _ 0 per3 _ true sin cos); cbn; auto; [split; auto|now apply sin_resolved|intro; auto_derive; auto; ring|intro; auto_derive; auto; ring].
Qed.
