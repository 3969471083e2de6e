(** The refinements of the Chebyshev grid sample the reconstruction at the points of the grid, and the
    restrictions integrate it over the cells. *)
From Coq Require Import ZArith Reals List Lia Lra Arith.
From Coq Require Import ZifyNat.
From Verif Require Import Model.Sym.
From Coquelicot Require Import Coquelicot.
From Verif Require Import Model.Num Model.Np Model.Spectral Model.Basis Model.Grids1 Model.Regular Model.Chebyshev Model.Common Spec.Trig Spec.Poly Proofs.ListLemmas Proofs.Sums
  Proofs.Fourier Proofs.RIntLemmas Proofs.Kernels Proofs.Trig Proofs.Ops Proofs.Exact Proofs.BasisP Proofs.Grids1P Proofs.GridsThm Proofs.PeriodicBasis Proofs.RegularBasis Proofs.TrigAlg Proofs.Lin Proofs.TableLin Proofs.Refine
  Proofs.Cheb1 Proofs.ChebGuard Proofs.ChebPoly Proofs.Cheb2 Proofs.Cheb3.
Import ListNotations.
Local Open Scope R_scope.
Ltac Zify.zify_post_hook ::= Z.div_mod_to_equations.

(** H0d integrates the sampled polynomial *)
Lemma H0d_poly n c p : (2 <= n)%nat -> chebyshev_default n = Ok c -> polynomial (n - 2) p -> H0d_cheb (P0d c p) = Ok (P1 c p).
Proof.
  intros Hn Ec Hp. destruct (cd_cells n Hn) as (c' & E & Ev & Ee & Evd & _). rewrite Ec in E. injection E as <-.
  set (b := P0d c p). assert (length b = (n - 1)%nat) as Lb by (unfold b, P0d, proj0; rewrite Evd, map_length, length_tab; auto).
  destruct (H0d_is_P_R n Hn b Lb) as (c' & E & H). rewrite Ec in E. injection E as <-. rewrite H. f_equal.
  destruct (R0d_poly n Hn b Lb) as (P & HP & Eg & Ex).
  unfold P1, Grids1.proj1. rewrite Ee. cbn [fst snd]. rewrite !zipw_tab. apply tab_ext. intros i Hi.
  rewrite (RInt_R_poly (R_cheb n 0 false b) P (n - 1 - 1)) by auto.
  transitivity (RInt (fun t => p (- cos t) * sin t) (xg (2 * (n - 1)) i) (xg (2 * (n - 1)) (S i))); [|symmetry; apply (RInt_R_poly (fun x => Some (p x)) p (n - 2)); auto].
  apply RInt_ext. intros t _. f_equal. rewrite <- Eg. symmetry. apply (poly_g1 n Hn); auto; [replace (n - 1 - 1)%nat with (n - 2)%nat by lia; auto|].
  intros j Hj. unfold b, P0d, proj0. rewrite Evd, map_tab. now rewrite nth_tab.
Qed.
Lemma S_poly n c p : (2 <= n)%nat -> chebyshev_default n = Ok c -> polynomial (n - 1) p -> S_cheb (P0 c p) = Ok (P0d c p).
Proof.
  intros Hn Ec Hp. destruct (cd_cells n Hn) as (c' & E & Ev & Ee & Evd & _). rewrite Ec in E. injection E as <-.
  unfold P0, P0d, proj0. rewrite Ev, Evd, !map_tab. rewrite (S_val n Hn) by apply length_tab. apply (f_equal (@Ok (list R))), tab_ext. intros j Hj. symmetry.
  apply (poly_g0 n Hn); auto; [apply length_tab|]. intros i Hi. now rewrite nth_tab.
Qed.
Section ChebRefine.
Variable n : nat.
Hypothesis Hn : (2 <= n)%nat.
Variables c c' : cells1.
Hypothesis Ec : chebyshev_default n = Ok c.
Hypothesis Ec' : chebyshev_default (2 * n - 1) = Ok c'.
Let N := (2 * (n - 1))%nat.
Notation k := (n - 1)%nat.
Lemma N' : (2 * (2 * n - 1 - 1))%nat = (N + N)%nat. Proof. unfold N. lia. Qed.
Lemma HN0 : (0 < N)%nat. Proof. unfold N. lia. Qed.
Lemma c_cells : verts c = tab n (fun i => - cos (xg N i)) /\ edges c = (tab k (fun i => - cos (xg N i)), tab k (fun i => - cos (xg N (S i)))) /\
  verts_dual c = tab k (fun i => - cos (xg N i + hstep N / 2)) /\ edges_dual c = (tab n (fun i => - cos (tdual n i)), tab n (fun i => - cos (tdual n (S i)))).
Proof. destruct (cd_cells n Hn) as (c0 & E & H). rewrite Ec in E. injection E as <-. exact H. Qed.
Lemma c'_cells : verts c' = tab (2 * n - 1) (fun i => - cos (xg (N + N) i)) /\ edges c' = (tab (2 * n - 2) (fun i => - cos (xg (N + N) i)), tab (2 * n - 2) (fun i => - cos (xg (N + N) (S i)))).
Proof. destruct (cd_cells (2 * n - 1) ltac:(lia)) as (c0 & E & Ev & Ee & _). rewrite Ec' in E. injection E as <-. rewrite N' in *. replace (2 * n - 1 - 1)%nat with (2 * n - 2)%nat in Ee by lia. auto. Qed.
(** the vertices of the refined grid are the points of the grid *)
Lemma points_c : points c = Ok (verts c').
Proof.
  destruct c_cells as (Ev & _ & Evd & _). destruct c'_cells as (Ev' & _). unfold points. rewrite Ev, Evd, Ev', !length_tab.
  replace ((n + k + 1) / 2)%nat with n by lia. replace ((n + k) / 2)%nat with k by lia. rewrite !Nat.eqb_refl. cbn [andb]. apply (f_equal (@Ok (list R))).
  replace (2 * n - 1)%nat with (n + k)%nat by lia. apply weave_tab; [lia| |]; intros i Hi; [now rewrite xg_e by apply HN0|now rewrite xg_o by apply HN0].
Qed.
(** restriction to the cells *)
Lemma U_pre p : polynomial (2 * n - 3) p -> bind (S_cheb (P0 c' p)) H0d_cheb = Ok (P1 c' p).
Proof.
  intro Hp. assert (polynomial (2 * n - 1 - 1) p) as Hp' by (apply (poly_mono (2 * n - 3)); [lia|auto]). rewrite (S_poly (2 * n - 1) c') by (auto; lia). cbn [bind]. apply (H0d_poly (2 * n - 1)); auto; [lia|]. replace (2 * n - 1 - 2)%nat with (2 * n - 3)%nat by lia. auto.
Qed.
Lemma P1_c' (p : R -> R) : P1 c' p = @tab R (2 * n - 2) (fun i => RInt p (- cos (xg (N + N) i)) (- cos (xg (N + N) (S i)))).
Proof. destruct c'_cells as (_ & Ee). unfold P1, Grids1.proj1. rewrite Ee. cbn [fst snd]. apply zipw_tab. Qed.
Lemma U1_c p : polynomial (2 * n - 3) p -> U1_cheb (P0 c' p) = Ok (P1 c p).
Proof.
  intro Hp. unfold U1_cheb. rewrite U_pre by auto. cbn [bind]. rewrite P1_c'. replace (2 * n - 2)%nat with (k + k)%nat by lia. rewrite pair_sum_tab.
  destruct c_cells as (_ & Ee & _). unfold P1, Grids1.proj1. rewrite Ee. cbn [fst snd]. rewrite zipw_tab. apply (f_equal (@Ok (list R))), tab_ext. intros i Hi.
  replace (S (2 * i + 1)) with (2 * S i)%nat by lia. replace (S (2 * i)) with (2 * i + 1)%nat by lia. rewrite !xg_e, xg_o by apply HN0.
  apply RInt_Chasles_cont. intro. now apply (poly_cont (2 * n - 3)).
Qed.
Lemma U1d_c p : polynomial (2 * n - 3) p -> U1d_cheb (P0 c' p) = Ok (P1d c p).
Proof.
  intro Hp. unfold U1d_cheb. rewrite U_pre by auto. cbn [bind]. rewrite P1_c'.
  set (F := (fun i => RInt p (- cos (xg (N + N) i)) (- cos (xg (N + N) (S i)))) : nat -> R).
  assert (inner (tab (2 * n - 2) F) = tab (n - 2 + (n - 2)) (fun i => F (S i))) as Ei.
  { unfold inner. replace (2 * n - 2)%nat with (S (S (n - 2 + (n - 2)))) by lia. rewrite tl_tab. apply (init_tab _ (fun i => F (S i))). }
  rewrite Ei, pair_sum_tab. cbn [bind]. assert (exists x l, tab (2 * n - 2) F = x :: l) as (x & l & Ex).
  { replace (2 * n - 2)%nat with (S (2 * n - 3)) by lia. eexists _, _. reflexivity. }
  assert (x = F 0%nat) as -> by (pose proof (nth_tab (2 * n - 2) F 0 0 ltac:(lia)) as X; rewrite Ex in X; exact X). rewrite Ex.
  assert (last (F 0%nat :: l) 0 = F (2 * n - 3)%nat) as ->. { rewrite <- Ex, nth_last, length_tab. rewrite nth_tab by lia. f_equal. lia. }
  apply (f_equal (@Ok (list R))). rewrite bracket_tab. destruct c_cells as (_ & _ & _ & Ee). unfold P1d, Grids1.proj1. rewrite Ee. cbn [fst snd]. rewrite zipw_tab.
  replace (S (S (n - 2))) with n by lia. apply tab_ext. intros i Hi. unfold F, tdual. fold N. change (Nat.eqb (S i) 0) with false. cbv iota.
  assert (forall t, continuous p t) as Cp by (intro; now apply (poly_cont (2 * n - 3))).
  destruct (Nat.eqb_spec i 0) as [->|H0].
  - destruct (Nat.eqb_spec 1 n); [lia|]. apply RInt_Rplus0; [now rewrite !xg_0|]. do 2 f_equal. exact (xg_o N HN0 0).
  - replace (S (n - 2)) with k by lia. destruct (Nat.eqb_spec i k) as [->|Hk].
    + destruct (Nat.eqb_spec (S k) n); [|lia]. destruct (Nat.eqb_spec k n); [lia|]. apply RInt_Rplus0; do 2 f_equal.
      * replace (2 * n - 3)%nat with (2 * (k - 1) + 1)%nat by lia. apply xg_o, HN0.
      * replace (S (2 * n - 3)) with (2 * k)%nat by lia. rewrite xg_e by apply HN0. pose proof (xg_mid n Hn) as X. exact X.
    + destruct (Nat.eqb_spec (S i) n); [lia|]. destruct (Nat.eqb_spec i n); [lia|]. replace (S i - 1)%nat with i by lia.
      replace (S (2 * (i - 1))) with (2 * (i - 1) + 1)%nat by lia. replace (S (2 * (i - 1) + 1)) with (2 * i)%nat by lia. replace (S (S (2 * (i - 1) + 1))) with (2 * i + 1)%nat by lia.
      replace (S (2 * i)) with (2 * i + 1)%nat by lia.
      rewrite xg_e, !xg_o by apply HN0. apply RInt_Chasles_cont. auto.
Qed.
(** refinement *)
Lemma P0_c' (p : R -> R) : P0 c' p = tab (2 * n - 1) (fun i => p (- cos (xg (N + N) i))).
Proof. destruct c'_cells as (Ev & _). unfold P0, proj0. now rewrite Ev, map_tab. Qed.
Lemma T0_c f : length f = n -> exists p, polynomial (n - 1) p /\ P0 c p = f /\ T0_cheb f = Ok (P0 c' p) /\ (forall x, -1 <= x <= 1 -> R_cheb n 0 true f x = Some (p x)).
Proof.
  intro L. destruct (R0_poly n Hn f L) as (p & Hp & Eg & Ex). exists p. split; auto. destruct c_cells as (Ev & _).
  assert (P0 c p = f) as EP by (unfold P0, proj0; rewrite Ev, map_tab; apply tab_nth; auto; intros j Hj; rewrite <- Eg; now apply g0_vert).
  split; auto. split; auto. unfold T0_cheb. rewrite (S_val n Hn) by auto. cbn [bind]. rewrite interweave_ok by (rewrite length_tab; lia). rewrite P0_c'. fold N. apply (f_equal (@Ok (list R))).
  replace (2 * n - 1)%nat with (n + k)%nat by lia. replace f with (tab n (fun i => p (- cos (xg N i)))) at 1 by (rewrite <- EP; unfold P0, proj0; now rewrite Ev, map_tab).
  apply weave_tab; [lia| |]; intros i Hi; [now rewrite xg_e by apply HN0|]. rewrite xg_o by apply HN0. apply Eg.
Qed.
Lemma T0d_c f : length f = k -> exists p, polynomial (n - 2) p /\ P0d c p = f /\ T0d_cheb f = Ok (P0 c' p) /\ (forall x, -1 <= x <= 1 -> R_cheb n 0 false f x = Some (p x)).
Proof.
  intro L. destruct (R0d_poly n Hn f L) as (p & Hp & Eg & Ex). exists p. replace (n - 2)%nat with (n - 1 - 1)%nat by lia. split; auto. destruct c_cells as (_ & _ & Evd & _).
  assert (P0d c p = f) as EP by (unfold P0d, proj0; rewrite Evd, map_tab; apply tab_nth; auto; intros j Hj; rewrite <- Eg; now apply g1_vert).
  split; auto. split; auto. unfold T0d_cheb. rewrite (Sp_val n Hn) by auto. cbn [bind]. rewrite interweave_ok by (rewrite length_tab; lia). rewrite P0_c'. fold N. apply (f_equal (@Ok (list R))).
  replace (2 * n - 1)%nat with (n + k)%nat by lia. transitivity (weave (tab n (fun j => g1 n f (xg N j))) (tab k (fun i => p (- cos (xg N i + hstep N / 2))))); [apply f_equal; rewrite <- EP; unfold P0d, proj0; now rewrite Evd, map_tab|].
  apply weave_tab; [lia| |]; intros i Hi; [|now rewrite xg_o by apply HN0]. rewrite xg_e by apply HN0. apply Eg.
Qed.
Lemma T1_c close f : length f = k -> kguard close (2 * k) 0 (hstep (2 * k)) = false -> exists p, polynomial (n - 2) p /\ P1 c p = f /\ T1_cheb close f = Ok (P0 c' p).
Proof.
  intros L G. destruct (rlin_H1_cheb close k ltac:(lia) G) as (g & Lg & Eg). pose proof (lin_len _ _ _ _ Lg L) as Lv. unfold T1_cheb. rewrite Eg by auto. cbn [bind].
  destruct (T0d_c (g f) Lv) as (p & Hp & EP & ET & _). exists p. split; auto. split; [|exact ET].
  pose proof (H0d_H1 n Hn close f G L) as X. rewrite Eg in X by auto. cbn [bind] in X. rewrite <- EP in X. rewrite (H0d_poly n c) in X by auto. now injection X.
Qed.
Lemma T1d_c f : length f = n -> exists p, polynomial (n - 1) p /\ P1d c p = f /\ T1d_cheb f = Ok (P0 c' p).
Proof.
  intro L. destruct (rlin_H1d_cheb n Hn) as (g & Lg & Eg). pose proof (lin_len _ _ _ _ Lg L) as Lv. unfold T1d_cheb. rewrite Eg by auto. cbn [bind].
  destruct (T0_c (g f) Lv) as (p & Hp & EP & ET & Ex). exists p. split; auto. split; [|exact ET].
  pose proof (H0_H1d n Hn f L) as X. rewrite Eg in X by auto. cbn [bind] in X. destruct (H0_is_P_R n Hn (g f) Lv) as (c0 & E & H). rewrite Ec in E. injection E as <-. rewrite H in X. injection X as X. rewrite <- X.
  destruct c_cells as (_ & _ & _ & Ee). unfold P1d, Grids1.proj1. rewrite Ee. cbn [fst snd]. rewrite !zipw_tab. apply tab_ext. intros i Hi.
  rewrite (RInt_R_poly (R_cheb n 0 true (g f)) p (n - 1)) by auto. apply (RInt_R_poly (fun x => Some (p x)) p (n - 1)); auto.
Qed.
End ChebRefine.
