(** C29: the basis functions of the Chebyshev grid. *)
From Coq Require Import ZArith Reals List Lia Lra Arith.
From Coq Require Import ZifyNat.
From Coquelicot Require Import Coquelicot.
From Verif Require Import Model.Num Model.Np Model.Spectral Model.Basis Model.Grids1 Model.Regular Model.Chebyshev Spec.Trig Spec.Poly Proofs.ListLemmas Proofs.Sums
  Proofs.Fourier Proofs.RIntLemmas Proofs.Kernels Proofs.Trig Proofs.Ops Proofs.BasisP Proofs.Grids1P Proofs.GridsThm Proofs.Mirror Proofs.PeriodicBasis Proofs.RegularBasis
  Proofs.TableLin Proofs.Cheb1 Proofs.ChebGuard Proofs.ChebPoly Proofs.Cheb2 Proofs.Cheb3 Proofs.Lin Proofs.ChebBasis Props.Regular.
Import ListNotations.
Local Open Scope R_scope.
Ltac Zify.zify_post_hook ::= Z.div_mod_to_equations.

(** C29.  The 1-forms are undefined (0/0) at the two end points, which does not affect the integrals. *)
Theorem C29_chebyshev_cardinal n i j : (2 <= n)%nat -> exists c, chebyshev_default n = Ok c /\
  ((i < n)%nat -> (j < n)%nat -> psi0 n i (nth j (verts c) 0) = Some (if Nat.eqb i j then 1 else 0)) /\
  ((i < n - 1)%nat -> (j < n - 1)%nat -> psid0 n i (nth j (verts_dual c) 0) = Some (if Nat.eqb i j then 1 else 0)) /\
  ((i < n - 1)%nat -> (j < n - 1)%nat ->
     RInt (tot (psi1 n i)) (nth j (fst (edges c)) 0) (nth j (snd (edges c)) 0) = if Nat.eqb i j then 1 else 0) /\
  ((i < n)%nat -> (j < n)%nat ->
     RInt (tot (psid1 n i)) (nth j (fst (edges_dual c)) 0) (nth j (snd (edges_dual c)) 0) = if Nat.eqb i j then 1 else 0).
Proof.
  intro Hn. destruct (cd_cells n Hn) as (c & E & Ev & Ee & Evd & Eed). exists c. split; [exact E|].
  destruct (C23_regular_cardinal n i j Hn) as (c' & E' & K0 & Kd0 & _ & _). destruct (rd_cells n Hn) as (c2 & E2 & Rv & _ & Rvd & _).
  rewrite E2 in E'. injection E' as <-.
  repeat split; intros Hi Hj.
  - rewrite Ev, nth_tab by auto. unfold psi0. rewrite acos_cos' by now apply xg_le_PI. rewrite Rv, nth_tab in K0 by auto. auto.
  - rewrite Evd, nth_tab by auto. unfold psid0. pose proof (xg_lt_PI n Hn j Hj) as [Xa Xb]. pose proof (hstep_pos (2 * (n - 1)) ltac:(lia)).
    rewrite acos_cos' by lra. rewrite Rvd, nth_tab in Kd0 by auto. auto.
  - rewrite Ee. cbn [fst snd]. rewrite !nth_tab by auto. destruct (psi1_poly n i Hn Hi) as (P & _ & HP & Hj'). rewrite (RInt_tot_open _ P); auto using cos_range.
  - rewrite Eed. cbn [fst snd]. rewrite !nth_tab by auto. destruct (psid1_poly n i Hn Hi) as (P & _ & HP & Hj'). rewrite (RInt_tot_open _ P); auto using cos_range.
Qed.
Example C29_instance : exists c, chebyshev_default 4 = Ok c /\
  RInt (tot (psid1 4 1)) (nth 1 (fst (edges_dual c)) 0) (nth 1 (snd (edges_dual c)) 0) = 1 /\
  RInt (tot (psid1 4 1)) (nth 0 (fst (edges_dual c)) 0) (nth 0 (snd (edges_dual c)) 0) = 0.
Proof.
  destruct (C29_chebyshev_cardinal 4 1 1 ltac:(lia)) as (c & E & _ & _ & _ & H). destruct (C29_chebyshev_cardinal 4 1 0 ltac:(lia)) as (c' & E' & _ & _ & _ & H').
  rewrite E in E'. injection E' as <-. exists c. split; [exact E|]. split; [apply H|apply H']; lia.
Qed.

(** projecting a reconstruction gives the array back, for all four kinds of 1D forms *)
Theorem C29_projection_reconstruction n (a b : list R) : (2 <= n)%nat -> length a = n -> length b = (n - 1)%nat ->
  exists c, chebyshev_default n = Ok c /\
  let R := R_form (B_chebyshev n) (sizes_interval n) in
  P0 c (R 0%nat true a) = map Some a /\ P0d c (R 0%nat false b) = map Some b /\
  P1 c (tot (R 1%nat true b)) = b /\ P1d c (tot (R 1%nat false a)) = a.
Proof.
  intros Hn La Lb. destruct (cd_cells n Hn) as (c & E & Ev & Ee & Evd & Eed). exists c. split; [exact E|]. cbv zeta. fold (R_cheb n).
  repeat split.
  - unfold P0, proj0. rewrite Ev, map_tab. apply tab_some; auto. intros j Hj. rewrite Rc0_val by auto. rewrite acos_cos' by now apply xg_le_PI. now rewrite g0_vert.
  - unfold P0d, proj0. rewrite Evd, map_tab. apply tab_some; auto. intros j Hj. rewrite Rc0d_val by auto.
    pose proof (xg_lt_PI n Hn j Hj) as [Xa Xb]. pose proof (hstep_pos (2 * (n - 1)) ltac:(lia)). rewrite acos_cos' by lra. now rewrite g1_vert.
  - destruct (R1_poly n b Hn Lb) as (P & _ & HP & Hi). unfold P1, proj1. rewrite Ee. unfold zipw. cbn [fst snd]. rewrite zipw_tab. apply tab_nth; auto. intros j Hj.
    rewrite (RInt_tot_open _ P); auto using cos_range.
  - destruct (R1d_poly n a Hn La) as (P & _ & HP & Hi). unfold P1d, proj1. rewrite Eed. cbn [fst snd]. rewrite zipw_tab. apply tab_nth; auto. intros j Hj.
    rewrite (RInt_tot_open _ P); auto using cos_range.
Qed.

(** the stars on 1-forms evaluate the reconstruction, which is the polynomial with the given integrals *)
Theorem C29_hodge_evaluates_polynomial n (close : C -> C -> bool) (a b : list R) : (2 <= n)%nat -> length a = n -> length b = (n - 1)%nat ->
  (forall u v, close u v = true -> u = v) ->
  exists c, chebyshev_default n = Ok c /\
  let R := R_form (B_chebyshev n) (sizes_interval n) in
  (exists p, polynomial (n - 2) p /\ P1 c p = b /\ (forall x, -1 < x < 1 -> R 1%nat true b x = Some (p x)) /\ H1_cheb close b = Ok (P0d c p)) /\
  (exists p, polynomial (n - 1) p /\ P1d c p = a /\ (forall x, -1 < x < 1 -> R 1%nat false a x = Some (p x)) /\ H1d_cheb a = Ok (P0 c p)).
Proof.
  intros Hn La Lb Hcl. destruct (cd_cells n Hn) as (c & E & Ev & Ee & Evd & Eed). exists c. split; [exact E|]. cbv zeta. fold (R_cheb n).
  split.
  - destruct (R1_poly n b Hn Lb) as (P & PP & HP & Hi). exists P.
    assert (P1 c P = b) as EP by (unfold P1, proj1; rewrite Ee; cbn [fst snd]; rewrite zipw_tab; apply tab_nth; auto).
    repeat split; auto. set (v := P0d c P). assert (length v = (n - 1)%nat) as Lv by (unfold v, P0d, proj0; rewrite map_length, Evd; apply length_tab).
    assert (H0d_cheb v = Ok b) as Hv.
    { destruct (H0d_is_P_R n Hn v Lv) as (c2 & E2 & ->). rewrite E in E2. injection E2 as <-. f_equal. rewrite <- EP. unfold P1, proj1. rewrite Ee. cbn [fst snd]. rewrite !zipw_tab. apply tab_ext. intros j Hj.
      apply RInt_tot_open; auto using cos_range. intros x Hx. rewrite Rc0d_val by auto. f_equal.
      rewrite <- (poly_g1 n Hn P v); auto.
      - now rewrite neg_cos_acos by lra.
      - replace (n - 1 - 1)%nat with (n - 2)%nat by lia. auto.
      - intros m Hm. unfold v, P0d, proj0. rewrite Evd, map_tab, nth_tab by auto. reflexivity. }
    pose proof (H1_H0d n Hn close v) as W. rewrite Hv in W. cbn [bind] in W. apply W; auto. now apply guard_exact.
  - destruct (R1d_poly n a Hn La) as (P & PP & HP & Hi). exists P.
    assert (P1d c P = a) as EP by (unfold P1d, proj1; rewrite Eed; cbn [fst snd]; rewrite zipw_tab; apply tab_nth; auto).
    repeat split; auto. set (v := P0 c P). assert (length v = n) as Lv by (unfold v, P0, proj0; rewrite map_length, Ev; apply length_tab).
    assert (H0_cheb v = Ok a) as Hv.
    { destruct (H0_is_P_R n Hn v Lv) as (c2 & E2 & ->). rewrite E in E2. injection E2 as <-. f_equal. rewrite <- EP. unfold P1d, proj1. rewrite Eed. cbn [fst snd]. rewrite !zipw_tab. apply tab_ext. intros j Hj.
      apply RInt_tot_open; auto using cos_range. intros x Hx. rewrite Rc0_val by auto. f_equal.
      rewrite <- (poly_g0 n Hn P v); auto.
      - now rewrite neg_cos_acos by lra.
      - intros m Hm. unfold v, P0, proj0. rewrite Ev, map_tab, nth_tab by auto. reflexivity. }
    pose proof (H1d_H0 n Hn v Lv) as W. rewrite Hv in W. exact W.
Qed.
Example C29_instance2 : exists c, chebyshev_default 3 = Ok c /\ exists p, polynomial 1 p /\ P1 c p = [2; 5] /\
  H1_cheb (fun u v => if Ceq_dec u v then true else false) [2; 5] = Ok (P0d c p).
Proof.
  destruct (C29_hodge_evaluates_polynomial 3 (fun u v => if Ceq_dec u v then true else false) [1; 0; 2] [2; 5] ltac:(lia) eq_refl eq_refl) as (c & E & H & _).
  { intros u v. destruct (Ceq_dec u v); [auto|discriminate]. }
  destruct H as (p & Hp & H1 & _ & H2). exists c. split; auto. exists p. auto.
Qed.
