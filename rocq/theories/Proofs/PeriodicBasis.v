(** Basis functions, reconstruction and Hodge star of the default periodic grid (C15-C19). *)
From Coq Require Import ZArith Reals List Lia Lra Arith.
From Coq Require Import ZifyNat.
From Coquelicot Require Import Coquelicot.
From Verif Require Import Model.Num Model.Np Model.Spectral Model.Basis Model.Grids1 Spec.Trig Proofs.ListLemmas Proofs.Sums
  Proofs.Fourier Proofs.RIntLemmas Proofs.Kernels Proofs.Trig Proofs.Ops Proofs.BasisP Proofs.Grids1P Proofs.GridsThm.
Import ListNotations.
Local Open Scope R_scope.
Ltac Zify.zify_post_hook ::= Z.div_mod_to_equations.

Lemma xg_S n i : xg n (S i) = xg n i + hstep n.
Proof. unfold xg. rewrite S_INR. ring. Qed.
Lemma xg_le n i j : (0 < n)%nat -> (i <= j)%nat -> xg n i <= xg n j.
Proof. intros Hn Hij. unfold xg. pose proof (hstep_pos n Hn). apply Rmult_le_compat_r; [lra|]. now apply le_INR. Qed.
Lemma xg_n n : (0 < n)%nat -> xg n n = 2 * PI.
Proof. intro. unfold xg, hstep. field. now apply INR_neq0. Qed.
Lemma xg_0 n : xg n 0 = 0. Proof. unfold xg. simpl. ring. Qed.
Lemma xg_range n i : (i < n)%nat -> 0 <= xg n i <= 2 * PI - hstep n.
Proof.
  intro H. split.
  - rewrite <- (xg_0 n). apply xg_le; lia.
  - rewrite <- (xg_n n) by lia. replace n with (S (n - 1)) at 3 by lia. rewrite xg_S.
    pose proof (xg_le n i (n - 1) ltac:(lia) ltac:(lia)). lra.
Qed.

Lemma pd_cells n : (0 < n)%nat -> periodic_default n =
  MkCells (tab n (xg n)) (tab n (xg n), tab n (fun i => xg n (S i))) (tab n (fun i => xg n i + hstep n / 2))
   (tab n (fun i => xg n i - hstep n / 2), tab n (fun i => xg n i + hstep n / 2)) (tab n (fun _ => hstep n)) (tab n (fun _ => hstep n)).
Proof.
  intro Hn. unfold periodic_default. rewrite periodic_cells_tab by (auto; pose proof PI_RGT_0; lra). cbv zeta.
  assert ((2 * PI - 0) / INR n = hstep n) as E by (unfold hstep; f_equal; ring).
  assert (forall i, pp n 0 (2 * PI) i = xg n i) as Ep.
  { intro i. unfold pp. rewrite E. unfold xg. ring. }
  f_equal; repeat match goal with |- (_, _) = (_, _) => f_equal end; apply tab_ext; intros; rewrite ?Ep, ?E; auto; lra.
Qed.

(** values of the four bases *)
Lemma phi0_val n i x : (i < n)%nat -> - hstep n < x < 2 * PI -> phi0 n i x = Some (alphaS n (x - xg n i)).
Proof.
  intros Hi Hx. unfold phi0, alpha. pose proof (xg_range n i Hi).
  replace (2 * PI / INR n * INR i) with (xg n i) by (unfold xg, hstep; ring).
  apply alpha0_range; [lia|]. lra.
Qed.
Lemma phid0_val n i x : (i < n)%nat -> - hstep n / 2 < x < 2 * PI + hstep n / 2 ->
  phid0 n i x = Some (alphaS n (x - (xg n i + hstep n / 2))).
Proof.
  intros Hi Hx. unfold phid0, alpha. pose proof (xg_range n i Hi).
  replace (2 * PI / INR n * (INR i + / 2)) with (xg n i + hstep n / 2) by (unfold xg, hstep; field; apply INR_neq0; lia).
  apply alpha0_range; [lia|]. lra.
Qed.
Lemma phi1_val n i x : (i < n)%nat -> phi1 n i x = betaS n (x - (xg n i + hstep n / 2)).
Proof.
  intros Hi. unfold phi1, beta. rewrite beta0_S by lia. f_equal. unfold xg, hstep. field. apply INR_neq0; lia.
Qed.
Lemma phid1_val n i x : (i < n)%nat -> phid1 n i x = betaS n (x - xg n i).
Proof.
  intros Hi. unfold phid1, beta. rewrite beta0_S by lia. f_equal. unfold xg, hstep. ring.
Qed.

(** sums of options *)
Lemma osum_some n (f : nat -> option R) (g : nat -> R) : (forall i, (i < n)%nat -> f i = Some (g i)) ->
  osum n f = Some (Rsum n g).
Proof.
  unfold osum. induction n as [|n IH]; intro H; [reflexivity|].
  rewrite seq_S, fold_left_app, IH by (intros; apply H; lia). simpl. rewrite H by lia. reflexivity.
Qed.
Lemma R_form_some B sz deg pr a x (g : nat -> R) :
  (forall i, (i < sz deg pr)%nat -> B deg pr i x = Some (g i)) ->
  R_form B sz deg pr a x = Some (Rsum (sz deg pr) (fun i => nth i a 0 * g i)).
Proof.
  intro H. unfold R_form, recon, basis_fn. rewrite map_length, seq_length. apply osum_some. intros i Hi.
  rewrite nth_indep with (d' := B deg pr 0%nat) by (now rewrite map_length, seq_length).
  rewrite map_nth, seq_nth by auto. simpl. rewrite H by auto. reflexivity.
Qed.

Definition R_periodic (n : nat) := R_form (B_periodic n) (sizes_periodic n).

Lemma R0_val a x : (0 < length a)%nat -> - hstep (length a) < x < 2 * PI ->
  R_periodic (length a) 0 true a x = Some (interp a x).
Proof.
  intros Hn Hx. unfold R_periodic. rewrite (R_form_some _ _ 0 true a x (fun i => alphaS (length a) (x - xg (length a) i))); [reflexivity|].
  intros i Hi. now apply phi0_val.
Qed.
Lemma R0d_val a x : (0 < length a)%nat -> - hstep (length a) / 2 < x < 2 * PI + hstep (length a) / 2 ->
  R_periodic (length a) 0 false a x = Some (interp a (x - hstep (length a) / 2)).
Proof.
  intros Hn Hx. unfold R_periodic. rewrite (R_form_some _ _ 0 false a x (fun i => alphaS (length a) (x - (xg (length a) i + hstep (length a) / 2)))).
  - f_equal. unfold interp. apply Rsum_ext. intros i _. do 2 f_equal. ring.
  - intros i Hi. now apply phid0_val.
Qed.
Lemma R1_val a x : (0 < length a)%nat -> R_periodic (length a) 1 true a x = Some (histo a (x - hstep (length a) / 2)).
Proof.
  intros Hn. unfold R_periodic. rewrite (R_form_some _ _ 1 true a x (fun i => betaS (length a) (x - (xg (length a) i + hstep (length a) / 2)))).
  - f_equal. unfold histo. apply Rsum_ext. intros i _. do 2 f_equal. ring.
  - intros i Hi. simpl. unfold somef. now rewrite phi1_val.
Qed.
Lemma R1d_val a x : (0 < length a)%nat -> R_periodic (length a) 1 false a x = Some (histo a x).
Proof.
  intros Hn. unfold R_periodic. rewrite (R_form_some _ _ 1 false a x (fun i => betaS (length a) (x - xg (length a) i))); [reflexivity|].
  intros i Hi. simpl. unfold somef. now rewrite phid1_val.
Qed.

Lemma RInt_shift_histo a c x y : RInt (fun t => histo a (t - c)) x y = RInt (histo a) (x - c) (y - c).
Proof. exact (RInt_shift (histo a) (- c) x y (histo_cont a)). Qed.
Lemma RInt_shift_interp a c x y : RInt (fun t => interp a (t - c)) x y = RInt (interp a) (x - c) (y - c).
Proof. exact (RInt_shift (interp a) (- c) x y (interp_cont a)). Qed.

Lemma interp_grid a j : (j < length a)%nat -> interp a (xg (length a) j) = nth j a 0.
Proof. intro H. rewrite (interp_samples a j H). f_equal. rewrite xg_eq by lia. reflexivity. Qed.

Lemma tab_nth (a : list R) n f : length a = n -> (forall j, (j < n)%nat -> f j = nth j a 0) -> tab n f = a.
Proof. intros L H. etransitivity; [|symmetry; apply (list_tab 0)]. rewrite L. now apply tab_ext. Qed.
Lemma tab_some (a : list R) n f : length a = n -> (forall j, (j < n)%nat -> f j = Some (nth j a 0)) -> tab n f = map Some a.
Proof. intros L H. rewrite (list_tab 0 a), map_tab, L. now apply tab_ext. Qed.

(** C17 *)
Lemma PR_id a : (0 < length a)%nat -> let n := length a in let c := periodic_default n in
  P0 c (R_periodic n 0 true a) = map Some a /\
  P0d c (R_periodic n 0 false a) = map Some a /\
  P1 c (tot (R_periodic n 1 true a)) = a /\
  P1d c (tot (R_periodic n 1 false a)) = a.
Proof.
  intros Hn n c. pose proof (hstep_pos n Hn) as Hh. unfold c. rewrite pd_cells by auto.
  unfold P0, P0d, P1, P1d, proj0, proj1. cbn [verts verts_dual edges edges_dual fst snd]. rewrite !map_tab, !zipw_tab.
  repeat split; [apply tab_some|apply tab_some|apply tab_nth|apply tab_nth]; auto; intros j Hj; pose proof (xg_range n j Hj).
  - unfold n in *. rewrite R0_val by (auto; lra). f_equal. now apply interp_grid.
  - unfold n in *. rewrite R0d_val by (auto; lra). f_equal. rewrite <- interp_grid by auto. f_equal. ring.
  - rewrite (RInt_ext _ (fun x => histo a (x - hstep n / 2))).
    2:{ intros x _. unfold tot, n. now rewrite R1_val. }
    rewrite RInt_shift_histo, xg_S. replace (xg n j + hstep n - hstep n / 2) with (xg n j + hstep n / 2) by field.
    rewrite <- interp_grid by auto. apply is_RInt_unique. now apply is_RInt_histo_cell.
  - rewrite (RInt_ext _ (histo a)).
    2:{ intros x _. unfold tot, n. now rewrite R1d_val. }
    rewrite <- interp_grid by auto. apply is_RInt_unique. now apply is_RInt_histo_cell.
Qed.

(** C18 *)
Lemma Hodge_PR a : (0 < length a)%nat -> let n := length a in let c := periodic_default n in
  P1d c (tot (R_periodic n 0 true a)) = H0_periodic a /\
  P1 c (tot (R_periodic n 0 false a)) = H0d_periodic a /\
  P0d c (R_periodic n 1 true a) = map Some (H1_periodic a) /\
  P0 c (R_periodic n 1 false a) = map Some (H1d_periodic a).
Proof.
  intros Hn n c. pose proof (hstep_pos n Hn) as Hh. unfold c. rewrite pd_cells by auto.
  unfold P0, P0d, P1, P1d, proj0, proj1. cbn [verts verts_dual edges edges_dual fst snd]. rewrite !map_tab, !zipw_tab.
  unfold H0d_periodic, H1d_periodic, H0_periodic, H1_periodic.
  repeat split; [apply tab_nth|apply tab_nth|apply tab_some|apply tab_some]; try (now apply length_opH); try (now apply length_opHinv); 
  intros j Hj; pose proof (xg_range n j Hj); unfold n in *.
  - rewrite nth_opH by auto. apply RInt_ext. intros x Hx. rewrite Rmin_left, Rmax_right in Hx by lra.
    unfold tot, n in *. rewrite R0_val by (auto; lra). reflexivity.
  - rewrite nth_opH by auto. rewrite (RInt_ext _ (fun x => interp a (x - hstep n / 2))).
    + rewrite RInt_shift_interp, xg_S. f_equal. fold n. field.
    + intros x Hx. rewrite xg_S in Hx. rewrite Rmin_left, Rmax_right in Hx by lra.
      unfold tot, n in *. rewrite R0d_val by (auto; lra). reflexivity.
  - rewrite nth_opHinv by auto. unfold n in *. rewrite R1_val by auto. f_equal. f_equal. ring.
  - rewrite nth_opHinv by auto. unfold n in *. now rewrite R1d_val by auto.
Qed.

(** C15 *)
Lemma phi_card n i j : (i < n)%nat -> (j < n)%nat -> let c := periodic_default n in
  phi0 n i (nth j (verts c) 0) = Some (if Nat.eqb i j then 1 else 0) /\
  phid0 n i (nth j (verts_dual c) 0) = Some (if Nat.eqb i j then 1 else 0).
Proof.
  intros Hi Hj c. assert (0 < n)%nat as Hn by lia. pose proof (hstep_pos n Hn). pose proof (xg_range n j Hj).
  unfold c. rewrite pd_cells by auto. cbn [verts verts_dual]. rewrite !nth_tab by auto.
  rewrite phi0_val, phid0_val by (auto; lra).
  replace (xg n j + hstep n / 2 - (xg n i + hstep n / 2)) with (xg n j - xg n i) by ring.
  rewrite alphaS_card by auto. rewrite (Nat.eqb_sym i j). auto.
Qed.
Lemma sin_0_Z y : sin y = 0 -> exists k, y = IZR k * PI.
Proof. intro H. apply sin_eq_0_0. exact H. Qed.
Lemma alpha0_none N x : (0 < N)%nat -> (alpha0 N x = None <-> exists k, k <> 0%Z /\ x = 2 * PI * IZR k).
Proof.
  intro HN. rewrite alpha0_spec by auto. pose proof PI_RGT_0. split.
  - destruct (Req_EM_T x 0) as [|Hx]; [discriminate|]. destruct (Req_EM_T (sin (x/2)) 0) as [Hs|]; [|discriminate].
    intros _. destruct (sin_0_Z _ Hs) as [k Hk]. exists k. split; [|lra]. intros ->. lra.
  - intros (k & Hk & ->). destruct (Req_EM_T (2 * PI * IZR k) 0) as [E|_].
    + exfalso. apply Rmult_integral in E as [E|E]; [lra|]. apply Hk. now apply eq_IZR.
    + replace (2 * PI * IZR k / 2) with (IZR k * PI) by field. rewrite sin_IZR_PI. destruct (Req_EM_T 0 0); [reflexivity|congruence].
Qed.

(** C16 *)
Lemma phi1_card n i j : (i < n)%nat -> (j < n)%nat -> let c := periodic_default n in
  RInt (phi1 n i) (nth j (fst (edges c)) 0) (nth j (snd (edges c)) 0) = (if Nat.eqb i j then 1 else 0) /\
  RInt (phid1 n i) (nth j (fst (edges_dual c)) 0) (nth j (snd (edges_dual c)) 0) = (if Nat.eqb i j then 1 else 0).
Proof.
  intros Hi Hj c. assert (0 < n)%nat as Hn by lia. unfold c. rewrite pd_cells by auto.
  cbn [edges edges_dual fst snd]. rewrite !nth_tab by auto. split.
  - rewrite (RInt_ext _ (fun x => betaS n (x - (xg n i + hstep n / 2)))) by (intros; now apply phi1_val).
    replace (xg n j) with (xg n j + hstep n / 2 - hstep n / 2) by ring. rewrite xg_S.
    replace (xg n j + hstep n) with (xg n j + hstep n / 2 + hstep n / 2) by field.
    rewrite (is_RInt_unique _ _ _ _ (RInt_betaS_shift n (xg n i + hstep n / 2) (xg n j + hstep n / 2) Hn)).
    replace (xg n j + hstep n / 2 - (xg n i + hstep n / 2)) with (xg n j - xg n i) by ring.
    rewrite alphaS_card by auto. now rewrite (Nat.eqb_sym i j).
  - rewrite (RInt_ext _ (fun x => betaS n (x - xg n i))) by (intros; now apply phid1_val).
    rewrite (is_RInt_unique _ _ _ _ (RInt_betaS_shift n (xg n i) (xg n j) Hn)).
    rewrite alphaS_card by auto. now rewrite (Nat.eqb_sym i j).
Qed.

(** the matrices *)
Definition unit_vec (n j : nat) : list R := tab n (fun i => if Nat.eqb i j then 1 else 0).
Lemma unit_sum n j (g : nat -> R) : (j < n)%nat -> Rsum n (fun i => nth i (unit_vec n j) 0 * g i) = g j.
Proof.
  intro Hj. rewrite (Rsum_single n j); auto; unfold unit_vec.
  - rewrite nth_tab, Nat.eqb_refl by auto. ring.
  - intros i Hi E. rewrite nth_tab by auto. destruct (Nat.eqb_spec i j); [contradiction|ring].
Qed.
Lemma R_unit B sz deg pr j x : (j < sz deg pr)%nat -> (forall i, (i < sz deg pr)%nat -> B deg pr i x <> None) ->
  R_form B sz deg pr (unit_vec (sz deg pr) j) x = B deg pr j x.
Proof.
  intros Hj H. rewrite (R_form_some B sz deg pr _ x (fun i => tot (B deg pr i) x)).
  - rewrite unit_sum by auto. unfold tot. specialize (H j Hj). destruct (B deg pr j x); congruence.
  - intros i Hi. unfold tot. specialize (H i Hi). destruct (B deg pr i x); congruence.
Qed.
