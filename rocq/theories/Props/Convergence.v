(** C102: on the default periodic grid the Hodge stars, the Laplacian and the reconstruction converge, with an error
    bounded by the Fourier coefficients that the grid does not resolve. *)
From Coq Require Import ZArith Reals List Lia Lra Arith Bool.
From Coq Require Import ZifyNat.
From Verif Require Import Model.Sym.
From Coquelicot Require Import Coquelicot.
From Verif Require Import Model.Num Model.Np Model.Spectral Model.Basis Model.Grids1 Model.Regular Model.Chebyshev Model.Common Model.Decform Model.Grid2 Model.Laplacian Spec.Trig Spec.Poly Spec.Resolved Spec.Tiling Spec.Series
  Proofs.ListLemmas Proofs.RingSums Proofs.Sums Proofs.RIntLemmas Proofs.Grids1P Proofs.GridsThm Proofs.TrigAlg Proofs.Lin Proofs.TableLin Proofs.ChebPoly Proofs.Grid2P Proofs.Fourier Proofs.Trig Proofs.Exact Proofs.Ops Proofs.Refine Proofs.PeriodicBasis Proofs.Kernels Proofs.DeprecatedP Proofs.SeriesP.
From Verif Require Import Props.Grid1 Props.Chebyshev Props.Lagrange Props.Decform Props.Refinement Props.Basis2 Props.Grid2 Proofs.Exact1 Props.Exact1 Props.Complete1 Proofs.LaplaceP Props.Laplacian Props.Spectrum.
Import ListNotations.
Local Open Scope R_scope.

(** ** modes *)
Definition m1 (A B : R) (k : nat) (x : R) : R := A * cos (INR k * x) + B * sin (INR k * x).
Lemma m1_bound A B k x : Rabs (m1 A B k x) <= Rabs A + Rabs B.
Proof. apply comb_bound. Qed.
Lemma m1_trig A B k x : m1 A B k x = trig k (fun j => if Nat.eqb j k then A else 0) (fun j => if Nat.eqb j k then B else 0) x.
Proof. unfold m1. now rewrite trig_single. Qed.
Lemma m1_degree A B k : trig_degree k (m1 A B k).
Proof. exists (fun j => if Nat.eqb j k then A else 0), (fun j => if Nat.eqb j k then B else 0). intro. apply m1_trig. Qed.
Lemma m1_cont A B k x : continuous (m1 A B k) x.
Proof. exact (td_cont k _ x (m1_degree A B k)). Qed.
Lemma cos_add_pi p x : cos (INR p * PI + x) = (-1) ^ p * cos x.
Proof. rewrite cos_plus, sin_nPI, cos_PI_nat. ring. Qed.
Lemma sin_add_pi p x : sin (INR p * PI + x) = (-1) ^ p * sin x.
Proof. rewrite sin_plus, sin_nPI, cos_PI_nat. ring. Qed.
Lemma pm1_abs p : Rabs ((-1) ^ p) = 1.
Proof. rewrite <- RPow_abs. replace (Rabs (-1)) with 1 by (unfold Rabs; destruct (Rcase_abs (-1)); lra). apply pow1. Qed.

Section Grid.
Variables (n : nat).
Hypothesis Hn : (1 <= n)%nat.
Notation hs := (hstep n).
Definition pt (t : bool) (i : nat) : R := xg n i + (if t then 0 else hs / 2).
Lemma n_hs : INR n * (hs / 2) = PI.
Proof. unfold hstep. field. apply not_0_INR. lia. Qed.
Lemma n_pt t i q : INR q * INR n * pt t i = INR (q * (2 * i + (if t then 0 else 1))) * PI.
Proof.
  unfold pt. rewrite Rmult_plus_distr_l, (Rmult_assoc (INR q)), (Rmult_assoc (INR q)).
  assert (INR n * xg n i = 2 * INR i * PI) as -> by (unfold xg, hstep; field; apply not_0_INR; lia).
  assert (INR n * (if t then 0 else hs / 2) = INR (if t then 0%nat else 1%nat) * PI) as -> by (destruct t; [cbn; ring|rewrite n_hs; cbn; ring]).
  rewrite mult_INR, plus_INR, mult_INR. cbn [INR]. ring.
Qed.
(** the points and the half cell see a mode of any frequency as a mode of frequency at most n/2 *)
Definition sg (t : bool) (q : nat) : R := if t then 1 else (-1) ^ q.
Lemma sg_abs t q : Rabs (sg t q) = 1.
Proof. destruct t; cbn; [apply Rabs_R1|apply pm1_abs]. Qed.
Lemma sg_pow (t : bool) (q i : nat) : (-1) ^ (q * (2 * i + (if t then 0 else 1)))%nat = sg t q.
Proof.
  rewrite Nat.mul_add_distr_l, pow_add. replace (q * (2 * i))%nat with (2 * (q * i))%nat by lia. rewrite pow_mult. replace ((-1) ^ 2) with 1 by ring. rewrite pow1.
  destruct t; cbn [sg]; [rewrite Nat.mul_0_r|rewrite Nat.mul_1_r]; cbn [pow]; ring.
Qed.
Lemma alias t k A B : exists r A' B' s, (2 * r <= n)%nat /\ (r <= k)%nat /\ ((2 * k <= n)%nat -> r = k /\ A' = A /\ B' = B) /\ Rabs A' = Rabs A /\ Rabs B' = Rabs B /\
  (forall i, m1 A B k (pt t i) = m1 A' B' r (pt t i)) /\ Rabs s = 1 /\ sin (INR k * (hs / 2)) = s * sin (INR r * (hs / 2)).
Proof.
  pose proof (Nat.div_mod k n ltac:(lia)) as E. pose proof (Nat.mod_upper_bound k n ltac:(lia)) as U. set (q := (k / n)%nat) in *. set (m := (k mod n)%nat) in *.
  destruct (le_lt_dec (2 * m) n) as [Hm|Hm].
  - exists m, (sg t q * A), (sg t q * B), ((-1) ^ q). split; [auto|]. split; [nia|]. split.
    { intro Hk. assert (q = 0)%nat as Z by nia. rewrite Z in *. split; [lia|]. destruct t; cbn [sg pow]; split; ring. }
    rewrite !Rabs_mult, !sg_abs, pm1_abs, !Rmult_1_l. repeat (split; [reflexivity|]). split; [|split; [reflexivity|]].
    + intro i. unfold m1. assert (INR k * pt t i = INR (q * (2 * i + (if t then 0 else 1))) * PI + INR m * pt t i) as ->.
      { rewrite <- n_pt. rewrite E, plus_INR, mult_INR. ring. }
      rewrite cos_add_pi, sin_add_pi, sg_pow. ring.
    + assert (INR k * (hs / 2) = INR q * PI + INR m * (hs / 2)) as -> by (rewrite E, plus_INR, mult_INR, <- n_hs; ring). apply sin_add_pi.
  - set (r := (n - m)%nat). exists r, (sg t (S q) * A), (- sg t (S q) * B), (- (-1) ^ S q). split; [unfold r; lia|]. split; [unfold r; nia|]. split; [intro; nia|].
    rewrite !Rabs_mult, !Rabs_Ropp, !sg_abs, pm1_abs, !Rmult_1_l. repeat (split; [reflexivity|]).
    assert (INR k = INR (S q) * INR n - INR r) as Ek. { unfold r. rewrite minus_INR by lia. rewrite E, plus_INR, mult_INR, S_INR. ring. }
    split; [|split; [reflexivity|]].
    + intro i. unfold m1. assert (INR k * pt t i = INR (S q * (2 * i + (if t then 0 else 1))) * PI + - (INR r * pt t i)) as ->.
      { rewrite <- n_pt, Ek. ring. }
      rewrite cos_add_pi, sin_add_pi, sg_pow, cos_neg, sin_neg. ring.
    + assert (INR k * (hs / 2) = INR (S q) * PI + - (INR r * (hs / 2))) as -> by (rewrite Ek, <- n_hs; ring). rewrite sin_add_pi, sin_neg. ring.
Qed.
(** the integral of a mode over a cell is a multiple of its value at the centre *)
Definition kap (k : nat) : R := if Nat.eqb k 0 then hs else 2 * sin (INR k * (hs / 2)) / INR k.
Lemma cell_integral A B k y : RInt (m1 A B k) (y - hs / 2) (y + hs / 2) = kap k * m1 A B k y.
Proof.
  apply is_RInt_unique. unfold kap. destruct (Nat.eqb_spec k 0) as [->|Hk].
  - apply (is_RInt_ext_all (fun _ => A)); [intro; unfold m1; cbn; rewrite Rmult_0_l, cos_0, sin_0; ring|].
    replace (hs * m1 A B 0 y) with ((y + hs / 2 - (y - hs / 2)) * A); [apply is_RInt_const_R|]. unfold m1; cbn. rewrite Rmult_0_l, cos_0, sin_0. field.
  - assert (INR k <> 0) as K0 by (apply not_0_INR; lia).
    replace (2 * sin (INR k * (hs / 2)) / INR k * m1 A B k y) with ((A * sin (INR k * (y + hs / 2)) - B * cos (INR k * (y + hs / 2))) / INR k - (A * sin (INR k * (y - hs / 2)) - B * cos (INR k * (y - hs / 2))) / INR k).
    + apply (is_RInt_der (fun x => (A * sin (INR k * x) - B * cos (INR k * x)) / INR k)); [|intro; apply m1_cont].
      intro x. unfold m1. auto_derive; [auto|]. field. exact K0.
    + unfold m1. rewrite Rmult_minus_distr_l, Rmult_plus_distr_l, sin_plus, cos_plus, sin_minus, cos_minus. field. exact K0.
Qed.
Lemma kap_abs k : Rabs (kap k) <= hs.
Proof.
  pose proof (hstep_pos n ltac:(lia)) as P. unfold kap. destruct (Nat.eqb_spec k 0) as [->|Hk]; [rewrite Rabs_pos_eq; lra|].
  assert (0 < INR k) by (apply lt_0_INR; lia). unfold Rdiv. rewrite !Rabs_mult, (Rabs_pos_eq 2), (Rabs_inv (INR k)), (Rabs_pos_eq (INR k)) by lra.
  assert (Rabs (sin (INR k * (hs / 2))) <= INR k * (hs / 2)) as Q.
  { assert (0 < INR k * (hs / 2)) as Hx by (apply Rmult_lt_0_compat; lra). set (x := INR k * (hs / 2)) in *. pose proof (sin_lt_x x Hx). pose proof (sin_lt_x x Hx).
    apply Rabs_le. split; [|lra]. destruct (Rle_dec x 1) as [L|L]; [|pose proof (SIN_bound x); lra]. assert (0 < sin x); [|lra]. apply sin_gt_0; [lra|]. pose proof PI2_1. unfold PI2 in *. lra. }
  apply (Rmult_le_reg_r (INR k)); [auto|]. rewrite Rmult_assoc, Rinv_l by lra. lra.
Qed.
Lemma kap_pos r : (2 * r <= n)%nat -> 0 < kap r.
Proof.
  pose proof (hstep_pos n ltac:(lia)) as P. pose proof PI_RGT_0. intro Hr. unfold kap. destruct (Nat.eqb_spec r 0) as [->|Hr0]; [lra|].
  assert (0 < INR r) by (apply lt_0_INR; lia). apply Rdiv_lt_0_compat; [|auto]. apply Rmult_lt_0_compat; [lra|]. apply sin_gt_0; [apply Rmult_lt_0_compat; lra|].
  apply le_INR in Hr. rewrite mult_INR in Hr. cbn [INR] in Hr. pose proof n_hs. assert (2 * INR r * (hs / 2) <= INR n * (hs / 2)) by (apply Rmult_le_compat_r; lra). lra.
Qed.
End Grid.

Lemma lf_interp m s : lf m (fun v => interp v s).
Proof.
  apply (lf_ext m _ (fun v => bsum m (fun i => nth i v 0 * alphaS m (s - xg m i)))).
  - intros v Lv. unfold interp. rewrite Lv. symmetry. apply bsum_Rsum.
  - apply lf_bsum. intros i _. set (d := alphaS m (s - xg m i)). pose proof (lf_scal_r m d (fun v => nth i v 0) (lf_nth (A := R) m i)) as G. exact G.
Qed.
Lemma lf_lin (m m' : nat) (phi : list R -> R) g : lf m' phi -> lin m m' g -> lf m (fun v => phi (g v)).
Proof. intros Hp [Lg Hg] d v v' L L'. rewrite Hg by auto. apply Hp; auto. Qed.

Section Convergence.
Variables (close : C -> C -> bool) (n : nat) (L Ld : op1) (c : cells1).
Hypothesis Hn : (1 <= n)%nat.
Hypothesis EL : laplacian (dec_of close Periodic) = Ok (L, Ld).
Hypothesis Ec : make_cells Periodic n 0 (2 * PI) = Ok c.
Notation hs := (hstep n).
Notation P := (disc_of c).
Notation hh := (h close Periodic n).
Lemma edges_tab t f : (forall x, continuous f x) -> proj c 1 (negb t) f = tab n (fun i => RInt f (pt n t i - hs / 2) (pt n t i + hs / 2)).
Proof.
  intro Cf. rewrite (c_default n c Hn Ec), (per_val n Hn 1 (negb t) f ltac:(lia) Cf). apply tab_ext. intros i Hi. unfold pt. destruct t; cbn [negb]; f_equal; field.
Qed.
Lemma edges_m1 t A B k : proj c 1 (negb t) (m1 A B k) = map (Rmult (kap n k)) (P t (m1 A B k)).
Proof.
  rewrite edges_tab by (intro; apply m1_cont). rewrite (P_tab n c Hn Ec t), map_tab. apply tab_ext. intros i Hi. now rewrite cell_integral.
Qed.
Lemma visible_m1 (t : bool) A B r : (2 * r <= n)%nat -> ((2 * r = n)%nat -> if t then B = 0 else A = 0) -> visible n t (m1 A B r).
Proof.
  intros Hr H. pose proof (visible_trig n Hn t r (fun j => if Nat.eqb j r then A else 0) (fun j => if Nat.eqb j r then B else 0) Hr) as V.
  assert (seen n t r (fun j => if Nat.eqb j r then A else 0) (fun j => if Nat.eqb j r then B else 0)) as Sn by (intro E; rewrite !Nat.eqb_refl; now apply H).
  specialize (V Sn). unfold visible in *. eapply ti_ext; [|exact V]. intro x. cbv beta. now rewrite <- m1_trig.
Qed.
(** every mode looks like a visible mode *)
Lemma alias_visible t k A B : exists r A' B' rho, (2 * r <= n)%nat /\ (r <= k)%nat /\ ((2 * k < n)%nat -> r = k /\ A' = A /\ B' = B /\ rho = 1) /\
  Rabs A' <= Rabs A /\ Rabs B' <= Rabs B /\ visible n t (m1 A' B' r) /\ P t (m1 A B k) = P t (m1 A' B' r) /\ Rabs rho <= 1 /\
  proj c 1 (negb t) (m1 A B k) = map (Rmult rho) (proj c 1 (negb t) (m1 A' B' r)).
Proof.
  destruct (alias n Hn t k A B) as (r & A1 & B1 & s & Hr & Hk & Ex & EA & EB & Ept & Hs & Esin).
  set (A' := if andb (Nat.eqb (2 * r) n) (negb t) then 0 else A1). set (B' := if andb (Nat.eqb (2 * r) n) t then 0 else B1).
  assert (forall i, m1 A B k (pt n t i) = m1 A' B' r (pt n t i)) as Ept'.
  { intro i. rewrite Ept. unfold A', B'. destruct (Nat.eqb_spec (2 * r) n) as [E|E]; [|reflexivity]. pose proof (top_angle n Hn r E) as TA. pose proof (top_vertex n Hn r i E) as TV. unfold m1, pt. destruct t; cbn [andb negb].
    - rewrite Rplus_0_r, TV, sin_nPI. ring.
    - rewrite Rmult_plus_distr_l, TV, TA, cos_add_pi, cos_PI2. ring. }
  assert (P t (m1 A B k) = P t (m1 A' B' r)) as EP by (rewrite !(P_tab n c Hn Ec t); apply tab_ext; intros i _; apply Ept').
  exists r, A', B', (kap n k / kap n r). pose proof (kap_pos n Hn r Hr) as Kp.
  split; [auto|]. split; [auto|]. split; [|split; [|split; [|split; [|split; [auto|]]]]].
  - intro H. destruct (Ex ltac:(lia)) as (-> & -> & ->). split; [auto|]. unfold A', B'. replace (Nat.eqb (2 * k) n) with false by (symmetry; apply Nat.eqb_neq; lia). cbn [andb]. repeat split; auto. field. lra.
  - subst A'. destruct (andb (Nat.eqb (2 * r) n) (negb t)); [replace (Rabs 0) with 0 by (symmetry; apply Rabs_R0); apply Rabs_pos|rewrite EA; apply Rle_refl].
  - subst B'. destruct (andb (Nat.eqb (2 * r) n) t); [replace (Rabs 0) with 0 by (symmetry; apply Rabs_R0); apply Rabs_pos|rewrite EB; apply Rle_refl].
  - apply visible_m1; auto. intro E. unfold A', B'. rewrite E, Nat.eqb_refl. now destruct t.
  - split.
    + unfold Rdiv. rewrite Rabs_mult, Rabs_inv, (Rabs_pos_eq (kap n r)) by lra. apply (Rmult_le_reg_r (kap n r)); [lra|]. rewrite Rmult_assoc, Rinv_l, Rmult_1_r, Rmult_1_l by lra.
      destruct (Nat.eq_dec r k) as [->|Hne]; [rewrite Rabs_pos_eq; lra|]. unfold kap at 1. replace (Nat.eqb k 0) with false by (symmetry; apply Nat.eqb_neq; lia).
      rewrite Esin. assert (0 < INR k) by (apply lt_0_INR; lia). unfold kap in *. destruct (Nat.eqb_spec r 0) as [->|Hr0].
      { cbn [INR]. rewrite Rmult_0_l, sin_0, Rmult_0_r, Rmult_0_r. unfold Rdiv. rewrite Rmult_0_l, Rabs_R0. lra. }
      assert (0 < INR r) by (apply lt_0_INR; lia). assert (INR r <= INR k) by (apply le_INR; lia).
      set (x := sin (INR r * (hs / 2))) in *. assert (0 < x) as Xp. { apply (Rmult_lt_reg_l (2 / INR r)); [apply Rdiv_lt_0_compat; lra|]. replace (2 / INR r * x) with (2 * x / INR r) by (field; lra). lra. }
      replace (2 * (s * x) / INR k) with (s * (2 * x * / INR k)) by (unfold Rdiv; ring). rewrite Rabs_mult, Hs, Rmult_1_l, Rabs_pos_eq.
      * unfold Rdiv. apply Rmult_le_compat_l; [lra|]. apply Rinv_le_contravar; lra.
      * apply Rmult_le_pos; [lra|]. left. now apply Rinv_0_lt_compat.
    + rewrite !edges_m1, <- EP, map_map. apply map_ext. intro x. field. lra.
Qed.
Lemma works_n : works close Periodic n. Proof. exact Hn. Qed.
Lemma lf_map m (phi : list R -> R) s v : lf m phi -> length v = m -> phi (map (Rmult s) v) = s * phi v.
Proof.
  intros Hl Lv. rewrite (lf_matrix m phi (map (Rmult s) v) Hl) by now rewrite map_length. rewrite (lf_matrix m phi v Hl Lv). 
  transitivity (bsum m (fun i => nmul s (nmul (phi (unit m i)) (nth i v 0)))); [|exact (bsum_scal m s (fun i => nmul (phi (unit m i)) (nth i v 0)))]. apply bsum_ext. intros i Hi.
  rewrite (nth_indep _ _ (s * 0)) by (rewrite map_length; lia). rewrite (map_nth (Rmult s)). cbn. ring.
Qed.
Lemma hh_visible t A B r : visible n t (m1 A B r) -> hh 1 (negb t) (proj c 1 (negb t) (m1 A B r)) = P t (m1 A B r) /\ hh 0 t (P t (m1 A B r)) = proj c 1 (negb t) (m1 A B r).
Proof.
  intro V. pose proof (h_visible close n c Hn Ec t _ r (m1_degree A B r) V) as E. split; [exact E|]. rewrite <- E.
  pose proof (h_inv close Periodic n works_n 1 (negb t) (proj c 1 (negb t) (m1 A B r)) ltac:(lia)) as I. cbn [Nat.sub] in I. rewrite negb_involutive in I. apply I.
  rewrite edges_m1, map_length, (P_len n c Hn Ec). reflexivity.
Qed.

Lemma proj0_P t f : proj c 0 t f = P t f. Proof. now destruct t. Qed.
Lemma nth_P t f i : (i < n)%nat -> nth i (P t f) 0 = f (pt n t i).
Proof. intro Hi. rewrite (P_tab n c Hn Ec t), nth_tab by auto. reflexivity. Qed.
Lemma nth_edges_m1 t A B k i : (i < n)%nat -> nth i (proj c 1 (negb t) (m1 A B k)) 0 = kap n k * m1 A B k (pt n t i).
Proof. intro Hi. rewrite edges_m1, (P_tab n c Hn Ec t), map_tab, nth_tab by auto. reflexivity. Qed.
Lemma prod_bound x y X Y : Rabs x <= X -> Rabs y <= Y -> Rabs (x * y) <= X * Y.
Proof. intros. rewrite Rabs_mult. apply Rmult_le_compat; auto using Rabs_pos. Qed.
Lemma diff_bound x y X : Rabs x <= X -> Rabs y <= X -> Rabs (x - y) <= 2 * X.
Proof. intros. unfold Rminus. eapply Rle_trans; [apply Rabs_triang|]. rewrite Rabs_Ropp. lra. Qed.

Variables (f : R -> R) (a b : nat -> R).
Hypothesis Hf : fourier_series a b f.
Hypothesis Ha : ex_series (amplitude a b).
Lemma f_cont x : continuous f x.
Proof. exact (sum_continuous (fun k => m1 (a k) (b k) k) (amplitude a b) f Hf (fun k x => m1_bound _ _ k x) Ha (fun k x => m1_cont _ _ k x) x). Qed.
Lemma f_integral p q : is_series (fun k => RInt (m1 (a k) (b k) k) p q) (RInt f p q).
Proof. exact (sum_integral (fun k => m1 (a k) (b k) k) (amplitude a b) f Hf (fun k x => m1_bound _ _ k x) Ha (fun k x => m1_cont _ _ k x) p q). Qed.
Lemma ex_scal s w : ex_series w -> ex_series (fun k => s * w k).
Proof. intros [l Hl]. exists (s * l). now apply is_series_scal_R. Qed.
Lemma amp_le (A' B' : R) k r x : Rabs A' <= Rabs (a k) -> Rabs B' <= Rabs (b k) -> Rabs (m1 A' B' r x) <= amplitude a b k.
Proof. intros. pose proof (m1_bound A' B' r x). unfold amplitude. lra. Qed.

(** the Hodge star of 0-forms *)
Theorem C102_hodge (t : bool) : exists o v, tget (Common.dH (dec_of close Periodic)) (0%nat, t) = Ok o /\ o (proj c 0 t f) = Ok v /\ length v = n /\
  forall i, (i < n)%nat -> Rabs (nth i v 0 - nth i (proj c 1 (negb t) f) 0) <= 2 * (2 * PI / INR n) * tail (amplitude a b) (first_unresolved n).
Proof.
  rewrite proj0_P. destruct (h_get close Periodic n works_n 0 t (P t f) ltac:(lia) (P_len n c Hn Ec t f)) as (o & Eo & Ev). exists o, (hh 0 t (P t f)). split; [exact Eo|]. split; [exact Ev|].
  split; [exact (h_len close Periodic n works_n 0 t (P t f) ltac:(lia) (P_len n c Hn Ec t f))|]. intros i Hi.
  rewrite edges_tab by exact f_cont. rewrite nth_tab by auto. rewrite <- tail_scal. rewrite (P_tab n c Hn Ec t f).
  apply (functional_error n (fun v => nth i (hh 0 t v) 0) (fun k j => m1 (a k) (b k) k (pt n t j)) (fun j => f (pt n t j)) (fun k => RInt (m1 (a k) (b k) k) (pt n t i - hs / 2) (pt n t i + hs / 2))).
  - exact (lin_lf n n (hh 0 t) i (h_lin close Periodic n works_n 0 t ltac:(lia))).
  - intros j _. apply Hf.
  - apply f_integral.
  - now apply ex_scal.
  - intros k Hk. apply first_unresolved_spec in Hk. destruct (alias_visible t k (a k) (b k)) as (r & A' & B' & rho & Hr & _ & Ex & _ & _ & V & EP & _ & _). destruct (Ex Hk) as (-> & -> & -> & _).
    rewrite cell_integral by exact Hn. replace (tab n _) with (P t (m1 (a k) (b k) k)) by apply (P_tab n c Hn Ec t). destruct (hh_visible t _ _ _ V) as [_ ->]. now apply nth_edges_m1.
  - intros k _. destruct (alias_visible t k (a k) (b k)) as (r & A' & B' & rho & Hr & _ & _ & EA & EB & V & EP & _ & _).
    rewrite cell_integral by exact Hn. replace (tab n _) with (P t (m1 (a k) (b k) k)) by apply (P_tab n c Hn Ec t). rewrite EP. destruct (hh_visible t _ _ _ V) as [_ ->]. rewrite nth_edges_m1 by auto.
    replace (2 * (2 * PI / INR n) * amplitude a b k) with (2 * (hs * amplitude a b k)) by (unfold hstep; ring).
    apply diff_bound; apply prod_bound; try apply kap_abs; auto; [now apply amp_le|apply amp_le; lra].
Qed.
(** the Hodge star of 1-forms *)
Theorem C102_hodge_edges (t : bool) : exists o v, tget (Common.dH (dec_of close Periodic)) (1%nat, negb t) = Ok o /\ o (proj c 1 (negb t) f) = Ok v /\ length v = n /\
  forall i, (i < n)%nat -> Rabs (nth i v 0 - nth i (proj c 0 t f) 0) <= 2 * tail (amplitude a b) (first_unresolved n).
Proof.
  assert (length (proj c 1 (negb t) f) = n) as L1 by (rewrite edges_tab by exact f_cont; apply length_tab).
  rewrite proj0_P. destruct (h_get close Periodic n works_n 1 (negb t) (proj c 1 (negb t) f) ltac:(lia) L1) as (o & Eo & Ev). exists o, (hh 1 (negb t) (proj c 1 (negb t) f)). split; [exact Eo|]. split; [exact Ev|].
  split; [exact (h_len close Periodic n works_n 1 (negb t) _ ltac:(lia) L1)|]. intros i Hi.
  rewrite nth_P by auto. rewrite <- tail_scal. rewrite edges_tab by exact f_cont.
  pose proof (lin_lf n n (hh 1 (negb t)) i (h_lin close Periodic n works_n 1 (negb t) ltac:(lia))) as Hl.
  apply (functional_error n (fun v => nth i (hh 1 (negb t) v) 0) (fun k j => RInt (m1 (a k) (b k) k) (pt n t j - hs / 2) (pt n t j + hs / 2)) (fun j => RInt f (pt n t j - hs / 2) (pt n t j + hs / 2)) (fun k => m1 (a k) (b k) k (pt n t i))).
  - exact Hl.
  - intros j _. apply f_integral.
  - apply Hf.
  - now apply ex_scal.
  - intros k Hk. apply first_unresolved_spec in Hk. destruct (alias_visible t k (a k) (b k)) as (r & A' & B' & rho & Hr & _ & Ex & _ & _ & V & EP & _ & _). destruct (Ex Hk) as (-> & -> & -> & _).
    cbv beta. replace (tab n _) with (proj c 1 (negb t) (m1 (a k) (b k) k)) by (rewrite (edges_tab t (m1 (a k) (b k) k)) by (intro; apply m1_cont); reflexivity). destruct (hh_visible t _ _ _ V) as [-> _]. now apply nth_P.
  - intros k _. destruct (alias_visible t k (a k) (b k)) as (r & A' & B' & rho & Hr & _ & _ & EA & EB & V & EP & Hrho & Erho).
    cbv beta. replace (tab n _) with (proj c 1 (negb t) (m1 (a k) (b k) k)) by (rewrite (edges_tab t (m1 (a k) (b k) k)) by (intro; apply m1_cont); reflexivity). rewrite Erho.
    rewrite (lf_map n (fun v => nth i (hh 1 (negb t) v) 0) rho _ Hl) by (rewrite edges_tab by (intro; apply m1_cont); apply length_tab).
    cbv beta. destruct (hh_visible t _ _ _ V) as [-> _]. rewrite nth_P by auto.
    apply diff_bound; [|apply amp_le; lra]. rewrite <- (Rmult_1_l (amplitude a b k)). apply prod_bound; auto. now apply amp_le.
Qed.
(** evaluating the reconstruction anywhere *)
Theorem C102_reconstruction (t : bool) x : 0 <= x < 2 * PI -> exists y, R_form (B_periodic n) (sizes_periodic n) 0 t (proj c 0 t f) x = Some y /\
  Rabs (y - f x) <= 2 * tail (amplitude a b) (first_unresolved n).
Proof.
  intro Hx. rewrite proj0_P. pose proof (hstep_pos n ltac:(lia)) as Hh. set (s := if t then 0 else hs / 2). exists (interp (P t f) (x - s)). pose proof (P_len n c Hn Ec t f) as LP. split.
  - pose proof (R0_val (P t f) x) as E0. pose proof (R0d_val (P t f) x) as E1. rewrite LP in *. unfold R_periodic in *. unfold s. destruct t; [rewrite Rminus_0_r; apply E0; [lia|lra]|apply E1; [lia|lra]].
  - rewrite <- tail_scal. rewrite (P_tab n c Hn Ec t f).
    pose proof (lf_interp n (x - s)) as Hl.
    apply (functional_error n (fun v => interp v (x - s)) (fun k j => m1 (a k) (b k) k (pt n t j)) (fun j => f (pt n t j)) (fun k => m1 (a k) (b k) k x)).
    + exact Hl.
    + intros j _. apply Hf.
    + apply Hf.
    + now apply ex_scal.
    + intros k Hk. apply first_unresolved_spec in Hk. destruct (alias_visible t k (a k) (b k)) as (r & A' & B' & rho & Hr & _ & Ex & _ & _ & V & EP & _ & _). destruct (Ex Hk) as (-> & -> & -> & _).
      rewrite <- (interp_unique (tab n (fun j => m1 (a k) (b k) k (pt n t j))) (fun y => m1 (a k) (b k) k (y + s))); rewrite ?length_tab; [f_equal; ring|lia|exact V|].
      apply (samples_tab n (fun y => m1 (a k) (b k) k (y + s))). lia.
    + intros k _. destruct (alias_visible t k (a k) (b k)) as (r & A' & B' & rho & Hr & _ & _ & EA & EB & V & EP & Hrho & Erho).
      replace (tab n _) with (P t (m1 (a k) (b k) k)) by apply (P_tab n c Hn Ec t). rewrite EP, (P_tab n c Hn Ec t).
      rewrite <- (interp_unique (tab n (fun j => m1 A' B' r (pt n t j))) (fun y => m1 A' B' r (y + s))); rewrite ?length_tab; [|lia|exact V|apply (samples_tab n (fun y => m1 A' B' r (y + s))); lia].
      apply diff_bound; [now apply amp_le|apply amp_le; lra].
Qed.
(** the same for 1-forms *)
Theorem C102_reconstruction_edges (t : bool) x : exists y, R_form (B_periodic n) (sizes_periodic n) 1 (negb t) (proj c 1 (negb t) f) x = Some y /\
  Rabs (y - f x) <= 2 * tail (amplitude a b) (first_unresolved n).
Proof.
  assert (length (proj c 1 (negb t) f) = n) as L1 by (rewrite edges_tab by exact f_cont; apply length_tab).
  set (s := if t then 0 else hs / 2). exists (interp (hh 1 (negb t) (proj c 1 (negb t) f)) (x - s)). split.
  - assert (hh 1 (negb t) (proj c 1 (negb t) f) = opHinv (proj c 1 (negb t) f)) as ->.
    { assert (spec opHinv (proj c 1 (negb t) f) = Ok (opHinv (proj c 1 (negb t) f))) as Sp by (apply spec_ok; rewrite L1; lia).
      unfold Laplacian.h, hget. transitivity (match spec opHinv (proj c 1 (negb t) f) with Ok v => v | Err _ => [] end); [destruct t; reflexivity|now rewrite Sp]. }
    pose proof (R1_val (proj c 1 (negb t) f) x) as E0. pose proof (R1d_val (proj c 1 (negb t) f) x) as E1. rewrite L1 in *. unfold R_periodic in *. rewrite <- histo_interp by (rewrite ?L1; lia).
    unfold s. destruct t; cbn [negb] in *; [rewrite Rminus_0_r; apply E1; lia|apply E0; lia].
  - rewrite <- tail_scal. rewrite edges_tab by exact f_cont.
    pose proof (lf_lin n n _ _ (lf_interp n (x - s)) (h_lin close Periodic n works_n 1 (negb t) ltac:(lia))) as Hl.
    assert (forall A B r, visible n t (m1 A B r) -> interp (P t (m1 A B r)) (x - s) = m1 A B r x) as Iv.
    { intros A B r V. rewrite (P_tab n c Hn Ec t). rewrite <- (interp_unique (tab n (fun j => m1 A B r (pt n t j))) (fun y => m1 A B r (y + s))); rewrite ?length_tab; [f_equal; ring|lia|exact V|].
      apply (samples_tab n (fun y => m1 A B r (y + s))). lia. }
    apply (functional_error n (fun v => interp (hh 1 (negb t) v) (x - s)) (fun k j => RInt (m1 (a k) (b k) k) (pt n t j - hs / 2) (pt n t j + hs / 2)) (fun j => RInt f (pt n t j - hs / 2) (pt n t j + hs / 2)) (fun k => m1 (a k) (b k) k x)).
    + exact Hl.
    + intros j _. apply f_integral.
    + apply Hf.
    + now apply ex_scal.
    + intros k Hk. apply first_unresolved_spec in Hk. destruct (alias_visible t k (a k) (b k)) as (r & A' & B' & rho & Hr & _ & Ex & _ & _ & V & EP & _ & _). destruct (Ex Hk) as (-> & -> & -> & _).
      cbv beta. replace (tab n _) with (proj c 1 (negb t) (m1 (a k) (b k) k)) by (rewrite (edges_tab t (m1 (a k) (b k) k)) by (intro; apply m1_cont); reflexivity). destruct (hh_visible t _ _ _ V) as [-> _]. now apply Iv.
    + intros k _. destruct (alias_visible t k (a k) (b k)) as (r & A' & B' & rho & Hr & _ & _ & EA & EB & V & EP & Hrho & Erho).
      cbv beta. replace (tab n _) with (proj c 1 (negb t) (m1 (a k) (b k) k)) by (rewrite (edges_tab t (m1 (a k) (b k) k)) by (intro; apply m1_cont); reflexivity). rewrite Erho.
      rewrite (lf_map n (fun v => interp (hh 1 (negb t) v) (x - s)) rho _ Hl) by (rewrite edges_tab by (intro; apply m1_cont); apply length_tab).
      cbv beta. destruct (hh_visible t _ _ _ V) as [-> _]. rewrite Iv by auto.
      apply diff_bound; [|apply amp_le; lra]. rewrite <- (Rmult_1_l (amplitude a b k)). apply prod_bound; auto. now apply amp_le.
Qed.
End Convergence.

(** a series of modes may be differentiated if the amplitudes times the frequencies are summable *)
Lemma mode_deriv a b k x : is_derive (m1 (a k) (b k) k) x (m1 (INR k * b k) (- INR k * a k) k x).
Proof. unfold m1. auto_derive; [auto|ring]. Qed.
Lemma amplitude_deriv a b k : amplitude (fun k => INR k * b k) (fun k => - INR k * a k) k = INR k * amplitude a b k.
Proof. unfold amplitude. rewrite !Rabs_mult, Rabs_Ropp, (Rabs_pos_eq (INR k)) by apply pos_INR. ring. Qed.
Lemma fourier_derivative a b f f' : fourier_series a b f -> ex_series (fun k => INR k * amplitude a b k) -> (forall x, is_derive f x (f' x)) ->
  fourier_series (fun k => INR k * b k) (fun k => - INR k * a k) f'.
Proof.
  intros Hf Ha Hd. set (a' := fun k => INR k * b k). set (b' := fun k => - INR k * a k).
  assert (ex_series (amplitude a' b')) as Ha' by (apply (ex_series_ext (fun k => INR k * amplitude a b k)); auto; intro; symmetry; apply amplitude_deriv).
  set (g := fun x => Series (fun k => m1 (a' k) (b' k) k x)).
  assert (fourier_series a' b' g) as Hg.
  { intro x. apply Series_correct. apply (ex_series_le (V := R_CompleteNormedModule) _ (amplitude a' b')); auto. intro k. apply m1_bound. }
  assert (forall x, is_derive f x (g x)) as Hfg.
  { intro x. apply (is_derive_ext (fun t => f 0 + RInt g 0 t)).
    - intro t. assert (is_series (fun k => RInt (m1 (a' k) (b' k) k) 0 t) (RInt g 0 t)) as S1 by exact (f_integral g a' b' Hg Ha' 0 t).
      assert (is_series (fun k => RInt (m1 (a' k) (b' k) k) 0 t) (f t - f 0)) as S2.
      { apply (is_series_ext (fun k => m1 (a k) (b k) k t - m1 (a k) (b k) k 0)).
        - intro k. symmetry. apply is_RInt_unique. apply (is_RInt_der (m1 (a k) (b k) k)); intro y; [apply mode_deriv|apply m1_cont].
        - apply (is_series_minus (V := R_NormedModule)); apply Hf. }
      assert (RInt g 0 t = f t - f 0) as -> by (rewrite <- (is_series_unique _ _ S1); exact (is_series_unique _ _ S2)). change (f 0 + (f t - f 0) = f t). ring.
    - replace (g x) with (0 + g x) by ring. apply (is_derive_plus (K := R_AbsRing) (V := R_NormedModule) (fun _ => f 0) (fun t => RInt g 0 t)); [apply (is_derive_const (K := R_AbsRing) (V := R_NormedModule))|].
      apply (is_derive_RInt g (fun t => RInt g 0 t) 0 x); [|exact (f_cont g a' b' Hg Ha' x)].
      apply filter_forall. intro t. apply (RInt_correct g 0 t). apply ex_RInt_cont_all. intro y. exact (f_cont g a' b' Hg Ha' y). }
  intro x. replace (f' x) with (g x); [apply Hg|]. rewrite <- (is_derive_unique _ _ _ (Hfg x)). exact (is_derive_unique _ _ _ (Hd x)).
Qed.

Section ConvergenceL.
Variables (close : C -> C -> bool) (n : nat) (L Ld : op1) (c : cells1).
Hypothesis Hn : (1 <= n)%nat.
Hypothesis EL : laplacian (dec_of close Periodic) = Ok (L, Ld).
Hypothesis Ec : make_cells Periodic n 0 (2 * PI) = Ok c.
Notation P := (disc_of c).
Lemma lap_lin t : exists g, lin n n g /\ forall u, length u = n -> lap_of L Ld t u = Ok (g u).
Proof.
  pose proof (h_lin close Periodic n Hn 1 true ltac:(lia)) as H1. pose proof (h_lin close Periodic n Hn 1 false ltac:(lia)) as H2. pose proof (lin_D0 Periodic n) as D1. pose proof (lin_D0d Periodic n Hn) as D2.
  cbn [grid_N sizes_periodic Nat.sub negb] in *. unfold lap_of. destruct t.
  - eexists. split; [|intros u Lu; apply (L_val close Periodic n Hn L Ld EL u Lu)].
    exact (lin_comp n n n _ _ (lin_comp n n n _ _ (lin_comp n n n _ _ D1 H1) D2) H2).
  - eexists. split; [|intros u Lu; apply (Ld_val close Periodic n Hn L Ld EL u Lu)].
    exact (lin_comp n n n _ _ (lin_comp n n n _ _ (lin_comp n n n _ _ D2 H2) D1) H1).
Qed.
Lemma lap_m1 t A B r : (2 * r <= n)%nat -> lap_of L Ld t (P t (m1 A B r)) = Ok (P t (fun x => - INR r ^ 2 * m1 A B r x)).
Proof.
  intro Hr. rewrite (P_ext c t (m1 A B r) _ (m1_trig A B r)). rewrite (A_exact close n L Ld c Hn EL Ec t r _ _ Hr). f_equal. apply P_ext. intro x.
  rewrite m1_trig. rewrite trig_scal. apply trig_ext. intros k Hk. destruct (Nat.eqb_spec k r) as [->|]; split; ring.
Qed.
(** the Laplacian *)
Theorem C102_laplacian (t : bool) (f f' f'' : R -> R) (a b : nat -> R) : fourier_series a b f -> ex_series (fun k => INR k ^ 2 * amplitude a b k) ->
  (forall x, is_derive f x (f' x)) -> (forall x, is_derive f' x (f'' x)) ->
  exists v, (if t then L else Ld) (proj c 0 t f) = Ok v /\ length v = n /\
  forall i, (i < n)%nat -> Rabs (nth i v 0 - nth i (proj c 0 t f'') 0) <= 2 * tail (fun k => INR k ^ 2 * amplitude a b k) (first_unresolved n).
Proof.
  intros Hf Ha H1 H2.
  assert (ex_series (fun k => INR k * amplitude a b k)) as Ha1.
  { apply (ex_series_le (V := R_CompleteNormedModule) _ (fun k => INR k ^ 2 * amplitude a b k)); auto. intro k. unfold norm; cbn; unfold abs; cbn. pose proof (amp_nonneg a b k). pose proof (pos_INR k).
    rewrite Rabs_pos_eq by (apply Rmult_le_pos; auto). apply Rmult_le_compat_r; auto. destruct k; [cbn; lra|]. assert (1 <= INR (S k)) by (rewrite S_INR; pose proof (pos_INR k); lra). nra. }
  pose proof (fourier_derivative a b f f' Hf Ha1 H1) as F1. set (a' := fun k => INR k * b k) in *. set (b' := fun k => - INR k * a k) in *.
  assert (fourier_series (fun k => INR k * b' k) (fun k => - INR k * a' k) f'') as F2.
  { apply (fourier_derivative a' b' f' f'' F1); auto. apply (ex_series_ext (fun k => INR k ^ 2 * amplitude a b k)); auto. intro k. unfold a', b'. rewrite amplitude_deriv. match goal with |- @eq _ ?u ?v => change (@eq R u v) end. ring. }
  rewrite !(proj0_P c). destruct (lap_lin t) as (g & Hg & Eg). pose proof (P_len n c Hn Ec t f) as LP. exists (g (P t f)). split; [exact (Eg _ LP)|]. split; [exact (lin_len _ _ g _ Hg LP)|].
  intros i Hi. rewrite (nth_P n c Hn Ec t f'' i Hi). rewrite <- tail_scal. rewrite (P_tab n c Hn Ec t f).
  apply (functional_error n (fun v => nth i (g v) 0) (fun k j => m1 (a k) (b k) k (pt n t j)) (fun j => f (pt n t j)) (fun k => - INR k ^ 2 * m1 (a k) (b k) k (pt n t i))).
  - exact (lin_lf n n g i Hg).
  - intros j _. apply Hf.
  - apply (is_series_ext (fun k => mode_at (fun k => INR k * b' k) (fun k => - INR k * a' k) k (pt n t i))); [|apply F2]. intro k. unfold mode_at, m1, a', b'. match goal with |- @eq _ ?u ?v => change (@eq R u v) end. ring.
  - apply ex_scal. exact Ha.
  - intros k Hk. apply first_unresolved_spec in Hk. cbv beta. replace (tab n _) with (P t (m1 (a k) (b k) k)) by apply (P_tab n c Hn Ec t).
    pose proof (Eg _ (P_len n c Hn Ec t (m1 (a k) (b k) k))) as E. rewrite (lap_m1 t (a k) (b k) k) in E by lia. injection E as <-. now rewrite (nth_P n c Hn Ec t).
  - intros k _. cbv beta. replace (tab n _) with (P t (m1 (a k) (b k) k)) by apply (P_tab n c Hn Ec t).
    destruct (alias_visible n c Hn Ec t k (a k) (b k)) as (r & A' & B' & rho & Hr & Hrk & _ & EA & EB & V & EP & _). rewrite EP.
    pose proof (Eg _ (P_len n c Hn Ec t (m1 A' B' r))) as E. rewrite (lap_m1 t A' B' r Hr) in E. injection E as <-. rewrite (nth_P n c Hn Ec t) by auto.
    pose proof (pos_INR r). pose proof (pos_INR k). assert (INR r <= INR k) by (apply le_INR; lia). assert (INR r ^ 2 <= INR k ^ 2) by (apply pow_incr; lra). assert (0 <= INR r ^ 2) by (apply pow_le; lra).
    apply diff_bound; apply prod_bound; rewrite ?Rabs_Ropp, ?Rabs_pos_eq by lra; auto; try lra; [now apply (amp_le a b A' B' k)|apply (amp_le a b (a k) (b k) k); lra].
Qed.
End ConvergenceL.

(** the bounds vanish as the grid is refined *)
Theorem C102_bound_vanishes (w : nat -> R) (eps : R) : (forall k, 0 <= w k) -> ex_series w -> 0 < eps ->
  exists N, forall n, (N <= n)%nat -> 0 <= tail w (first_unresolved n) < eps.
Proof.
  intros Hp Ew He. destruct (tail_small w Hp Ew (mkposreal eps He)) as [N HN]. exists (2 * N)%nat. intros n Hle. apply HN. unfold first_unresolved. apply Nat.div_le_lower_bound; lia.
Qed.

(** a function with infinitely many modes: sum of 8^-k cos (k x) *)
Definition bell (x : R) : R := (64 - 8 * cos x) / (65 - 16 * cos x).
Definition bell' (x : R) : R := -504 * sin x / (65 - 16 * cos x) ^ 2.
Definition bell'' (x : R) : R := -504 * cos x / (65 - 16 * cos x) ^ 2 + 16128 * sin x ^ 2 / (65 - 16 * cos x) ^ 3.
Lemma bell_den x : 0 < 65 - 16 * cos x.
Proof. pose proof (COS_bound x). lra. Qed.
Lemma bell_partial x N : (65 - 16 * cos x) * sum_n (fun k => (/ 8) ^ k * cos (INR k * x)) N = 64 - 8 * cos x + (/ 8) ^ N * cos (INR N * x) - 64 * ((/ 8) ^ S N * cos (INR (S N) * x)).
Proof.
  induction N as [|N IH].
  - rewrite sum_O. cbn [INR pow]. rewrite Rmult_0_l, cos_0, !Rmult_1_l. field.
  - rewrite sum_Sn. change plus with Rplus. rewrite Rmult_plus_distr_l, IH.
    assert (cos (INR (S (S N)) * x) = 2 * cos x * cos (INR (S N) * x) - cos (INR N * x)) as ->.
    { rewrite !S_INR. replace ((INR N + 1 + 1) * x) with ((INR N + 1) * x + x) by ring. replace (INR N * x) with ((INR N + 1) * x - x) by ring. rewrite cos_plus, cos_minus. ring. }
    cbn [pow]. field.
Qed.
Lemma geom8 : is_series (fun k => (/ 8) ^ k) (8 / 7).
Proof. replace (8 / 7) with (/ (1 - / 8)) by field. apply is_series_geom. rewrite Rabs_pos_eq; lra. Qed.
Lemma bell_series : fourier_series (fun k => (/ 8) ^ k) (fun _ => 0) bell.
Proof.
  intro x. apply (is_series_ext (fun k => (/ 8) ^ k * cos (INR k * x))).
  { intro k. unfold mode_at. match goal with |- @eq _ ?u ?v => change (@eq R u v) end. ring. }
  pose proof (bell_den x) as D. unfold is_series. change (is_lim_seq (sum_n (fun k => (/ 8) ^ k * cos (INR k * x))) (bell x)).
  assert (is_lim_seq (fun k => (/ 8) ^ k * cos (INR k * x)) 0) as Q.
  { apply (is_lim_seq_le_le (fun k => - (/ 8) ^ k) _ (fun k => (/ 8) ^ k)).
    - intro k. pose proof (COS_bound (INR k * x)). assert (0 < (/ 8) ^ k) by (apply pow_lt; lra). split; nra.
    - replace (Finite 0) with (Rbar_opp (Finite 0)) by (cbn; f_equal; ring). apply -> is_lim_seq_opp. apply is_lim_seq_geom. rewrite Rabs_pos_eq; lra.
    - apply is_lim_seq_geom. rewrite Rabs_pos_eq; lra. }
  assert (is_lim_seq (fun N => / (65 - 16 * cos x) * (64 - 8 * cos x + (/ 8) ^ N * cos (INR N * x) - 64 * ((/ 8) ^ S N * cos (INR (S N) * x)))) (/ (65 - 16 * cos x) * (64 - 8 * cos x + 0 - 64 * 0))) as Lm.
  { apply (is_lim_seq_scal_l _ _ (Finite _)). apply is_lim_seq_minus'; [apply is_lim_seq_plus'; [apply is_lim_seq_const|exact Q]|]. apply (is_lim_seq_scal_l _ _ (Finite 0)). apply (is_lim_seq_incr_1 (fun k => (/ 8) ^ k * cos (INR k * x))). exact Q. }
  replace (bell x) with (/ (65 - 16 * cos x) * (64 - 8 * cos x + 0 - 64 * 0)) by (unfold bell; field; lra).
  eapply is_lim_seq_ext; [|exact Lm]. intro N. cbv beta. rewrite <- bell_partial. field. lra.
Qed.
Lemma bell_amplitude k : amplitude (fun k => (/ 8) ^ k) (fun _ => 0) k = (/ 8) ^ k.
Proof. unfold amplitude. rewrite Rabs_R0, Rabs_pos_eq; [ring|]. apply pow_le. lra. Qed.
Lemma bell_summable : ex_series (amplitude (fun k => (/ 8) ^ k) (fun _ => 0)).
Proof. apply (ex_series_ext (fun k => (/ 8) ^ k)); [intro; symmetry; apply bell_amplitude|]. eexists. exact geom8. Qed.
Lemma bell_summable2 : ex_series (fun k => INR k ^ 2 * amplitude (fun k => (/ 8) ^ k) (fun _ => 0) k).
Proof.
  apply (ex_series_le (V := R_CompleteNormedModule) _ (fun k => (/ 2) ^ k)); [|apply ex_series_geom; rewrite Rabs_pos_eq; lra].
  intro k. unfold norm; cbn -[pow]; unfold abs; cbn -[pow]. rewrite bell_amplitude. pose proof (pos_INR k).
  assert (INR k <= 2 ^ k) as K. { clear. induction k as [|k IH]; [cbn; lra|]. rewrite S_INR. cbn [pow]. assert (1 <= 2 ^ k) by (apply pow_R1_Rle; lra). lra. }
  assert (0 < (/ 8) ^ k) by (apply pow_lt; lra). rewrite Rabs_pos_eq by (apply Rmult_le_pos; [apply pow_le|]; lra).
  replace ((/ 2) ^ k) with ((2 ^ k) ^ 2 * (/ 8) ^ k). { apply Rmult_le_compat_r; [lra|]. apply pow_incr. lra. }
  rewrite <- pow_mult, Nat.mul_comm, pow_mult, <- Rpow_mult_distr. f_equal. field.
Qed.
Lemma bell_tail m : tail (amplitude (fun k => (/ 8) ^ k) (fun _ => 0)) m = (8 / 7) * (/ 8) ^ m.
Proof.
  unfold tail. apply is_series_unique. apply (is_series_ext (fun k => (/ 8) ^ m * (/ 8) ^ k)).
  - intro k. rewrite bell_amplitude. now rewrite pow_add.
  - rewrite Rmult_comm. apply is_series_scal_R. exact geom8.
Qed.
(** for this function the Hodge star and the reconstruction converge geometrically, and the Laplacian converges *)
Example C102_instance (close : C -> C -> bool) (n : nat) (L Ld : op1) (c : cells1) (t : bool) :
  (1 <= n)%nat -> laplacian (dec_of close Periodic) = Ok (L, Ld) -> make_cells Periodic n 0 (2 * PI) = Ok c ->
  (exists o v, tget (Common.dH (dec_of close Periodic)) (0%nat, t) = Ok o /\ o (proj c 0 t bell) = Ok v /\
     forall i, (i < n)%nat -> Rabs (nth i v 0 - nth i (proj c 1 (negb t) bell) 0) <= 2 * (2 * PI / INR n) * (8 / 7 * (/ 8) ^ first_unresolved n)) /\
  (forall x, 0 <= x < 2 * PI -> exists y, R_form (B_periodic n) (sizes_periodic n) 0 t (proj c 0 t bell) x = Some y /\ Rabs (y - bell x) <= 2 * (8 / 7 * (/ 8) ^ first_unresolved n)) /\
  (exists v, (if t then L else Ld) (proj c 0 t bell) = Ok v /\ forall i, (i < n)%nat -> Rabs (nth i v 0 - nth i (proj c 0 t bell'') 0) <=
     2 * tail (fun k => INR k ^ 2 * amplitude (fun k => (/ 8) ^ k) (fun _ => 0) k) (first_unresolved n)).
Proof.
  intros Hn EL Ec. split; [|split].
  - destruct (C102_hodge close n c Hn Ec bell _ _ bell_series bell_summable t) as (o & v & E1 & E2 & _ & H). exists o, v. repeat split; auto. intros i Hi. rewrite <- bell_tail. now apply H.
  - intros x Hx. destruct (C102_reconstruction n c Hn Ec bell _ _ bell_series bell_summable t x Hx) as (y & E & H). exists y. split; auto. now rewrite <- bell_tail.
  - destruct (C102_laplacian close n L Ld c Hn EL Ec t bell bell' bell'' _ _ bell_series bell_summable2) as (v & E & _ & H); [| |exists v; auto].
    + intro x. pose proof (bell_den x). unfold bell, bell'. auto_derive; [lra|]. field. lra.
    + intro x. pose proof (bell_den x). unfold bell', bell''. auto_derive; [apply Rgt_not_eq; repeat apply Rmult_lt_0_compat; lra|]. field. lra.
Qed.
