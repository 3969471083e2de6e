(** C70: the quadrature functions of dec/spectral.py. *)
From Coq Require Import ZArith Reals List Lia Lra Arith Bool.
From Coq Require Import ZifyNat.
From Verif Require Import Model.Sym.
From Coquelicot Require Import Coquelicot.
From Verif Require Import Model.Num Model.Np Model.Spectral Model.Basis Model.Common Model.Helper Model.Quad Spec.Trig Spec.Poly
  Proofs.ListLemmas Proofs.Sums Proofs.RIntLemmas Proofs.Fourier Proofs.Trig Proofs.Ops Proofs.Exact Proofs.TrigAlg Proofs.ChebPoly Proofs.TableLin Proofs.Refine Proofs.RoundP.
Import ListNotations.
Local Open Scope R_scope.
Ltac Zify.zify_post_hook ::= Z.div_mod_to_equations.

Lemma length_midpoints x : length (midpoints x) = (length x - 1)%nat.
Proof. unfold midpoints, init. rewrite length_zipw, map_length, length_diff, length_removelast. lia. Qed.
Lemma nth_midpoints x i : (i < length x - 1)%nat -> nth i (midpoints x) 0 = (nth i x 0 + nth (S i) x 0) / 2.
Proof.
  intro H. unfold midpoints, init. rewrite (nth_zipw _ _ _ _ 0 0) by (rewrite ?map_length, ?length_diff, ?length_removelast; lia).
  rewrite nth_removelast, (nth_map_ _ _ _ 0 0), nth_diff by (rewrite ?length_diff; lia). cbn [nsub NumR]. field.
Qed.
(** subdivide inserts the midpoints *)
Theorem C70_subdivide x : (2 <= length x)%nat -> is_equidistant x = Ok true ->
  exists y, subdivide x = Ok y /\ length y = (2 * length x - 1)%nat /\
  (forall i, (i < length x)%nat -> nth (2 * i) y 0 = nth i x 0) /\
  (forall i, (i < length x - 1)%nat -> nth (2 * i + 1) y 0 = (nth i x 0 + nth (S i) x 0) / 2).
Proof.
  intros L E. unfold subdivide. replace (Nat.ltb (length x) 2) with false by (symmetry; apply Nat.ltb_ge; auto). rewrite E. cbn [assert_ bind].
  pose proof (length_midpoints x) as Lm. assert (length (init x) = (length x - 1)%nat) as Li by apply length_removelast.
  rewrite interweave_ok by lia. cbn [bind]. eexists. split; [reflexivity|]. assert (length (weave (init x) (midpoints x)) = (2 * length x - 2)%nat) as Lw by (rewrite length_weave; lia).
  split; [rewrite app_length, Lw; cbn; lia|]. split; intros i Hi.
  - destruct (Nat.eq_dec i (length x - 1)) as [->|D].
    + rewrite app_nth2, Lw by lia. replace (2 * (length x - 1) - (2 * length x - 2))%nat with 0%nat by lia. cbn. apply nth_last.
    + rewrite app_nth1 by lia. rewrite nth_weave_even by lia. apply nth_removelast. lia.
  - rewrite app_nth1 by lia. rewrite nth_weave_odd by lia. now apply nth_midpoints.
Qed.
Theorem C70_subdivide_short x : (length x < 2)%nat -> subdivide x = Ok x.
Proof. intro H. unfold subdivide. now rewrite (Logic.proj2 (Nat.ltb_lt _ _)) by auto. Qed.
(** a list of points whose steps differ after rounding to eight decimals is rejected; in particular when they differ by more than 1e-8 *)
Theorem C70_subdivide_rejects x i j : (i < length x - 1)%nat -> (j < length x - 1)%nat ->
  / 10 ^ 8 < Rabs ((nth (S i) x 0 - nth i x 0) - (nth (S j) x 0 - nth j x 0)) -> subdivide x = Err AssertionError.
Proof.
  intros Hi Hj H. unfold subdivide. destruct (Nat.ltb_spec (length x) 2); [lia|]. unfold is_equidistant.
  assert (length (diff x) = (length x - 1)%nat) as Ld by apply length_diff.
  assert (forall k, (k < length x - 1)%nat -> nth k (diff x) 0 = nth (S k) x 0 - nth k x 0) as nd by (intros k Hk; rewrite (nth_diff (A := R)) by auto; reflexivity).
  destruct (diff x) as [|d0 ds] eqn:Ed; [cbn in Ld; lia|]. cbn [assert_ bind]. destruct (forallb _ _) eqn:F; [|reflexivity]. exfalso.
  rewrite forallb_forall in F. assert (forall k, (k < length x - 1)%nat -> rounded 8 (nth k (d0 :: ds) 0) = rounded 8 d0) as K.
  { intros k Hk. apply Z.eqb_eq, F. apply nth_In. lia. }
  apply Rlt_not_le in H. apply H. rewrite <- !nd by auto. apply rounded_close. rewrite !K by auto. reflexivity.
Qed.
Theorem C70_split_args I x f : (2 <= length x)%nat -> split_args I (init x) (tl x) f = I x f.
Proof.
  intro L. unfold split_args. assert (tl (init x) = init (tl x)) as E by (destruct x as [|a [|b x]]; reflexivity). rewrite E, Nat.eqb_refl.
  assert (forall l, forallb (fun b => b) (zipw almost_equal l l) = true) as A.
  { induction l as [|a l IH]; cbn; [reflexivity|]. rewrite IH. unfold almost_equal. rewrite Rminus_diag_eq, Rabs_R0 by reflexivity. destruct (Rlt_dec _ _) as [|n]; [reflexivity|]. exfalso. apply n. assert (0 < 10 ^ 8) by (apply pow_lt; lra). apply Rdiv_lt_0_compat; lra. }
  rewrite A. cbn [andb]. destruct x as [|a [|b x]]; cbn in L; try lia. cbn [tl]. f_equal. unfold init. rewrite (app_removelast_last 0 (l := a :: b :: x)) at 2 by discriminate. reflexivity.
Qed.

(** equally spaced points *)
Definition points (N : nat) (a h : R) : list R := tab (S N) (fun i => a + INR i * h).
Lemma diff_points N a h : diff (points N a h) = tab N (fun _ => h).
Proof.
  apply (list_eq_nth 0); [rewrite length_diff; unfold points; rewrite !length_tab; lia|]. rewrite length_diff. unfold points at 1. rewrite length_tab. intros i Hi. rewrite (nth_diff (A := R)) by (unfold points; rewrite length_tab; lia). unfold points. rewrite !nth_tab by lia. cbn [nsub NumR]. rewrite S_INR. ring.
Qed.
Lemma equi_points N a h : (1 <= N)%nat -> is_equidistant (points N a h) = Ok true.
Proof.
  intro HN. unfold is_equidistant. rewrite diff_points. destruct N as [|N]; [lia|]. rewrite (eq_refl : tab (S N) (fun _ => h) = h :: map (fun _ => h) (seq 1 N)). f_equal. apply forallb_forall. intros d Hd. apply Z.eqb_eq.
  destruct Hd as [<-|Hd]; [reflexivity|]. apply in_map_iff in Hd as (? & <- & _). reflexivity.
Qed.
Lemma len_points N a h : length (points N a h) = S N. Proof. apply length_tab. Qed.
Lemma nth_points N a h i : (i < S N)%nat -> nth i (points N a h) 0 = a + INR i * h.
Proof. intro. unfold points. now rewrite nth_tab. Qed.
Lemma subdivide_points N a h : (1 <= N)%nat -> subdivide (points N a h) = Ok (points (2 * N) a (h / 2)).
Proof.
  intro HN. destruct (C70_subdivide (points N a h)) as (y & E & L & E1 & E2); [rewrite len_points; lia|now apply equi_points|]. rewrite E. f_equal. rewrite len_points in *.
  apply (list_eq_nth 0); [rewrite L, len_points; lia|]. rewrite L. intros i Hi. rewrite nth_points by lia. destruct (Nat.Even_or_Odd i) as [[k ->]|[k ->]].
  - rewrite E1, nth_points by lia. rewrite mult_INR. simpl (INR 2). field.
  - rewrite E2, !nth_points by lia. rewrite S_INR, plus_INR, mult_INR. simpl (INR 2). simpl (INR 1). field.
Qed.
Lemma midpoints_points N a h : midpoints (points N a h) = tab N (fun i => a + h / 2 + INR i * h).
Proof.
  apply (list_eq_nth 0); [rewrite length_midpoints, len_points, length_tab; lia|]. rewrite length_midpoints, len_points. intros i Hi. rewrite nth_midpoints, !nth_points, nth_tab by (rewrite ?len_points; lia). rewrite S_INR. field.
Qed.
Lemma coarse_points N a f K : (1 <= N)%nat -> (2 * K < N)%nat -> trig_degree K f ->
  integrate_spectral_coarse (points N a (hstep N)) f = Ok (tab N (fun i => RInt f (a + INR i * hstep N) (a + INR (S i) * hstep N))).
Proof.
  intros HN HK Hf. unfold integrate_spectral_coarse. rewrite equi_points by auto. cbn [assert_ bind].
  assert (0 < INR N) as PN by (apply lt_0_INR; lia). assert (INR N * hstep N = 2 * PI) as HS by (unfold hstep; field; lra).
  assert (last (points N a (hstep N)) 0 - hd 0 (points N a (hstep N)) = 2 * PI) as ->.
  { rewrite nth_last, nth_hd, len_points. replace (S N - 1)%nat with N by lia. rewrite !nth_points by lia. rewrite HS. cbn [INR]. ring. }
  unfold approx. rewrite Z.eqb_refl. rewrite midpoints_points, map_tab.
  set (v := tab N (fun i => f (a + hstep N / 2 + INR i * hstep N))). assert (length v = N) as Lv by apply length_tab.
  rewrite (spec_ok _ _ (ltac:(lia) : (1 <= length v)%nat)). apply (f_equal (@Ok (list R))).
  set (p := fun t => f (t + (a + hstep N / 2))). assert (trig_degree K p) as Hp by now apply td_shift.
  assert (samples v p) as Sp by (intros j Hj; unfold v; rewrite nth_tab by lia; unfold p, hstep; rewrite length_tab; f_equal; field; lra).
  rewrite (exact_H v p); [|lia| |exact Sp].
  - rewrite Lv. apply tab_ext. intros i Hi. unfold p. etransitivity; [apply (RInt_shift f (a + hstep N / 2)); intro; now apply (td_cont K)|]. f_equal; unfold xg; rewrite ?S_INR; field.
  - rewrite Lv. now apply (trig_degree_interpolant N K).
Qed.

Lemma fold8 N (g : nat -> R) : 
  fold_left (fun acc k => bind acc (fun a => np_bin Rplus a (strided k 8 (tab (8 * N) g)))) [1; 2; 3; 4; 5; 6; 7]%nat (Ok (strided 0 8 (tab (8 * N) g))) =
  Ok (tab N (fun i => g (8 * i)%nat + g (8 * i + 1)%nat + g (8 * i + 2)%nat + g (8 * i + 3)%nat + g (8 * i + 4)%nat + g (8 * i + 5)%nat + g (8 * i + 6)%nat + g (8 * i + 7)%nat)).
Proof.
  assert (forall k, (k < 8)%nat -> strided k 8 (tab (8 * N) g) = tab N (fun i => g (8 * i + k)%nat)) as E.
  { intros k Hk. unfold strided. rewrite length_tab. replace ((8 * N - k + (8 - 1)) / 8)%nat with N by lia. apply tab_ext. intros i Hi. rewrite nth_tab by lia. f_equal. lia. }
  assert (forall u v : nat -> R, np_bin Rplus (tab N u) (tab N v) = Ok (tab N (fun i => u i + v i))) as P by (intros; unfold np_bin; now rewrite !length_tab, Nat.eqb_refl, zipw_tab).
  cbn [fold_left]. rewrite !E by lia. repeat (cbn [bind]; rewrite P). apply (f_equal (@Ok (list R))), tab_ext. intros i Hi. now rewrite Nat.add_0_r.
Qed.
(** integrate_spectral_coarse and integrate_spectral are exact on trigonometric polynomials; the nodes start anywhere *)
Theorem C70_coarse_exact N K a f : (2 * K < N)%nat -> trig_degree K f ->
  let x := tab (N + 1) (fun i => a + 2 * PI * INR i / INR N) in
  integrate_spectral_coarse x f = Ok (tab N (fun i => RInt f (nth i x 0) (nth (i + 1) x 0))).
Proof.
  intros HK Hf x. assert (x = points N a (hstep N)) as ->. { unfold x, points. rewrite Nat.add_1_r. apply tab_ext. intros i Hi. unfold hstep. field. apply not_0_INR. lia. }
  rewrite (coarse_points N a f K) by (auto; lia). apply (f_equal (@Ok (list R))), tab_ext. intros i Hi. rewrite Nat.add_1_r, !nth_points by lia. reflexivity.
Qed.
Lemma spectral_points N K a f : (1 <= N)%nat -> (K < 4 * N)%nat -> trig_degree K f ->
  integrate_spectral (points N a (hstep N)) f = Ok (tab N (fun i => RInt f (a + INR i * hstep N) (a + INR (S i) * hstep N))).
Proof.
  intros HN HK Hf. unfold integrate_spectral. rewrite equi_points by auto. cbn [assert_ bind]. rewrite !subdivide_points by auto. cbn [bind]. rewrite !subdivide_points by lia. cbn [bind]. rewrite !subdivide_points by lia. cbn [bind].
  assert (0 < INR N) as PN by (apply lt_0_INR; lia).
  replace (2 * (2 * (2 * N)))%nat with (8 * N)%nat by lia. assert (hstep N / 2 / 2 / 2 = hstep (8 * N)) as -> by (unfold hstep; rewrite mult_INR; simpl (INR 8); field; lra).
  rewrite (coarse_points (8 * N) a f K) by (auto; lia). cbn [bind]. rewrite fold8. apply (f_equal (@Ok (list R))), tab_ext. intros i Hi.
  assert (forall u v w, RInt f u v + RInt f v w = RInt f u w) as Ch by (intros; apply (RInt_Chasles f); apply ex_RInt_cont_all; intro; now apply (td_cont K)).
  replace (S (8 * i)) with (8 * i + 1)%nat by lia. replace (S (8 * i + 1)) with (8 * i + 2)%nat by lia. replace (S (8 * i + 2)) with (8 * i + 3)%nat by lia. replace (S (8 * i + 3)) with (8 * i + 4)%nat by lia.
  replace (S (8 * i + 4)) with (8 * i + 5)%nat by lia. replace (S (8 * i + 5)) with (8 * i + 6)%nat by lia. replace (S (8 * i + 6)) with (8 * i + 7)%nat by lia. rewrite !Ch.
  f_equal; unfold hstep; rewrite ?S_INR, ?plus_INR, ?mult_INR; simpl (INR 8); simpl (INR 7); field; lra.
Qed.
Theorem C70_spectral_exact N K a f : (1 <= N)%nat -> (K < 4 * N)%nat -> trig_degree K f ->
  let x := tab (N + 1) (fun i => a + 2 * PI * INR i / INR N) in
  integrate_spectral x f = Ok (tab N (fun i => RInt f (nth i x 0) (nth (i + 1) x 0))).
Proof.
  intros HN HK Hf x. assert (x = points N a (hstep N)) as ->. { unfold x, points. rewrite Nat.add_1_r. apply tab_ext. intros i Hi. unfold hstep. field. apply not_0_INR. lia. }
  rewrite (spectral_points N K a f) by auto. apply (f_equal (@Ok (list R))), tab_ext. intros i Hi. rewrite Nat.add_1_r, !nth_points by lia. reflexivity.
Qed.
(** the same through split_args, in the form I(x0, x1, f) *)
Theorem C70_split_spectral_exact N K a f : (1 <= N)%nat -> (K < 4 * N)%nat -> trig_degree K f ->
  let x i := a + 2 * PI * INR i / INR N in
  split_args integrate_spectral (tab N x) (tab N (fun i => x (i + 1)%nat)) f = Ok (tab N (fun i => RInt f (x i) (x (i + 1)%nat))).
Proof.
  intros HN HK Hf x. pose proof (C70_spectral_exact N K a f HN HK Hf) as E. cbv zeta in E. rewrite <- C70_split_args in E by (rewrite length_tab; lia).
  assert (init (tab (N + 1) x) = tab N x) as E1 by (apply (list_eq_nth 0); [unfold init; rewrite length_removelast, !length_tab; lia|]; unfold init; rewrite length_removelast, length_tab; intros i Hi; rewrite nth_removelast by (rewrite length_tab; lia); now rewrite !nth_tab by lia).
  assert (tl (tab (N + 1) x) = tab N (fun i => x (i + 1)%nat)) as E2 by (apply (list_eq_nth 0); [rewrite length_tl, !length_tab; lia|]; rewrite length_tl, length_tab; intros i Hi; rewrite nth_tl, !nth_tab by lia; now rewrite Nat.add_1_r).
  change (fun i => a + 2 * PI * INR i / INR N) with x in E. rewrite E1, E2 in E. rewrite E. apply (f_equal (@Ok (list R))), tab_ext. intros i Hi. now rewrite !nth_tab by lia.
Qed.
(** the two Chebyshev rules are exact on polynomials *)
Lemma varphi_cos t : 0 <= t <= PI -> varphi (- cos t) = t.
Proof. intro H. unfold varphi. rewrite Ropp_involutive. now apply acos_cos. Qed.
Lemma cheb_points m f d : (1 <= m)%nat -> (d + 1 < 8 * m)%nat -> polynomial d f ->
  integrate_chebyshev (tab (S m) (fun i => - cos (INR i * (PI / INR m)))) f = Ok (@tab R m (fun i => RInt f (- cos (INR i * (PI / INR m))) (- cos (INR (S i) * (PI / INR m))))).
Proof.
  intros Hm Hd Hf. assert (0 < INR m) as Pm by (apply lt_0_INR; lia). pose proof PI_RGT_0 as HP. set (h := PI / INR m). assert (INR m * h = PI) as Eh by (unfold h; field; lra).
  assert (0 < h) as Ph by (apply Rdiv_lt_0_compat; lra).
  set (xi := tab (S m) (fun i => - cos (INR i * h))). assert (length xi = S m) as Lx by apply length_tab. unfold integrate_chebyshev.
  destruct xi as [|xi0 xr] eqn:Exi; [cbn in Lx; lia|]. rewrite <- Exi in *. clear xi0 xr Exi.
  assert (last xi 0 - hd 0 xi = 2) as ->.
  { rewrite nth_last, nth_hd, Lx. unfold xi. rewrite !nth_tab by lia. replace (S m - 1)%nat with m by lia. rewrite Eh, cos_PI. cbn [INR]. rewrite Rmult_0_l, cos_0. ring. }
  unfold approx. rewrite Z.eqb_refl. cbn [assert_ bind].
  assert (map varphi xi = points m 0 h) as ->.
  { unfold xi, points. rewrite map_tab. apply tab_ext. intros i Hi. rewrite varphi_cos; [ring|]. split; [apply Rmult_le_pos; [apply pos_INR|lra]|]. rewrite <- Eh. apply Rmult_le_compat_r; [lra|]. apply le_INR. lia. }
  rewrite equi_points by auto. cbn [assert_ bind].
  assert (points m 0 h ++ map (fun t => t + PI) (tl (points m 0 h)) = points (2 * m) 0 (hstep (2 * m))) as ->.
  { assert (hstep (2 * m) = h) as -> by (unfold hstep, h; rewrite mult_INR; simpl (INR 2); field; lra). apply (list_eq_nth 0); [rewrite app_length, map_length, length_tl, !len_points; lia|]. rewrite app_length, map_length, length_tl, !len_points. intros i Hi.
    rewrite nth_points by lia. destruct (Nat.lt_ge_cases i (S m)) as [K|K]; [rewrite app_nth1 by (rewrite len_points; lia); now rewrite nth_points|].
    rewrite app_nth2, len_points by (rewrite len_points; lia). rewrite (nth_map_ _ _ _ 0 0) by (rewrite length_tl, len_points; lia). rewrite nth_tl, nth_points by lia. rewrite <- Eh. replace i with (m + S (i - S m))%nat at 2 by lia. rewrite plus_INR. ring. }
  set (F := fun theta => f (- cos theta) * sin theta).
  assert (trig_degree (d + 1) F) as HF.
  { apply td_mult; [apply cosp_degree, poly_cosp, Hf|]. apply (td_ext 1 _ (fun t => sin (INR 1 * t + 0))); [intro; f_equal; simpl; ring|]. apply td_sin_nat. lia. }
  rewrite (spectral_points (2 * m) (d + 1) 0 F) by (auto; lia). cbn [bind]. apply (f_equal (@Ok (list R))). rewrite Lx. replace (S m - 1)%nat with m by lia.
  assert (hstep (2 * m) = h) as -> by (unfold hstep, h; rewrite mult_INR; simpl (INR 2); field; lra).
  apply (list_eq_nth 0); [rewrite firstn_length, !length_tab; lia|]. rewrite firstn_length, length_tab. intros i Hi. rewrite nth_firstn_, !nth_tab by lia. rewrite !Rplus_0_l.
  symmetry. apply RInt_cos_subst. intro. now apply (poly_cont d).
Qed.
Theorem C70_chebyshev_exact n d f : (2 <= n)%nat -> (d + 1 < 8 * (n - 1))%nat -> polynomial d f ->
  let x := tab n (fun i => - cos (PI * INR i / INR (n - 1))) in
  integrate_chebyshev x f = Ok (tab (n - 1) (fun i => RInt f (nth i x 0) (nth (i + 1) x 0))).
Proof.
  intros Hn Hd Hf x. assert (INR (n - 1) <> 0) by (apply not_0_INR; lia). pose proof (cheb_points (n - 1) f d ltac:(lia) Hd Hf) as E. replace (S (n - 1)) with n in E by lia.
  assert (x = tab n (fun i => - cos (INR i * (PI / INR (n - 1))))) as Ex by (unfold x; apply tab_ext; intros; f_equal; f_equal; field; auto). rewrite Ex. rewrite E. apply (f_equal (@Ok (list R))), tab_ext. intros i Hi. now rewrite Nat.add_1_r, !nth_tab by lia.
Qed.
(** the dual cells: -1, the n - 1 dual vertices, +1 *)
Theorem C70_chebyshev_dual_exact n d f : (2 <= n)%nat -> (d + 1 < 16 * (n - 1))%nat -> polynomial d f ->
  let x := [-1] ++ tab (n - 1) (fun i => - cos (PI * (INR i + 1 / 2) / INR (n - 1))) ++ [1] in
  integrate_chebyshev_dual x f = Ok (tab n (fun i => RInt f (nth i x 0) (nth (i + 1) x 0))).
Proof.
  intros Hn Hd Hf x. set (m := (n - 1)%nat) in *. assert (1 <= m)%nat as Hm by lia. assert (0 < INR m) as Pm by (apply lt_0_INR; lia). pose proof PI_RGT_0 as HP. set (h := PI / INR m). assert (INR m * h = PI) as Eh by (unfold h; field; lra).
  assert (0 < h) as Ph by (apply Rdiv_lt_0_compat; lra).
  assert (map varphi x = [0] ++ tab m (fun i => h / 2 + INR i * h) ++ [PI]) as EV.
  { unfold x. rewrite !map_app, map_tab. cbn [map]. f_equal; [|f_equal].
    - f_equal. replace (-1) with (- cos 0) by (rewrite cos_0; ring). apply varphi_cos. lra.
    - apply tab_ext. intros i Hi. rewrite varphi_cos; [unfold h; field; lra|]. replace (PI * (INR i + 1 / 2) / INR m) with ((INR i + 1 / 2) * h) by (unfold h; field; lra). pose proof (pos_INR i).
      split; [apply Rmult_le_pos; lra|]. rewrite <- Eh. apply Rmult_le_compat_r; [lra|]. assert (INR i + 1 <= INR m) by (rewrite <- S_INR; apply le_INR; lia). lra.
    - f_equal. replace 1 with (- cos PI) by (rewrite cos_PI; ring). apply varphi_cos. lra. }
  unfold integrate_chebyshev_dual. rewrite EV. cbn [app].
  assert (inner (0 :: tab m (fun i => h / 2 + INR i * h) ++ [PI]) = points (m - 1) (h / 2) h) as ->.
  { unfold inner. cbn [tl]. rewrite removelast_last. unfold points. replace (S (m - 1)) with m by lia. reflexivity. }
  assert (subdivide (points (m - 1) (h / 2) h) = Ok (points (2 * (m - 1)) (h / 2) (h / 2))) as ->.
  { destruct (Nat.eq_dec m 1) as [->|]; [|now apply subdivide_points; lia]. cbn [Nat.sub Nat.mul]. rewrite C70_subdivide_short by (rewrite len_points; lia). f_equal. unfold points, tab. cbn. f_equal. ring. }
  cbn [bind]. assert (last (0 :: tab m (fun i => h / 2 + INR i * h) ++ [PI]) 0 = PI) as -> by (rewrite app_comm_cons; apply last_last).
  assert (map varphi_inv (0 :: points (2 * (m - 1)) (h / 2) (h / 2) ++ [PI]) = tab (S (2 * m)) (fun i => - cos (INR i * (PI / INR (2 * m))))) as ->.
  { assert (PI / INR (2 * m) = h / 2) as -> by (unfold h; rewrite mult_INR; simpl (INR 2); field; lra).
    assert (0 :: points (2 * (m - 1)) (h / 2) (h / 2) ++ [PI] = tab (S (2 * m)) (fun i => INR i * (h / 2))) as ->; [|now rewrite map_tab].
    apply (list_eq_nth 0); [cbn [length]; rewrite app_length, len_points, length_tab; cbn; lia|]. cbn [length]. rewrite app_length, len_points. cbn [length]. intros i Hi. rewrite nth_tab by lia.
    destruct i as [|i]; [cbn; ring|]. cbn [nth]. destruct (Nat.lt_ge_cases i (2 * m - 1)) as [K|K].
    - rewrite app_nth1 by (rewrite len_points; lia). rewrite nth_points by lia. rewrite S_INR. ring.
    - replace i with (2 * m - 1)%nat by lia. rewrite app_nth2 by (rewrite len_points; lia). rewrite len_points. replace (2 * m - 1 - S (2 * (m - 1)))%nat with 0%nat by lia. cbn [nth]. replace (S (2 * m - 1)) with (2 * m)%nat by lia. rewrite mult_INR. simpl (INR 2). rewrite <- Eh. field. }
  rewrite (cheb_points (2 * m) f d) by (auto; lia). cbn [bind]. assert (PI / INR (2 * m) = h / 2) as -> by (unfold h; rewrite mult_INR; simpl (INR 2); field; lra).
  set (J := fun i : nat => RInt f (- cos (INR i * (h / 2))) (- cos (INR (S i) * (h / 2)))).
  assert (length (0 :: @tab R (2 * m) J ++ [0]) = (2 * n)%nat) as Lc by (cbn [length]; rewrite app_length, length_tab; cbn; lia). rewrite Lc. rewrite (Logic.proj2 (Nat.even_spec (2 * n))) by (exists n; lia).
  apply (f_equal (@Ok (list R))). set (c := 0 :: @tab R (2 * m) J ++ [0]) in *. apply (list_eq_nth 0); [rewrite length_zipw, length_evens, length_odds, length_tab; lia|]. rewrite length_zipw, length_evens, length_odds. intros i Hi.
  rewrite (nth_zipw _ _ _ _ 0 0) by (rewrite ?length_evens, ?length_odds; lia). rewrite nth_evens, nth_odds, nth_tab by lia.
  assert (forall k, nth k c 0 = if Nat.eqb k 0 then 0 else if Nat.ltb k (2 * m + 1) then J (k - 1)%nat else 0) as nc.
  { intros [|k]; [reflexivity|]. unfold c. cbn [nth Nat.eqb]. replace (S k - 1)%nat with k by lia. destruct (Nat.ltb_spec (S k) (2 * m + 1)); [rewrite app_nth1, nth_tab by (rewrite ?length_tab; lia); reflexivity|].
    rewrite app_nth2, length_tab by (rewrite ?length_tab; lia). destruct (k - 2 * m)%nat as [|[|]]; reflexivity. }
  assert (length x = (n + 1)%nat) as Lx by (unfold x; rewrite !app_length, length_tab; cbn; lia).
  assert (forall k, (k <= n)%nat -> nth k x 0 = - cos (if Nat.eqb k 0 then 0 else if Nat.eqb k n then PI else (INR (2 * k - 1)) * (h / 2))) as nx.
  { intros k Hk. unfold x. destruct (Nat.eqb_spec k 0) as [->|D0]; [cbn; rewrite cos_0; ring|]. destruct k as [|k]; [lia|]. cbn [app nth]. destruct (Nat.eqb_spec (S k) n) as [En|En].
    - rewrite app_nth2, length_tab by (rewrite length_tab; lia). replace (k - m)%nat with 0%nat by lia. cbn. rewrite cos_PI. ring.
    - rewrite app_nth1, nth_tab by (rewrite ?length_tab; lia). f_equal. f_equal. replace (2 * S k - 1)%nat with (2 * k + 1)%nat by lia. rewrite plus_INR, mult_INR. simpl (INR 2). simpl (INR 1). unfold h. field. lra. }
  assert (forall u v w, RInt f u v + RInt f v w = RInt f u w) as Ch by (intros; apply (RInt_Chasles f); apply ex_RInt_cont_all; intro; now apply (poly_cont d)).
  assert (INR (2 * m) * (h / 2) = PI) as E2m by (rewrite mult_INR; simpl (INR 2); rewrite <- Eh; field).
  rewrite !nc, !nx by lia. replace (Nat.eqb (2 * i + 1) 0) with false by (symmetry; apply Nat.eqb_neq; lia). replace (Nat.eqb (i + 1) 0) with false by (symmetry; apply Nat.eqb_neq; lia).
  destruct (Nat.eqb_spec (2 * i) 0) as [E0|E0]; destruct (Nat.eqb_spec i 0) as [Ei|Ei]; try lia.
  - subst i. replace (Nat.ltb (2 * 0 + 1) (2 * m + 1)) with true by (symmetry; apply Nat.ltb_lt; lia). replace (Nat.eqb (0 + 1) n) with false by (symmetry; apply Nat.eqb_neq; lia). rewrite Rplus_0_l. unfold J. cbn [Nat.mul Nat.add Nat.sub INR]. now rewrite Rmult_0_l, Rmult_1_l.
  - replace (Nat.eqb i n) with false by (symmetry; apply Nat.eqb_neq; lia). replace (Nat.ltb (2 * i) (2 * m + 1)) with true by (symmetry; apply Nat.ltb_lt; lia). unfold J. replace (S (2 * i - 1)) with (2 * i)%nat by lia.
    destruct (Nat.eqb_spec (i + 1) n) as [En|En].
    + replace (Nat.ltb (2 * i + 1) (2 * m + 1)) with false by (symmetry; apply Nat.ltb_ge; lia). rewrite Rplus_0_r. replace (2 * i)%nat with (2 * m)%nat at 2 by lia. now rewrite E2m.
    + replace (Nat.ltb (2 * i + 1) (2 * m + 1)) with true by (symmetry; apply Nat.ltb_lt; lia). replace (2 * i + 1 - 1)%nat with (2 * i)%nat by lia. rewrite Ch. now replace (2 * (i + 1) - 1)%nat with (S (2 * i)) by lia.
Qed.
Example C70_instance : trig_degree 3 (fun x => sin (3 * x)) /\ polynomial 2 (fun x => x * x) /\ is_equidistant [0; 1; 2] = Ok true.
Proof.
  split; [apply (td_ext 3 _ (fun t => sin (INR 3 * t + 0))); [intro; f_equal; simpl; ring|apply td_sin_nat; lia]|]. split.
  - exists (fun i => if Nat.eqb i 2 then 1 else 0). intro x. cbn. ring.
  - assert ([0; 1; 2] = points 2 0 1) as -> by (unfold points, tab; cbn; repeat f_equal; ring). now apply equi_points; lia.
Qed.
