(** Tiling, Stokes, adjointness, kernels of the 1D grids (C01-C08). *)
From Coq Require Import ZArith Reals List Lia Lra Arith Ring.
From Coq Require Import ZifyNat.
From Coquelicot Require Import Coquelicot.
From Verif Require Import Model.Num Model.Np Model.Spectral Model.Basis Model.Grids1 Spec.Tiling
  Proofs.ListLemmas Proofs.Sums Proofs.Fourier Proofs.Grids1P Proofs.RIntLemmas.
Import ListNotations.
Local Open Scope R_scope.
Ltac Zify.zify_post_hook ::= Z.div_mod_to_equations.

Definition min_n (k : kind1) : nat := match k with Periodic => 1 | _ => 2 end.

(** the unified description: vertices v, dual vertices m, boundary points t of the dual cells *)
Lemma interval_cells_tab k n a b : k <> Periodic -> (2 <= n)%nat -> a < b ->
  exists v m c, make_cells k n a b = Ok c /\
  v 0%nat = a /\ v (n - 1)%nat = b /\
  (forall j, (j < n - 1)%nat -> v j < m j < v (S j)) /\
  let t := fun i => if Nat.eqb i 0 then a else if Nat.eqb i n then b else m (i - 1)%nat in
  c = MkCells (tab n v) (tab (n - 1) v, tab (n - 1) (fun i => v (S i))) (tab (n - 1) m)
     (tab n t, tab n (fun i => t (S i))) (tab (n - 1) (fun i => v (S i) - v i)) (tab n (fun i => t (S i) - t i)).
Proof.
  intros Hk Hn Hab. destruct k; [congruence| |].
  - destruct (regular_cells_tab n a b Hn Hab) as [c [E Ec]].
    exists (pp (n - 1) a b), (fun i => pp (n-1) a b i + /2 * ((b - a) / INR (n - 1))), c.
    split; [exact E|]. split; [apply pp_0|]. split; [apply pp_n; lia|]. split.
    + intros j Hj. assert (0 < (b - a) / INR (n - 1)) by (apply Rdiv_lt_0_compat; [lra|apply lt_0_INR; lia]).
      pose proof (pp_step (n - 1) a b j). lra.
    + cbv zeta in Ec |- *. rewrite Ec. f_equal. apply tab_ext. intros. now rewrite pp_step.
  - destruct (chebyshev_cells_tab n a b Hn) as [c [E Ec]].
    exists (fun i => pc n a b (2 * i)), (fun i => pc n a b (2 * i + 1)), c.
    split; [exact E|]. split; [apply pc_0|].
    split; [replace (2 * (n - 1))%nat with (2 * n - 2)%nat by lia; now apply pc_n|]. split.
    + intros j Hj. split; apply pc_lt; auto; lia.
    + exact Ec.
Qed.

Ltac nt := repeat (rewrite nth_tab by lia).

(** C01 *)
Lemma cells_primal k n a b : (min_n k <= n)%nat -> a < b ->
  exists c, make_cells k n a b = Ok c /\
    tiles a b (fst (edges c)) (snd (edges c)) /\
    lengths_of (delta_p c) (fst (edges c)) (snd (edges c)) /\
    length (verts c) = grid_N k n 0 true /\
    length (fst (edges c)) = grid_N k n 1 true /\
    (forall j, (j < grid_N k n 1 true)%nat -> nth j (fst (edges c)) 0 = nth j (verts c) 0) /\
    (forall j, (S j < grid_N k n 0 true)%nat -> nth j (snd (edges c)) 0 = nth (S j) (verts c) 0).
Proof.
  intros Hn Hab. destruct k eqn:Ek.
  { simpl in Hn. simpl make_cells. destruct n as [|n']; [lia|]. set (n := S n') in *.
    eexists. split; [reflexivity|]. rewrite periodic_cells_tab by (lia || lra).
    cbv zeta. cbn [edges fst snd delta_p verts grid_N sizes_periodic]. unfold tiles, lengths_of.
    rewrite !length_tab. repeat split; try lia.
    - nt. apply pp_0.
    - nt. replace (S (n - 1)) with n by lia. apply pp_n; lia.
    - intros j Hj. nt. f_equal; lia.
    - intros j Hj. nt. apply pp_lt; try lia; lra.
    - intros j Hj. nt. now rewrite pp_step.
    - unfold sizes_periodic. intros j Hj. now nt. }
  all: simpl in Hn;
    match goal with H : _ = ?kk |- _ => 
    destruct (interval_cells_tab kk n a b ltac:(congruence) Hn Hab) as (v & m & c & E & V0 & Vn & Hm & Ec) end;
    exists c; (split; [exact E|]); rewrite Ec; cbv zeta;
    cbn [edges fst snd delta_p verts grid_N]; unfold tiles, lengths_of, sizes_interval;
    rewrite !length_tab; repeat split; try lia.
  all: try (intros j Hj; nt; try reflexivity; replace (j + 1)%nat with (S j) by lia; try reflexivity; pose proof (Hm j ltac:(lia)); lra).
  all: nt; auto; try (replace (S (n - 1 - 1)) with (n - 1)%nat by lia; auto).
Qed.

(** C02 *)
Lemma dual_bounds n a b v m : (2 <= n)%nat -> v 0%nat = a -> v (n - 1)%nat = b ->
  (forall j, (j < n - 1)%nat -> v j < m j < v (S j)) ->
  let t := fun i => if Nat.eqb i 0 then a else if Nat.eqb i n then b else m (i - 1)%nat in
  forall i, (i < n)%nat -> t i <= v i <= t (S i) /\ (i <> 0%nat -> t i < v i) /\ (i <> (n-1)%nat -> v i < t (S i)).
Proof.
  intros Hn V0 Vn Hm t i Hi. unfold t. simpl (Nat.eqb (S i) 0). cbv iota.
  replace (S i - 1)%nat with i by lia.
  destruct (Nat.eqb_spec i 0) as [E0|E0], (Nat.eqb_spec (S i) n) as [E1|E1], (Nat.eqb_spec i n) as [E2|E2]; try lia.
  - subst i. pose proof (Hm 0%nat ltac:(lia)). repeat split; try lra; congruence.
  - pose proof (Hm (i - 1)%nat ltac:(lia)) as H. replace (S (i - 1)) with i in H by lia.
    replace (n - 1)%nat with i in * by lia. repeat split; try lra; congruence.
  - pose proof (Hm (i - 1)%nat ltac:(lia)) as H. replace (S (i - 1)) with i in H by lia.
    pose proof (Hm i ltac:(lia)). repeat split; lra.
Qed.

Lemma cells_dual_interval k n a b : k <> Periodic -> (2 <= n)%nat -> a < b ->
  exists c, make_cells k n a b = Ok c /\
    tiles a b (fst (edges_dual c)) (snd (edges_dual c)) /\
    lengths_of (delta_d c) (fst (edges_dual c)) (snd (edges_dual c)) /\
    length (verts_dual c) = grid_N k n 0 false /\
    length (fst (edges_dual c)) = grid_N k n 1 false /\
    (forall i, (i < n)%nat -> nth i (fst (edges_dual c)) 0 <= nth i (verts c) 0 <= nth i (snd (edges_dual c)) 0) /\
    (forall i, (0 < i < n - 1)%nat -> nth i (fst (edges_dual c)) 0 < nth i (verts c) 0 < nth i (snd (edges_dual c)) 0) /\
    (forall j, (j < n - 1)%nat -> nth j (fst (edges c)) 0 < nth j (verts_dual c) 0 < nth j (snd (edges c)) 0).
Proof.
  intros Hk Hn Hab. destruct (interval_cells_tab k n a b Hk Hn Hab) as (v & m & c & E & V0 & Vn & Hm & Ec).
  exists c. split; [exact E|]. cbv zeta in Ec.
  pose proof (dual_bounds n a b v m Hn V0 Vn Hm) as B. cbv zeta in B.
  set (t := fun i => if Nat.eqb i 0 then a else if Nat.eqb i n then b else m (i - 1)%nat) in *.
  rewrite Ec. cbn [edges edges_dual fst snd delta_d verts verts_dual]. unfold tiles, lengths_of. rewrite !length_tab.
  change (fun i => if Nat.eqb i 0 then a else if Nat.eqb i n then b else m (i - 1)%nat) with t.
  assert (grid_N k n 0 false = (n - 1)%nat /\ grid_N k n 1 false = n) as [G0 G1] by (destruct k; [congruence|split; reflexivity..]).
  rewrite G0, G1. repeat split; try lia.
  - now nt.
  - nt. unfold t. destruct (Nat.eqb_spec (S (n - 1)) 0); [lia|]. destruct (Nat.eqb_spec (S (n - 1)) n); [reflexivity|lia].
  - intros j Hj. nt. f_equal. lia.
  - intros j Hj. nt. destruct (B j ltac:(lia)) as (B1 & B2 & B3).
    destruct (Nat.eq_dec j 0); [specialize (B3 ltac:(lia))|specialize (B2 ltac:(lia))]; lra.
  - intros j Hj. now nt.
  - nt. apply B; lia.
  - nt. apply B; lia.
  - nt. apply B; lia.
  - nt. apply B; lia.
  - nt. apply Hm; lia.
  - nt. apply Hm; lia.
Qed.

Lemma cells_dual_periodic n a b : (1 <= n)%nat -> a < b ->
  exists c, make_cells Periodic n a b = Ok c /\
    tiles (a - (b - a) / INR n / 2) (b - (b - a) / INR n / 2) (fst (edges_dual c)) (snd (edges_dual c)) /\
    lengths_of (delta_d c) (fst (edges_dual c)) (snd (edges_dual c)) /\
    length (verts_dual c) = n /\ length (fst (edges_dual c)) = n /\
    (forall i, (i < n)%nat -> nth i (verts c) 0 = (nth i (fst (edges_dual c)) 0 + nth i (snd (edges_dual c)) 0) / 2) /\
    (forall j, (j < n)%nat -> nth j (verts_dual c) 0 = (nth j (fst (edges c)) 0 + nth j (snd (edges c)) 0) / 2).
Proof.
  intros Hn Hab. simpl make_cells. destruct n as [|n']; [lia|]. set (n := S n') in *.
  eexists. split; [reflexivity|]. rewrite periodic_cells_tab by (lia || lra).
  cbv zeta. cbn [edges edges_dual fst snd delta_d verts verts_dual]. unfold tiles, lengths_of. rewrite !length_tab.
  assert (INR n <> 0) by (apply INR_neq0; lia).
  assert (0 < (b - a) / INR n) by (apply Rdiv_lt_0_compat; [lra|apply lt_0_INR; lia]).
  repeat split; try lia.
  - nt. rewrite pp_0. field; auto.
  - nt. replace (pp n a b (n - 1)) with (b - (b - a) / INR n); [field; auto|].
    pose proof (pp_step n a b (n - 1)) as S. replace (Datatypes.S (n - 1)) with n in S by lia.
    rewrite pp_n in S by lia. lra.
  - intros j Hj. nt. pose proof (pp_step n a b j) as S. replace (j + 1)%nat with (Datatypes.S j) by lia. lra.
  - intros j Hj. nt. lra.
  - intros j Hj. nt. lra.
  - intros j Hj. nt. lra.
  - intros j Hj. nt. pose proof (pp_step n a b j). lra.
Qed.

(** C03 *)
Lemma weave_increasing (u w : list R) :
  (length w <= length u <= length w + 1)%nat ->
  (forall j, (j < length w)%nat -> nth j u 0 < nth j w 0) ->
  (forall j, (S j < length u)%nat -> nth j w 0 < nth (S j) u 0) -> increasing (weave u w).
Proof.
  intros L H1 H2.
  assert (forall i, (S i < length (weave u w))%nat -> nth i (weave u w) 0 < nth (S i) (weave u w) 0) as St.
  { intros i Hi. rewrite length_weave in Hi by auto. destruct (Nat.even i) eqn:E.
    - apply Nat.even_spec in E. destruct E as [q ->]. replace (S (2 * q)) with (2 * q + 1)%nat by lia.
      rewrite nth_weave_even, nth_weave_odd by auto. apply H1. lia.
    - assert (Nat.odd i = true) as O by (unfold Nat.odd; now rewrite E). apply Nat.odd_spec in O. destruct O as [q ->].
      replace (S (2 * q + 1)) with (2 * (S q))%nat by lia.
      rewrite nth_weave_even, nth_weave_odd by auto. apply H2. lia. }
  intros i j [Hij Hj]. induction j as [|j IH]; [lia|].
  destruct (Nat.eq_dec i j) as [->|E]; [now apply St|].
  apply Rlt_trans with (nth j (weave u w) 0); [apply IH; lia|]. now apply St.
Qed.

Lemma points_ok k n a b : (min_n k <= n)%nat -> a < b ->
  exists c p, make_cells k n a b = Ok c /\ points c = Ok p /\
    length p = (grid_N k n 0 true + grid_N k n 0 false)%nat /\
    (forall i, (i < grid_N k n 0 true)%nat -> nth (2 * i) p 0 = nth i (verts c) 0) /\
    (forall i, (i < grid_N k n 0 false)%nat -> nth (2 * i + 1) p 0 = nth i (verts_dual c) 0) /\
    increasing p.
Proof.
  intros Hn Hab.
  assert (exists c, make_cells k n a b = Ok c /\ length (verts c) = grid_N k n 0 true /\
     length (verts_dual c) = grid_N k n 0 false /\
     (length (verts_dual c) <= length (verts c) <= length (verts_dual c) + 1)%nat /\
     (forall j, (j < length (verts_dual c))%nat -> nth j (verts c) 0 < nth j (verts_dual c) 0) /\
     (forall j, (S j < length (verts c))%nat -> nth j (verts_dual c) 0 < nth (S j) (verts c) 0)) as (c & E & L1 & L2 & L & I1 & I2).
  { destruct k eqn:Ek.
    - simpl in Hn. destruct n as [|n']; [lia|]. eexists. split; [reflexivity|]. rewrite periodic_cells_tab by (lia || lra).
      cbv zeta. cbn [verts verts_dual grid_N sizes_periodic]. rewrite !length_tab. repeat split; try lia; intros j Hj; nt.
      + assert (0 < (b - a) / INR (S n')) by (apply Rdiv_lt_0_compat; [lra|apply lt_0_INR; lia]). lra.
      + assert (0 < (b - a) / INR (S n')) by (apply Rdiv_lt_0_compat; [lra|apply lt_0_INR; lia]).
        pose proof (pp_step (S n') a b j). lra.
    - destruct (interval_cells_tab Regular n a b ltac:(congruence) Hn Hab) as (v & m & c & E & V0 & Vn & Hm & Ec).
      exists c. split; [exact E|]. rewrite Ec. cbv zeta. cbn [verts verts_dual grid_N sizes_interval]. simpl in Hn. rewrite !length_tab.
      repeat split; try lia; intros j Hj; nt; apply Hm; lia.
    - destruct (interval_cells_tab Chebyshev n a b ltac:(congruence) Hn Hab) as (v & m & c & E & V0 & Vn & Hm & Ec).
      exists c. split; [exact E|]. rewrite Ec. cbv zeta. cbn [verts verts_dual grid_N sizes_interval]. simpl in Hn. rewrite !length_tab.
      repeat split; try lia; intros j Hj; nt; apply Hm; lia. }
  exists c, (weave (verts c) (verts_dual c)). split; [exact E|]. split.
  { unfold points. replace (length (verts c) + length (verts_dual c) + 1)%nat with (length (verts c) + length (verts_dual c) + 1)%nat by lia.
    destruct (Nat.eqb_spec (length (verts c)) ((length (verts c) + length (verts_dual c) + 1) / 2)); [|lia].
    destruct (Nat.eqb_spec (length (verts_dual c)) ((length (verts c) + length (verts_dual c)) / 2)); [|lia]. reflexivity. }
  split; [rewrite length_weave by lia; lia|]. split; [|split].
  - intros i _. now rewrite nth_weave_even.
  - intros i _. now rewrite nth_weave_odd.
  - now apply weave_increasing.
Qed.

(** C04, C05: Stokes *)
Lemma ftc (f f' : R -> R) x y : x <= y ->
  (forall t, x <= t <= y -> is_derive f t (f' t)) -> (forall t, x <= t <= y -> continuous f' t) ->
  RInt f' x y = f y - f x.
Proof.
  intros Hxy Hd Hc. apply is_RInt_unique. apply (is_RInt_derive f f'); intros t Ht;
  rewrite Rmin_left, Rmax_right in Ht by auto; auto.
Qed.

Lemma roll_m1_tab {A} n (v : nat -> A) : (0 < n)%nat -> roll (-1) (tab n v) = tab n (fun i => v (if Nat.eqb (i + 1) n then 0 else i + 1)%nat).
Proof.
  intro Hn. apply list_eq_nth with (d := v 0%nat); [now len|].
  intros i Hi. rewrite length_roll, length_tab in Hi. rewrite nth_roll_m1 by (now len). len.
  rewrite !nth_tab; auto. destruct (Nat.eqb_spec (i+1) n); lia.
Qed.
Lemma roll_1_tab {A} n (v : nat -> A) : (0 < n)%nat -> roll 1 (tab n v) = tab n (fun i => v (if Nat.eqb i 0 then n - 1 else i - 1)%nat).
Proof.
  intro Hn. apply list_eq_nth with (d := v 0%nat); [now len|].
  intros i Hi. rewrite length_roll, length_tab in Hi. rewrite nth_roll_1 by (now len). len.
  rewrite !nth_tab; auto. destruct (Nat.eqb_spec i 0); lia.
Qed.

Lemma mono_in n v a b : v 0%nat = a -> v (n - 1)%nat = b -> (forall j, (j < n - 1)%nat -> v j < v (S j)) ->
  forall i, (i < n)%nat -> a <= v i <= b.
Proof.
  intros V0 Vn Hs i Hi. split.
  - induction i as [|i IH]; [lra|]. pose proof (Hs i ltac:(lia)). specialize (IH ltac:(lia)). lra.
  - assert (forall d, (d <= n - 1)%nat -> v (n - 1 - d)%nat <= b) as Hd.
    { induction d as [|d IH]; intro Hd; [rewrite Nat.sub_0_r; lra|].
      pose proof (Hs (n - 1 - S d)%nat ltac:(lia)) as H. replace (S (n - 1 - S d)) with (n - 1 - d)%nat in H by lia.
      specialize (IH ltac:(lia)). lra. }
    specialize (Hd (n - 1 - i)%nat ltac:(lia)). replace (n - 1 - (n - 1 - i))%nat with i in Hd by lia. exact Hd.
Qed.

Lemma stokes_primal k n a b c f f' : (min_n k <= n)%nat -> a < b -> make_cells k n a b = Ok c ->
  (forall x, a <= x <= b -> is_derive f x (f' x)) -> (forall x, a <= x <= b -> continuous f' x) ->
  (k = Periodic -> f b = f a) -> grid_D0 k (P0 c f) = P1 c f'.
Proof.
  intros Hn Hab Ec Hd Hc Hp. destruct k eqn:Ek.
  { simpl in Hn. simpl in Ec. destruct n as [|n']; [lia|]. set (n := S n') in *. injection Ec as Ec. subst c.
    rewrite periodic_cells_tab by (lia || lra). cbv zeta. unfold P0, P1, proj0, proj1. cbn [edges fst snd verts grid_D0].
    rewrite map_tab, zipw_tab. unfold D0_periodic. rewrite roll_m1_tab by lia. unfold vsub. rewrite zipw_tab.
    apply tab_ext. intros i Hi.
    assert (pp n a b i < pp n a b (S i)) by (apply pp_lt; (lia || lra)).
    assert (forall j, (j <= n)%nat -> a <= pp n a b j <= b) as B.
    { intros j Hj. split.
      - destruct j; [rewrite pp_0; lra|]. left. rewrite <- (pp_0 n a b) at 1. apply pp_lt; (lia || lra).
      - destruct (Nat.eq_dec j n) as [->|E]; [rewrite pp_n by lia; lra|]. left. rewrite <- (pp_n n a b) at 2 by lia. apply pp_lt; (lia || lra). }
    rewrite (ftc f f') by (try lra; intros t Ht; (apply Hd || apply Hc); pose proof (B i ltac:(lia)); pose proof (B (S i) ltac:(lia)); lra).
    simpl. f_equal. destruct (Nat.eqb_spec (i + 1) n) as [E|E].
    - rewrite pp_0. replace (S i) with n by lia. rewrite pp_n by lia. symmetry. auto.
    - do 2 f_equal. lia. }
  all: match goal with H : _ = ?kk |- _ => 
    destruct (interval_cells_tab kk n a b ltac:(congruence) Hn Hab) as (v & m & c' & E & V0 & Vn & Hm & Ec') end;
    rewrite Ec in E; injection E as <-; rewrite Ec'; cbv zeta; simpl in Hn;
    unfold P0, P1, proj0, proj1; cbn [edges fst snd verts grid_D0]; unfold D0_interval;
    rewrite map_tab, zipw_tab; replace n with (S (n - 1)) at 1 by lia; rewrite diff_tab; apply tab_ext; intros i Hi;
    assert (forall j, (j < n)%nat -> a <= v j <= b) as B by
     (apply (mono_in n v a b V0 Vn); intros j Hj; pose proof (Hm j Hj); lra);
    pose proof (Hm i ltac:(lia)); pose proof (B i ltac:(lia)); pose proof (B (S i) ltac:(lia));
    symmetry; apply ftc; [lra|intros; apply Hd; lra|intros; apply Hc; lra].
Qed.

Lemma stokes_dual_interval k n a b c f f' : k <> Periodic -> (2 <= n)%nat -> a < b -> make_cells k n a b = Ok c ->
  (forall x, a <= x <= b -> is_derive f x (f' x)) -> (forall x, a <= x <= b -> continuous f' x) ->
  exists bc, boundary_condition n a b f = Ok bc /\ vadd (grid_D0d k (P0d c f)) bc = P1d c f'.
Proof.
  intros Hk Hn Hab Ec Hd Hc.
  destruct (interval_cells_tab k n a b Hk Hn Hab) as (v & m & c' & E & V0 & Vn & Hm & Ec').
  rewrite Ec in E. injection E as <-. cbv zeta in Ec'.
  pose proof (dual_bounds n a b v m Hn V0 Vn Hm) as B. cbv zeta in B.
  set (t := fun i => if Nat.eqb i 0 then a else if Nat.eqb i n then b else m (i - 1)%nat) in *.
  assert (boundary_condition n a b f = Ok (tab n (fun i => if Nat.eqb i 0 then - f a else if Nat.eqb i (n - 1) then f b else 0))) as Eb.
  { destruct n as [|[|n]]; [lia|lia|]. unfold boundary_condition. f_equal.
    apply list_eq_nth with (d := 0).
    - rewrite !app_length, length_tab. unfold zeros. rewrite repeat_length. simpl. lia.
    - intros i Hi. rewrite !app_length in Hi. unfold zeros in *. rewrite repeat_length in Hi. simpl length in Hi.
      rewrite nth_tab by lia. destruct i as [|i]; [reflexivity|]. simpl (Nat.eqb (S i) 0). cbv iota. simpl app. simpl nth.
      destruct (Nat.eqb_spec (S i) (S (S n) - 1)) as [E1|E1].
      + rewrite app_nth2 by (rewrite repeat_length; lia). rewrite repeat_length. replace (i - n)%nat with 0%nat by lia. reflexivity.
      + rewrite app_nth1 by (rewrite repeat_length; lia). apply nth_repeat. }
  eexists. split; [exact Eb|].
  replace (grid_D0d k (P0d c f)) with (D0d_interval (P0d c f)) by (destruct k; [congruence|reflexivity..]).
  rewrite Ec'. unfold P0d, P1d, proj0, proj1. cbn [edges_dual fst snd verts_dual].
  change (fun i => if Nat.eqb i 0 then a else if Nat.eqb i n then b else m (i - 1)%nat) with t.
  unfold D0d_interval. rewrite map_tab, zipw_tab, bracket_tab. replace (S (S (n - 1))) with (S n) by lia.
  rewrite diff_tab, vadd_tab. apply tab_ext. intros i Hi.
  assert (forall j, (j < n)%nat -> a <= v j <= b) as Bv by
     (apply (mono_in n v a b V0 Vn); intros j Hj; pose proof (Hm j Hj); lra).
  assert (forall j, (j <= n)%nat -> a <= t j <= b) as Bt.
  { intros j Hj. unfold t. destruct (Nat.eqb_spec j 0); [lra|]. destruct (Nat.eqb_spec j n); [lra|].
    pose proof (Hm (j - 1)%nat ltac:(lia)). pose proof (Bv (j - 1)%nat ltac:(lia)). pose proof (Bv (S (j - 1)) ltac:(lia)). lra. }
  destruct (B i Hi) as [B1 _]. pose proof (Bt i ltac:(lia)). pose proof (Bt (S i) ltac:(lia)).
  rewrite (ftc f f') by (try lra; intros; (apply Hd || apply Hc); lra).
  unfold t. simpl (Nat.eqb (S i) 0). cbv iota. replace (S i - 1)%nat with i by lia.
  destruct (Nat.eqb_spec i 0), (Nat.eqb_spec i (S (n - 1))), (Nat.eqb_spec (S i) n), (Nat.eqb_spec i n), (Nat.eqb_spec i (n - 1)), (Nat.eqb_spec (S i) (S (n - 1))); 
    try lia; simpl; ring.
Qed.

Lemma stokes_dual_periodic n a b c f f' : (1 <= n)%nat -> a < b -> make_cells Periodic n a b = Ok c ->
  (forall x, f (x + (b - a)) = f x) ->
  (forall x, is_derive f x (f' x)) -> (forall x, continuous f' x) ->
  grid_D0d Periodic (P0d c f) = P1d c f'.
Proof.
  intros Hn Hab Ec Hp Hd Hc. simpl in Ec. destruct n as [|n']; [lia|]. set (n := S n') in *. injection Ec as Ec. subst c.
  rewrite periodic_cells_tab by (lia || lra). cbv zeta. unfold P0d, P1d, proj0, proj1. cbn [edges_dual fst snd verts_dual grid_D0d].
  rewrite map_tab, zipw_tab. unfold D0d_periodic, D0_periodic. rewrite roll_m1_tab by lia. unfold vsub. rewrite zipw_tab.
  rewrite roll_1_tab by lia. apply tab_ext. intros i Hi.
  assert (0 < (b - a) / INR n) by (apply Rdiv_lt_0_compat; [lra|apply lt_0_INR; lia]).
  rewrite (ftc f f') by (auto; lra). unfold nsub, NumR.
  pose proof (pp_n n a b ltac:(lia)) as Pn.
  destruct (Nat.eqb_spec i 0) as [->|E].
  - destruct (Nat.eqb_spec (n - 1 + 1) n); [|lia]. f_equal.
    rewrite <- (Hp (pp n a b 0 - /2 * ((b - a) / INR n))). f_equal.
    pose proof (pp_step n a b (n - 1)) as St. replace (S (n - 1)) with n in St by lia. rewrite pp_0. lra.
  - destruct (Nat.eqb_spec (i - 1 + 1) n); [lia|]. replace (i - 1 + 1)%nat with i by lia. f_equal. f_equal.
    pose proof (pp_step n a b (i - 1)) as St. replace (S (i - 1)) with i in St by lia. lra.
Qed.
