(** Cells of the 1D grids. *)
From Coq Require Import ZArith Reals List Lia Lra Arith.
From Coq Require Import ZifyNat.
From Coquelicot Require Import Coquelicot.
From Verif Require Import Model.Num Model.Np Model.Spectral Model.Basis Model.Grids1 Spec.Tiling
  Proofs.ListLemmas Proofs.Sums Proofs.Fourier.
Import ListNotations.
Local Open Scope R_scope.
Ltac Zify.zify_post_hook ::= Z.div_mod_to_equations.

Lemma init_tab {A} n (f : nat -> A) : init (tab (S n) f) = tab n f.
Proof.
  apply list_eq_nth with (d := f 0%nat); unfold init; [len; lia|].
  len. intros i Hi. rewrite nth_removelast by (len; lia). rewrite !nth_tab by lia. reflexivity.
Qed.
Lemma tl_tab {A} n (f : nat -> A) : tl (tab (S n) f) = tab n (fun i => f (S i)).
Proof.
  apply list_eq_nth with (d := f 0%nat); [len; lia|].
  len. intros i Hi. rewrite nth_tl. rewrite !nth_tab by lia. reflexivity.
Qed.
Lemma diff_tab n (f : nat -> R) : diff (tab (S n) f) = tab n (fun i => f (S i) - f i).
Proof.
  unfold diff. rewrite tl_tab. apply list_eq_nth with (d := 0); unfold vsub; [len; lia|].
  len. intros i Hi. rewrite nth_zipw with (dx := 0) (dy := 0) by (len; lia). rewrite !nth_tab by lia. reflexivity.
Qed.
Lemma vadd_tab n (f g : nat -> R) : vadd (tab n f) (tab n g) = tab n (fun i => f i + g i).
Proof. unfold vadd. now rewrite zipw_tab. Qed.
Lemma evens_tab {A} n (f : nat -> A) : evens (tab n f) = tab ((n + 1) / 2) (fun i => f (2 * i)%nat).
Proof.
  apply list_eq_nth with (d := f 0%nat); [len; lia|]. len. intros i Hi.
  rewrite nth_evens. rewrite !nth_tab by lia. reflexivity.
Qed.
Lemma odds_tab {A} n (f : nat -> A) : odds (tab n f) = tab (n / 2) (fun i => f (2 * i + 1)%nat).
Proof.
  apply list_eq_nth with (d := f 0%nat); [len; lia|]. len. intros i Hi.
  rewrite nth_odds. rewrite !nth_tab by lia. reflexivity.
Qed.
Lemma cons_tab {A} (a : A) n f : a :: tab n f = tab (S n) (fun i => match i with O => a | S k => f k end).
Proof. unfold tab. simpl. f_equal. rewrite <- seq_shift, map_map. reflexivity. Qed.
Lemma snoc_tab {A} (a : A) n f : tab n f ++ [a] = tab (S n) (fun i => if Nat.eqb i n then a else f i).
Proof.
  apply list_eq_nth with (d := a); [len; lia|]. intros i Hi. len. rewrite nth_tab by lia.
  destruct (Nat.eqb_spec i n) as [->|E].
  - rewrite app_nth2 by (len; lia). len. now rewrite Nat.sub_diag.
  - rewrite app_nth1 by (len; lia). rewrite nth_tab by lia. reflexivity.
Qed.
Lemma bracket_tab {A} (a b : A) n f :
  [a] ++ tab n f ++ [b] = tab (S (S n)) (fun i => if Nat.eqb i 0 then a else if Nat.eqb i (S n) then b else f (i - 1)%nat).
Proof.
  rewrite snoc_tab. simpl app. rewrite cons_tab. apply tab_ext. intros [|i] Hi; [reflexivity|].
  simpl (Nat.eqb (S i) 0). cbv iota. simpl (Nat.eqb (S i) (S n)).
  replace (S i - 1)%nat with i by lia. reflexivity.
Qed.

(** the points of the three grids *)
Definition pp (n : nat) (a b : R) (i : nat) : R := a + INR i * ((b - a) / INR n).
Definition pc (n : nat) (a b : R) (i : nat) : R :=
  let s := sin (- PI / 2 + INR i * ((PI / 2 - - PI / 2) / INR (2 * n - 2))) in
  /2 * (a * (1 - s) + b * (1 + s)).

Lemma linspace_tab a b n : linspace a b (S (S n)) = tab (S (S n)) (pp (S n) a b).
Proof. reflexivity. Qed.

Lemma pp_0 n a b : pp n a b 0 = a. Proof. unfold pp; simpl; ring. Qed.
Lemma pp_n n a b : (0 < n)%nat -> pp n a b n = b.
Proof. intro. unfold pp. field. now apply INR_neq0. Qed.
Lemma pp_step n a b i : pp n a b (S i) - pp n a b i = (b - a) / INR n.
Proof. unfold pp. rewrite S_INR. ring. Qed.
Lemma pp_lt n a b i j : (0 < n)%nat -> a < b -> (i < j)%nat -> pp n a b i < pp n a b j.
Proof.
  intros Hn Hab Hij. unfold pp. apply Rplus_lt_compat_l. apply Rmult_lt_compat_r.
  - apply Rdiv_lt_0_compat; [lra|]. apply lt_0_INR; lia.
  - now apply lt_INR.
Qed.

Lemma pc_sin_lt n i j : (2 <= n)%nat -> (i < j)%nat -> (j <= 2 * n - 2)%nat ->
  sin (- PI / 2 + INR i * ((PI / 2 - - PI / 2) / INR (2 * n - 2))) <
  sin (- PI / 2 + INR j * ((PI / 2 - - PI / 2) / INR (2 * n - 2))).
Proof.
  intros Hn Hij Hj. pose proof PI_RGT_0 as HP.
  assert (0 < INR (2 * n - 2)) as HM by (apply lt_0_INR; lia).
  assert (0 < (PI/2 - - PI/2) / INR (2 * n - 2)) as Hq by (apply Rdiv_lt_0_compat; lra).
  assert (forall k, (k <= 2 * n - 2)%nat -> 0 <= INR k * ((PI/2 - - PI/2) / INR (2 * n - 2)) <= PI) as B.
  { intros k Hk. split; [apply Rmult_le_pos; [apply pos_INR|lra]|].
    apply Rle_trans with (INR (2 * n - 2) * ((PI/2 - - PI/2) / INR (2 * n - 2))).
    - apply Rmult_le_compat_r; [lra|]. apply le_INR. lia.
    - right. field. lra. }
  pose proof (B i ltac:(lia)). pose proof (B j ltac:(lia)).
  assert (INR i * ((PI/2 - - PI/2) / INR (2 * n - 2)) < INR j * ((PI/2 - - PI/2) / INR (2 * n - 2))).
  { apply Rmult_lt_compat_r; [lra|]. now apply lt_INR. }
  apply sin_increasing_1; lra.
Qed.
Lemma pc_lt n a b i j : (2 <= n)%nat -> a < b -> (i < j)%nat -> (j <= 2 * n - 2)%nat -> pc n a b i < pc n a b j.
Proof.
  intros Hn Hab Hij Hj. unfold pc. pose proof (pc_sin_lt n i j Hn Hij Hj) as H.
  set (s := sin _) in *. set (t := sin (- PI/2 + INR j * _)) in *.
  apply Rmult_lt_compat_l; [lra|].
  assert (0 < (b - a) * (t - s)) by (apply Rmult_lt_0_compat; lra). lra.
Qed.
Lemma pc_0 n a b : pc n a b 0 = a.
Proof.
  unfold pc. simpl (INR 0). rewrite Rmult_0_l, Rplus_0_r.
  replace (- PI / 2) with (- (PI / 2)) by field. rewrite sin_neg, sin_PI2. field.
Qed.
Lemma pc_n n a b : (2 <= n)%nat -> pc n a b (2 * n - 2) = b.
Proof.
  intro Hn. unfold pc. assert (INR (2 * n - 2) <> 0) by (apply INR_neq0; lia).
  replace (- PI / 2 + INR (2 * n - 2) * ((PI / 2 - - PI / 2) / INR (2 * n - 2))) with (PI/2) by (field; auto).
  rewrite sin_PI2. field.
Qed.

(** tab forms of the cells *)
Lemma periodic_cells_tab n a b : (0 < n)%nat -> a <= b ->
  periodic_cells n a b =
  let p := pp n a b in let h := (b - a) / INR n in
  let m := fun i => p i + /2 * h in
  MkCells (tab n p) (tab n p, tab n (fun i => p (S i))) (tab n m)
    (tab n (fun i => p i - /2 * h), tab n m) (tab n (fun _ => h)) (tab n (fun _ => h)).
Proof.
  intros Hn Hab. destruct n as [|n]; [lia|]. unfold periodic_cells.
  replace (S n + 1)%nat with (S (S n)) by lia. rewrite linspace_tab, init_tab, tl_tab, diff_tab.
  rewrite (tab_ext (S n) (fun i => pp (S n) a b (S i) - pp (S n) a b i) (fun _ => (b - a) / INR (S n)))
    by (intros; apply pp_step).
  rewrite map_tab, vadd_tab. cbv zeta. f_equal. f_equal.
  set (h := (b - a) / INR (S n)). set (p := pp (S n) a b).
  apply list_eq_nth with (d := 0).
  - assert (forall c l, length (sub_first c l) = length l) as Ls by (intros c [|? l]; reflexivity).
    rewrite Ls, length_roll, !length_tab. reflexivity.
  - intros i Hi.
    assert (forall c l, length (sub_first c l) = length l) as Ls by (intros c [|? l]; reflexivity).
    assert (forall c l i, nth i (sub_first c l) 0 = if (Nat.eqb i 0 && Nat.ltb 0 (length l))%bool then nth i l 0 - c else nth i l 0) as Ns.
    { intros c [|x l] [|k]; reflexivity. }
    rewrite Ls, length_roll in Hi. len. rewrite Ns, length_roll, length_tab. rewrite nth_tab by auto.
    rewrite nth_roll_1 by (len; auto). len.
    destruct (Nat.eqb_spec i 0) as [->|E].
    + simpl (andb _ _). cbv iota. rewrite nth_tab by lia.
      rewrite Rabs_pos_eq by lra. unfold p, pp, h. replace (S n - 1)%nat with n by lia. rewrite S_INR.
      assert (INR n + 1 <> 0) by (rewrite <- S_INR; apply INR_neq0; lia). change (0 <? S n) with true. cbv iota. change (INR 0) with 0. field. auto.
    + simpl (andb _ _). cbv iota. rewrite nth_tab by lia. unfold p, pp, h.
      rewrite minus_INR by lia. simpl (INR 1). field. apply INR_neq0. lia.
Qed.

Lemma regular_cells_tab n a b : (2 <= n)%nat -> a < b ->
  exists c, regular_cells n a b = Ok c /\
  let h := (b - a) / INR (n - 1) in
  let p := pp (n - 1) a b in
  let m := fun i => p i + /2 * h in
  let t := fun i => if Nat.eqb i 0 then a else if Nat.eqb i n then b else m (i - 1)%nat in
  c = MkCells (tab n p) (tab (n - 1) p, tab (n - 1) (fun i => p (S i))) (tab (n - 1) m)
     (tab n t, tab n (fun i => t (S i))) (tab (n - 1) (fun _ => h)) (tab n (fun i => t (S i) - t i)).
Proof.
  intros Hn Hab. destruct n as [|[|n]]; [lia|lia|]. unfold regular_cells.
  destruct (Rlt_dec a b); [|contradiction]. eexists. split; [reflexivity|].
  cbv zeta. replace (S (S n) - 1)%nat with (S n) by lia.
  rewrite linspace_tab, init_tab, tl_tab, diff_tab.
  rewrite (tab_ext (S n) (fun i => pp (S n) a b (S i) - pp (S n) a b i) (fun _ => (b - a) / INR (S n)))
    by (intros; apply pp_step).
  rewrite map_tab, vadd_tab, bracket_tab, init_tab, tl_tab, diff_tab. reflexivity.
Qed.

Lemma chebyshev_cells_tab n a b : (2 <= n)%nat ->
  exists c, chebyshev_cells n a b = Ok c /\
  let p := pc n a b in
  let t := fun i => if Nat.eqb i 0 then a else if Nat.eqb i n then b else p (2 * (i - 1) + 1)%nat in
  c = MkCells (tab n (fun i => p (2 * i)%nat))
     (tab (n - 1) (fun i => p (2 * i)%nat), tab (n - 1) (fun i => p (2 * S i)%nat))
     (tab (n - 1) (fun i => p (2 * i + 1)%nat))
     (tab n t, tab n (fun i => t (S i)))
     (tab (n - 1) (fun i => p (2 * S i)%nat - p (2 * i)%nat)) (tab n (fun i => t (S i) - t i)).
Proof.
  intros Hn. destruct n as [|[|n]]; [lia|lia|]. unfold chebyshev_cells.
  eexists. split; [reflexivity|]. cbv zeta.
  replace (2 * S (S n) - 1)%nat with (S (S (2 * n + 1))) by lia.
  rewrite linspace_tab. rewrite !map_tab.
  assert (forall i, (fun i => / 2 * (a * (1 - sin (pp (S (2 * n + 1)) (- PI / 2) (PI / 2) i)) + b * (1 + sin (pp (S (2 * n + 1)) (- PI / 2) (PI / 2) i)))) i
     = pc (S (S n)) a b i) as Ep.
  { intro i. unfold pc, pp. replace (2 * S (S n) - 2)%nat with (S (2 * n + 1)) by lia. reflexivity. }
  rewrite (tab_ext _ _ (pc (S (S n)) a b)) by (intros; apply Ep).
  set (p := pc (S (S n)) a b).
  rewrite evens_tab, odds_tab.
  replace ((S (S (2 * n + 1)) + 1) / 2)%nat with (S (S n)) by lia.
  replace (S (S (2 * n + 1)) / 2)%nat with (S n) by lia.
  replace (S (S n) - 1)%nat with (S n) by lia.
  rewrite init_tab, tl_tab, diff_tab.
  replace (hd 0 (tab (S (S (2 * n + 1))) p)) with a.
  2:{ rewrite nth_hd, nth_tab by lia. unfold p. now rewrite pc_0. }
  replace (last (tab (S (S (2 * n + 1))) p) 0) with b.
  2:{ rewrite nth_last. len. rewrite nth_tab by lia. unfold p.
      replace (S (S (2 * n + 1)) - 1)%nat with (2 * S (S n) - 2)%nat by lia. now rewrite pc_n by lia. }
  rewrite bracket_tab, init_tab, tl_tab, diff_tab. reflexivity.
Qed.
