(** C63: the Schur complement solver of dec/schur.py. *)
From Coq Require Import ZArith Reals List Lia Lra Arith Bool.
From Verif Require Import Model.Sym.
From Coquelicot Require Import Coquelicot.
From Verif Require Import Model.Num Model.Np Model.Grid2 Model.Common Model.Helper
  Proofs.ListLemmas Proofs.Sums Proofs.RingSums Proofs.Lin Proofs.LinAlg Proofs.Arr2 Props.Helper.
Import ListNotations.
Local Open Scope R_scope.

Definition plus_v (x y : list R) : list R := zipw Rplus x y.
Definition minus_v (x y : list R) : list R := zipw Rminus x y.
(** M is an array of shape (r, c) *)
Definition is_mat (M : arr R) (r c : nat) : Prop := nr M = r /\ nc M = c /\ length (dat M) = (r * c)%nat.
(** Ainv is the inverse of the n x n matrix A, as a function *)
Definition inverts (Ainv : list R -> list R) (A : arr R) (n : nat) : Prop :=
  forall x, length x = n -> length (Ainv x) = n /\ mvR A (Ainv x) = x /\ Ainv (mvR A x) = x.
(** (x, l) solves [[A, B], [C, D]] (x, l) = (f, g) *)
Definition solves (A B C D : arr R) (n m : nat) (f g x l : list R) : Prop :=
  length x = n /\ length l = m /\ plus_v (mvR A x) (mvR B l) = f /\ plus_v (mvR C x) (mvR D l) = g.
(** the block matrix is invertible: every right-hand side has exactly one solution *)
Definition block_invertible (A B C D : arr R) (n m : nat) : Prop :=
  forall f g, length f = n -> length g = m ->
  (exists x l, solves A B C D n m f g x l) /\
  (forall x l x' l', solves A B C D n m f g x l -> solves A B C D n m f g x' l' -> x = x' /\ l = l').
(** what numpy.linalg.inv does with the m x m matrix M: it returns the inverse, or raises LinAlgError if there is none *)
Definition inv_contract (inv : arr R -> res (arr R)) (M : arr R) (m : nat) : Prop :=
  match inv M with
  | Ok T => is_mat T m m /\ forall y, length y = m -> mvR M (mvR T y) = y
  | Err e => e = LinAlgError /\ ~ (forall y, length y = m -> exists l, length l = m /\ mvR M l = y)
  end.
(** the Schur complement C A^-1 B - D *)
Definition complement (Ainv : list R -> list R) (B C D : arr R) (m : nat) : arr R :=
  mk2 m m (fun i j => nth i (mvR C (Ainv (col B j))) 0 - at2 D i j).

Lemma mv_len M x : length (mvR M x) = nr M. Proof. apply length_tab. Qed.
Lemma lin_mv M : lin (nc M) (nr M) (mvR M).
Proof.
  split; [intros; apply mv_len|]. intros c x y Lx Ly. unfold mvR. unfold axpy. rewrite zipw_tab. apply tab_ext. intros i Hi. cbn [nmul nadd NumR].
  rewrite <- Rsum_scal, <- Rsum_plus. apply Rsum_ext. intros j Hj. rewrite (nth_zipw _ _ _ _ 0 0) by lia. ring.
Qed.
Lemma nth_plus x y i : length x = length y -> nth i (plus_v x y) 0 = nth i x 0 + nth i y 0.
Proof.
  intro L. unfold plus_v. destruct (Nat.lt_ge_cases i (length x)) as [H|H]; [apply nth_zipw; lia|]. rewrite !nth_overflow; [ring|lia..|]. rewrite length_zipw. lia.
Qed.
Lemma nth_minus x y i : length x = length y -> nth i (minus_v x y) 0 = nth i x 0 - nth i y 0.
Proof.
  intro L. unfold minus_v. destruct (Nat.lt_ge_cases i (length x)) as [H|H]; [apply nth_zipw; lia|]. rewrite !nth_overflow; [ring|lia..|]. rewrite length_zipw. lia.
Qed.
Lemma len_plus x y : length x = length y -> length (plus_v x y) = length x.
Proof. intro. unfold plus_v. rewrite length_zipw. lia. Qed.
Lemma len_minus x y : length x = length y -> length (minus_v x y) = length x.
Proof. intro. unfold minus_v. rewrite length_zipw. lia. Qed.
Lemma vec_ext (x y : list R) n : length x = n -> length y = n -> (forall i, (i < n)%nat -> nth i x 0 = nth i y 0) -> x = y.
Proof. intros L1 L2 H. apply (list_eq_nth 0); [lia|]. intros. apply H. lia. Qed.
Lemma lin_minus m n g x y : lin m n g -> length x = m -> length y = m -> g (minus_v x y) = minus_v (g x) (g y).
Proof.
  intros [L H] Lx Ly. assert (forall (u v : list R), length u = length v -> minus_v u v = axpy (-1) v u) as E.
  { intros u v Lu. apply (vec_ext _ _ (length u)); [now apply len_minus|rewrite length_axpy; lia|]. intros i Hi. rewrite nth_minus by auto. etransitivity; [|symmetry; exact (nth_axpy (A := R) (-1) v u i (eq_sym Lu))]. cbn. ring. }
  rewrite (E x y) by lia. rewrite H by auto. symmetry. apply E. rewrite !L by auto. reflexivity.
Qed.
Lemma eye_col B j : (j < nc B)%nat -> mvR B (eye_row (nc B) j) = col B j.
Proof.
  intro Hj. unfold mvR, col. apply tab_ext. intros i Hi. rewrite (Rsum_single _ j); auto.
  - unfold eye_row. rewrite nth_tab, Nat.eqb_refl by auto. ring.
  - intros k Hk D. unfold eye_row. rewrite nth_tab by auto. destruct (Nat.eqb_spec k j); [congruence|ring].
Qed.

Lemma schur_fn_pos inv Ainv B C D n m : (1 <= m)%nat -> schur_fn inv Ainv B C D n m =
    bind (columns m (map (fun i => C (Ainv (B (eye_row m i)))) (seq 0 m))) (fun CAinvB =>
    bind (columns m (map (fun i => D (eye_row m i)) (seq 0 m))) (fun D' =>
    bind (bin2 Rminus CAinvB D') (fun S => bind (inv S) (fun Sinv =>
    Ok (minv Sinv Ainv (fun x => Ok (B x)) (fun x => Ok (C x))))))).
Proof. intro H. destruct m; [lia|reflexivity]. Qed.
Section S.
Context (n m : nat) (A B C D : arr R) (Ainv : list R -> list R).
Context (HA : is_mat A n n) (HB : is_mat B n m) (HC : is_mat C m n) (HD : is_mat D m m) (HI : inverts Ainv A n).
Let S := complement Ainv B C D m.

Lemma lin_Ainv : lin n n Ainv.
Proof.
  destruct HA as (A1 & A2 & _). split; [intros x L; apply HI, L|]. intros c x y Lx Ly. destruct (HI x Lx) as (L1 & E1 & _). destruct (HI y Ly) as (L2 & E2 & _).
  pose proof (lin_mv A) as [_ LA]. rewrite A2 in LA. assert (axpy c x y = mvR A (axpy c (Ainv x) (Ainv y))) as -> by (rewrite LA, E1, E2 by auto; reflexivity).
  apply HI. rewrite length_axpy; lia.
Qed.
Lemma lin_CAB : lin m m (fun l => mvR C (Ainv (mvR B l))).
Proof.
  destruct HB as (B1 & B2 & _), HC as (C1 & C2 & _). apply (lin_comp m n m (fun l => Ainv (mvR B l))); [apply (lin_comp m n n (mvR B) Ainv); [|apply lin_Ainv]|].
  - pose proof (lin_mv B) as H. now rewrite B1, B2 in H.
  - pose proof (lin_mv C) as H. now rewrite C1, C2 in H.
Qed.
Lemma mv_S l : length l = m -> mvR S l = minus_v (mvR C (Ainv (mvR B l))) (mvR D l).
Proof.
  intro L. destruct HB as (B1 & B2 & _), HC as (C1 & C2 & _), HD as (D1 & D2 & _).
  apply (vec_ext _ _ m); [unfold S; now rewrite mv_len|rewrite len_minus; rewrite !mv_len; lia|]. intros i Hi. rewrite nth_minus by (rewrite !mv_len; lia).
  unfold S, complement, mvR at 1. rewrite nr_mk2, nc_mk2, nth_tab by auto.
  pose proof (lin_matrix m m _ l lin_CAB L) as E. cbv beta in E. rewrite E, nth_tab by auto. rewrite bsum_Rsum. unfold mvR at 4. rewrite nth_tab by lia. rewrite D2, <- Rsum_minus. apply Rsum_ext. intros j Hj.
  rewrite (at_mk2 (A := R)) by auto. cbn [nmul NumR]. rewrite <- eye_col by lia. rewrite B2. change (@nzero R NumR) with 0. change (unit m j) with (eye_row m j). ring.
Qed.
Lemma dot_ok M r c x : is_mat M r c -> length x = c -> dot M x = Ok (mvR M x).
Proof. intros (R1 & C1 & _) L. unfold dot. rewrite C1, L, Nat.eqb_refl. apply (f_equal (@Ok (list R))). unfold mvR. rewrite R1, C1. apply tab_ext. intros i Hi. apply bsum_Rsum. Qed.
Lemma np_minus x y : length x = length y -> np_bin Rminus x y = Ok (minus_v x y).
Proof. intro L. unfold np_bin. rewrite L, Nat.eqb_refl. reflexivity. Qed.

(** the common part: given the inverse T of the Schur complement *)
Section T.
Context (T : arr R) (HT : is_mat T m m) (ET : forall y, length y = m -> mvR S (mvR T y) = y).
Lemma TS y : length y = m -> mvR T (mvR S y) = y.
Proof.
  destruct HT as (T1 & T2 & _). pose proof (lin_mv T) as LT. rewrite T1, T2 in LT. apply (inv_swap_R m (mvR T) (mvR S) LT); [|exact ET]. intros. unfold S. now rewrite mv_len.
Qed.
Lemma sol f g : length f = n -> length g = m ->
  let l := mvR T (minus_v (mvR C (Ainv f)) g) in let x := Ainv (minus_v f (mvR B l)) in
  solves A B C D n m f g x l /\ forall x' l', solves A B C D n m f g x' l' -> x' = x /\ l' = l.
Proof.
  intros Lf Lg. cbv zeta. destruct HA as (A1 & A2 & _), HB as (B1 & B2 & _), HC as (C1 & C2 & _), HD as (D1 & D2 & _), HT as (T1 & T2 & _).
  pose proof lin_Ainv as LI. pose proof (lin_mv C) as LC. rewrite C1, C2 in LC. set (r := minus_v (mvR C (Ainv f)) g). set (l := mvR T r). set (x := Ainv (minus_v f (mvR B l))).
  assert (length (mvR C (Ainv f)) = m) as L1 by now rewrite mv_len. assert (length r = m) as Lr by (unfold r; rewrite len_minus; lia). assert (length l = m) as Ll by (unfold l; now rewrite mv_len).
  assert (length (mvR B l) = n) as L2 by now rewrite mv_len. assert (length (minus_v f (mvR B l)) = n) as L3 by (rewrite len_minus; lia).
  assert (length x = n) as Lx by now apply HI.
  assert (mvR S l = r) as ES by (now apply ET). pose proof (mv_S l Ll) as MS. rewrite ES in MS.
  assert (forall l', length l' = m -> mvR C (Ainv (minus_v f (mvR B l'))) = minus_v (mvR C (Ainv f)) (mvR C (Ainv (mvR B l')))) as CA.
  { intros l' Ll'. assert (length (mvR B l') = n) by now rewrite mv_len. rewrite (lin_minus n n Ainv) by auto. apply (lin_minus n m (mvR C)); auto; now apply HI. }
  split; [split; [exact Lx|split; [exact Ll|split]]|].
  - unfold x. destruct (HI _ L3) as (_ & -> & _). apply (vec_ext _ _ n); [rewrite len_plus; lia|auto|]. intros i Hi. rewrite nth_plus, nth_minus by lia. ring.
  - unfold x. rewrite CA by auto. assert (length (mvR C (Ainv (mvR B l))) = m) as L4 by now rewrite mv_len. assert (length (mvR D l) = m) as L5 by now rewrite mv_len.
    apply (vec_ext _ _ m); [rewrite len_plus; rewrite len_minus; lia|auto|]. intros i Hi. rewrite nth_plus, nth_minus by (rewrite ?len_minus; lia).
    apply (f_equal (fun v => nth i v 0)) in MS. unfold r in MS. rewrite !nth_minus in MS by lia. lra.
  - intros x' l' (Lx' & Ll' & E1 & E2). assert (length (mvR B l') = n) as L4 by now rewrite mv_len. assert (length (mvR A x') = n) as L5 by now rewrite mv_len. assert (length (mvR D l') = m) as L6 by now rewrite mv_len. assert (length (mvR C (Ainv (mvR B l'))) = m) as L7 by now rewrite mv_len.
    assert (x' = Ainv (minus_v f (mvR B l'))) as Ex.
    { destruct (HI x' Lx') as (_ & _ & E). rewrite <- E. f_equal. apply (vec_ext _ _ n); [auto|rewrite len_minus; lia|]. intros i Hi. rewrite nth_minus by lia. rewrite <- E1, nth_plus by lia. ring. }
    assert (mvR S l' = r) as Es.
    { rewrite mv_S by auto. apply (vec_ext _ _ m); [rewrite len_minus; lia|auto|]. intros i Hi. unfold r. rewrite !nth_minus by lia. rewrite <- E2, nth_plus by (rewrite mv_len; lia). rewrite Ex, CA, nth_minus by (auto; lia). ring. }
    assert (l' = l) as -> by (rewrite <- (TS l') by auto; rewrite Es; reflexivity). split; [exact Ex|reflexivity].
Qed.
Lemma minv_val f g : length f = n -> length g = m -> forall Bf Cf, (forall l, length l = m -> Bf l = Ok (mvR B l)) -> (forall x, length x = n -> Cf x = Ok (mvR C x)) ->
  minv T Ainv Bf Cf f g = Ok (let l := mvR T (minus_v (mvR C (Ainv f)) g) in (Ainv (minus_v f (mvR B l)), l)).
Proof.
  intros Lf Lg Bf Cf EB EC. destruct HB as (B1 & B2 & _), HC as (C1 & C2 & _), HT as (T1 & T2 & _). unfold minv. rewrite EC by (now apply HI). cbn [bind]. rewrite np_minus by (rewrite mv_len; lia). cbn [bind].
  rewrite (dot_ok T m m) by (auto; rewrite len_minus; rewrite mv_len; lia). cbn [bind]. rewrite EB by (rewrite mv_len; lia). cbn [bind]. rewrite np_minus by (rewrite mv_len; lia). reflexivity.
Qed.
End T.
Lemma S_solvable : block_invertible A B C D n m -> forall y, length y = m -> exists l, length l = m /\ mvR S l = y.
Proof.
  intros H y Ly. destruct HA as (A1 & A2 & _), HB as (B1 & B2 & _), HC as (C1 & C2 & _), HD as (D1 & D2 & _). pose proof lin_Ainv as LI.
  destruct (H (repeat 0 n) (map Ropp y)) as ((x & l & Lx & Ll & E1 & E2) & _); [apply repeat_length|now rewrite map_length|]. exists l. split; [exact Ll|].
  assert (length (mvR B l) = n) as L1 by now rewrite mv_len. assert (length (mvR A x) = n) as L2 by now rewrite mv_len.
  rewrite mv_S by auto. assert (x = Ainv (minus_v (repeat 0 n) (mvR B l))) as Ex.
  { destruct (HI x Lx) as (_ & _ & E). rewrite <- E at 1. f_equal. apply (vec_ext _ _ n); [auto|rewrite len_minus; rewrite repeat_length; lia|]. intros i Hi. rewrite nth_minus by (rewrite repeat_length; lia). rewrite <- E1, nth_plus by lia. ring. }
  assert (length (mvR C (Ainv (mvR B l))) = m) as L3 by now rewrite mv_len. assert (length (mvR D l) = m) as L4 by now rewrite mv_len.
  assert (mvR C x = minus_v (repeat 0 m) (mvR C (Ainv (mvR B l)))) as EC.
  { pose proof (lin_mv C) as LC. rewrite C1, C2 in LC. rewrite Ex. rewrite (lin_minus n n Ainv) by (auto; apply repeat_length).
    assert (length (Ainv (repeat 0 n)) = n) as L5 by (apply HI, repeat_length). rewrite (lin_minus n m (mvR C)) by (auto; now apply HI). f_equal.
    pose proof (lin_comp n n m Ainv (mvR C) LI LC) as LL. apply (vec_ext _ _ m); [now rewrite mv_len|apply repeat_length|]. intros i Hi. rewrite nth_repeat. exact (lf_zero_val n _ (lin_lf _ _ _ i LL)). }
  apply (vec_ext _ _ m); [rewrite len_minus; lia|auto|]. intros i Hi. rewrite nth_minus by lia.
  apply (f_equal (fun v => nth i v 0)) in E2. rewrite nth_plus in E2 by (rewrite mv_len; lia). rewrite EC, nth_minus in E2 by (rewrite repeat_length; lia). rewrite nth_repeat in E2.
  rewrite (nth_map_ Ropp y i 0 0) in E2 by lia. lra.
Qed.
Lemma stack_cols (u : nat -> list R) : (1 <= m)%nat -> (forall j, (j < m)%nat -> length (u j) = m) -> columns m (map u (seq 0 m)) = Ok (mk2 m m (fun i j => nth i (u j) 0)).
Proof.
  intros Hm L. unfold columns. destruct (map u (seq 0 m)) as [|r0 rs] eqn:E; [apply (f_equal (@length _)) in E; rewrite map_length, seq_length in E; cbn in E; lia|]. rewrite <- E.
  assert (stack (map u (seq 0 m)) = Ok (mk2 m m (fun j i => nth i (u j) 0))) as ->; [|cbn [bind]; now rewrite (transpose_mk2 (A := R))].
  unfold stack. rewrite E. assert (length r0 = m) as L0 by (assert (In r0 (map u (seq 0 m))) as K by (rewrite E; cbn; auto); apply in_map_iff in K as (j & <- & Hj); apply in_seq in Hj; apply L; lia).
  rewrite <- E. rewrite (Logic.proj2 (forallb_forall _ _)).
  - rewrite map_length, seq_length, L0. unfold mk2. f_equal. f_equal. exact (concat_rows (A := R) m m u L).
  - intros s Hs. apply in_map_iff in Hs as (j & <- & Hj). apply in_seq in Hj. apply Nat.eqb_eq. rewrite L0. apply L. lia.
Qed.
Lemma schur_val inv : schur inv Ainv B C D = bind (inv S) (fun T => Ok (minv T Ainv (dot B) (dot C))).
Proof.
  destruct HB as (B1 & B2 & B3), HC as (C1 & C2 & C3), HD as (D1 & D2 & D3). unfold schur. rewrite B1, B2, C1, C2, D1, D2, !Nat.eqb_refl. cbn [andb].
  assert (forall j, length (col B j) = n) as Lc by (intro; unfold col; now rewrite length_tab).
  rewrite (mapM_ok _ (fun j => mvR C (Ainv (col B j)))) by (intros j _; apply (dot_ok C m n); [repeat split; auto|now apply HI, Lc]). cbn [bind].
  assert (columns m (map (fun j => mvR C (Ainv (col B j))) (seq 0 m)) = Ok (mk2 m m (fun i j => nth i (mvR C (Ainv (col B j))) 0))) as ->.
  { destruct (Nat.eq_dec m 0) as [->|]; [reflexivity|]. apply stack_cols; [lia|]. intros. rewrite mv_len. exact C1. }
  cbn [bind]. rewrite (mk2_at D ltac:(unfold wf2; rewrite D1, D2; exact D3)) at 1. rewrite D1, D2, bin2_mk2. reflexivity.
Qed.
Lemma schur_fn_val inv : (1 <= m)%nat -> schur_fn inv Ainv (mvR B) (mvR C) (mvR D) n m = bind (inv S) (fun T => Ok (minv T Ainv (fun x => Ok (mvR B x)) (fun x => Ok (mvR C x)))).
Proof.
  intro Hm. destruct HB as (B1 & B2 & B3), HC as (C1 & C2 & C3), HD as (D1 & D2 & D3). rewrite schur_fn_pos by auto.
  rewrite !stack_cols by (auto; intros; rewrite ?mv_len; auto). cbn [bind]. rewrite bin2_mk2. cbn [bind]. f_equal. f_equal. apply mk2_ext. intros i j Hi Hj.
  assert (mvR B (eye_row m j) = col B j) as -> by (rewrite <- B2; apply eye_col; lia). assert (mvR D (eye_row m j) = col D j) as -> by (rewrite <- D2; apply eye_col; lia).
  f_equal. unfold col. apply (nth_tab (nr D) (fun i => at2 D i j)). lia.
Qed.
End S.

(** schur: when the block matrix is invertible the function it returns solves the system; otherwise it raises *)
Theorem C63_schur_solves n m A B C D Ainv inv : is_mat A n n -> is_mat B n m -> is_mat C m n -> is_mat D m m -> inverts Ainv A n ->
  inv_contract inv (complement Ainv B C D m) m -> block_invertible A B C D n m ->
  exists Minv, schur inv Ainv B C D = Ok Minv /\
  forall f g, length f = n -> length g = m -> exists x l, Minv f g = Ok (x, l) /\ solves A B C D n m f g x l.
Proof.
  intros HA HB HC HD HI K H. unfold inv_contract in K. rewrite (schur_val n m A B C D Ainv) by auto.
  pose proof (S_solvable n m A B C D Ainv HA HB HC HD HI H) as SS. destruct (inv (complement Ainv B C D m)) as [T|e]; [|destruct K as [_ K]; contradiction].
  cbn [bind]. destruct K as [HT ET]. eexists. split; [reflexivity|]. intros f g Lf Lg.
  rewrite (minv_val n m A B C D Ainv HB HC HI T HT ET f g Lf Lg); [|intros; apply (dot_ok B n m); auto|intros; apply (dot_ok C m n); auto].
  cbv zeta. eexists _, _. split; [reflexivity|]. now apply (sol n m A B C D Ainv HA HB HC HD HI T HT ET).
Qed.
Theorem C63_schur_singular n m A B C D Ainv inv : is_mat A n n -> is_mat B n m -> is_mat C m n -> is_mat D m m -> inverts Ainv A n ->
  inv_contract inv (complement Ainv B C D m) m -> ~ block_invertible A B C D n m -> schur inv Ainv B C D = Err LinAlgError.
Proof.
  intros HA HB HC HD HI K H. unfold inv_contract in K. rewrite (schur_val n m A B C D Ainv) by auto.
  destruct (inv (complement Ainv B C D m)) as [T|e]; [|destruct K as [-> _]; reflexivity]. exfalso. apply H. destruct K as [HT ET]. intros f g Lf Lg.
  destruct (sol n m A B C D Ainv HA HB HC HD HI T HT ET f g Lf Lg) as [E U]. split; [eexists _, _; exact E|]. intros x l x' l' E1 E2. apply U in E1 as [-> ->]. apply U in E2 as [-> ->]. auto.
Qed.
(** wrong shapes are rejected *)
Theorem C63_schur_shapes inv Ainv B C D : ~ (nr C = nc B /\ nc C = nr B /\ nr D = nc B /\ nc D = nc B) -> schur inv Ainv B C D = Err AssertionError.
Proof.
  intro H. unfold schur. destruct (Nat.eqb_spec (nr C) (nc B)); [|reflexivity]. destruct (Nat.eqb_spec (nc C) (nr B)); [|reflexivity]. destruct (Nat.eqb_spec (nr D) (nc B)); [|reflexivity]. destruct (Nat.eqb_spec (nc D) (nc B)); [|reflexivity]. exfalso. apply H. auto.
Qed.
(** schurλ applied to the functions x -> B x, ... gives the same results *)
Theorem C63_lambda_agrees n m A B C D Ainv inv : is_mat A n n -> is_mat B n m -> is_mat C m n -> is_mat D m m -> inverts Ainv A n ->
  inv_contract inv (complement Ainv B C D m) m -> (1 <= m)%nat ->
  match schur inv Ainv B C D, schur_fn inv Ainv (mvR B) (mvR C) (mvR D) n m with
  | Ok M1, Ok M2 => forall f g, length f = n -> length g = m -> M1 f g = M2 f g
  | Err e1, Err e2 => e1 = e2
  | _, _ => False
  end.
Proof.
  intros HA HB HC HD HI K Hm. unfold inv_contract in K. rewrite (schur_val n m A B C D Ainv), (schur_fn_val n m B C D Ainv) by auto.
  destruct (inv (complement Ainv B C D m)) as [T|e]; [|reflexivity]. cbn [bind]. intros f g Lf Lg. destruct K as [HT ET].
  rewrite (minv_val n m A B C D Ainv HB HC HI T HT ET f g Lf Lg); [|intros; apply (dot_ok B n m); auto|intros; apply (dot_ok C m n); auto].
  symmetry. apply (minv_val n m A B C D Ainv HB HC HI T HT ET f g Lf Lg); reflexivity.
Qed.
(** but for m = 0 it raises, where schur does not *)
Theorem C63_lambda_empty_refuted inv Ainv B C D n : schur_fn inv Ainv B C D n 0 = Err LinAlgError.
Proof. reflexivity. Qed.

(** the system 2 x + l = 5, x + l = 3, with solution x = 2, l = 1 *)
Definition inv1 (M : arr R) : res (arr R) := Ok (MkArr 1 1 [/ at2 M 0 0]).
Example C63_instance : exists Minv, schur inv1 (map (Rmult (/ 2))) (MkArr 1 1 [1]) (MkArr 1 1 [1]) (MkArr 1 1 [1]) = Ok Minv /\
  forall f g, length f = 1%nat -> length g = 1%nat -> exists x l, Minv f g = Ok (x, l) /\ solves (MkArr 1 1 [2]) (MkArr 1 1 [1]) (MkArr 1 1 [1]) (MkArr 1 1 [1]) 1 1 f g x l.
Proof.
  assert (forall v, is_mat (MkArr 1 1 [v]) 1 1) as M1 by (intro; repeat split).
  assert (forall v y, mvR (MkArr 1 1 [v]) [y] = [v * y]) as E1 by (intros; unfold mvR, at2, tab; cbn; f_equal; ring).
  assert (forall x : list R, length x = 1%nat -> exists v, x = [v]) as one by (intros [|v [|]] L; cbn in L; try lia; eauto).
  apply (C63_schur_solves 1 1 (MkArr 1 1 [2])); auto.
  - intros x L. apply one in L as [v ->]. cbn [map length]. rewrite !E1. cbn [map]. repeat split; f_equal; field.
  - unfold inv_contract, inv1. split; [auto|]. intros y L. apply one in L as [v ->].
    assert (complement (map (Rmult (/ 2))) (MkArr 1 1 [1]) (MkArr 1 1 [1]) (MkArr 1 1 [1]) 1 = MkArr 1 1 [- / 2]) as ->.
    { unfold complement. transitivity (mk2 1 1 (fun _ _ => - / 2)); [|reflexivity]. apply mk2_ext. intros i j Hi Hj. replace i with 0%nat by lia. replace j with 0%nat by lia. change (col (MkArr 1 1 [1]) 0) with [1]. cbn [map]. rewrite E1. unfold at2. cbn [nth nc dat Nat.mul Nat.add]. lra. }
    unfold at2 at 1. cbn [nth nc dat Nat.mul Nat.add]. rewrite !E1. f_equal. field.
  - intros f g Lf Lg. apply one in Lf as [a ->]. apply one in Lg as [b ->]. split.
    + exists [a - b], [2 * b - a]. unfold solves. rewrite !E1. unfold plus_v. cbn. repeat split; f_equal; ring.
    + intros x l x' l' (L1 & L2 & P1 & P2) (L3 & L4 & P3 & P4). apply one in L1 as [x0 ->]. apply one in L2 as [l0 ->]. apply one in L3 as [x1 ->]. apply one in L4 as [l1 ->].
      rewrite !E1 in *. cbn in *. injection P1 as P1. injection P2 as P2. injection P3 as P3. injection P4 as P4. split; f_equal; lra.
Qed.
