(** C60: to_matrix; C61: interweave, bndry_with_zeros, apply_map; C33: refinement of integer arrays. *)
From Coq Require Import ZArith Reals List Lia Lra Arith Bool.
From Coq Require Import ZifyNat.
From Verif Require Import Model.Sym.
From Coquelicot Require Import Coquelicot.
From Verif Require Import Model.Num Model.Np Model.Spectral Model.Basis Model.Grids1 Model.Chebyshev Model.Common Model.Grid2 Model.Helper
  Proofs.ListLemmas Proofs.Sums Proofs.RingSums Proofs.Lin Proofs.TableLin Proofs.Arr2 Proofs.RoundP Proofs.Trig Proofs.Fourier Proofs.Kernels Proofs.Refine.
Import ListNotations.
Local Open Scope R_scope.
Ltac Zify.zify_post_hook ::= Z.div_mod_to_equations.

(** ** C60 *)
(** f maps real vectors with N entries to complex vectors with n entries, linearly *)
Definition linear (N n : nat) (f : list R -> list C) : Prop :=
  (forall x, length x = N -> length (f x) = n) /\
  (forall c x y, length x = N -> length y = N ->
     f (zipw (fun a b => c * a + b) x y) = zipw (fun a b => Cplus (Cmult (RtoC c) a) b) (f x) (f y)).
(** M x *)
Definition mvR (M : arr R) (x : list R) : list R := tab (nr M) (fun i => Rsum (nc M) (fun j => at2 M i j * nth j x 0)).
Definition mvC (M : arr C) (x : list R) : list C := tab (nr M) (fun i => Csum (nc M) (fun j => Cmult (at2 M i j) (RtoC (nth j x 0)))).

Lemma map_zipw {A B D E F} (h : D -> E) (op : A -> B -> D) (p : A -> F) (q : B -> F) (op' : F -> F -> E) x y :
  (forall a b, h (op a b) = op' (p a) (q b)) -> map h (zipw op x y) = zipw op' (map p x) (map q y).
Proof. intro H. revert y. induction x as [|a x IH]; intros [|b y]; cbn; [reflexivity..|]. now rewrite H, IH. Qed.
Lemma re_lin N n f : linear N n f -> lin N n (fun x => map Re (f x)).
Proof.
  intros [L H]. split; [intros x Hx; rewrite map_length; auto|]. intros c x y Hx Hy. unfold axpy. cbn [nmul nadd NumR]. rewrite H by auto.
  apply map_zipw. intros a b. unfold Re. cbn. ring.
Qed.
Lemma im_lin N n f : linear N n f -> lin N n (fun x => map Im (f x)).
Proof.
  intros [L H]. split; [intros x Hx; rewrite map_length; auto|]. intros c x y Hx Hy. unfold axpy. cbn [nmul nadd NumR]. rewrite H by auto.
  apply map_zipw. intros a b. unfold Im. cbn. ring.
Qed.
Lemma nth_Re l i : nth i (map Re l) 0 = Re (nth i l (RtoC 0)).
Proof. change 0 with (Re (RtoC 0)) at 1. apply map_nth. Qed.
Lemma nth_Im l i : nth i (map Im l) 0 = Im (nth i l (RtoC 0)).
Proof. change 0 with (Im (RtoC 0)) at 1. apply map_nth. Qed.
Lemma re_img N n f x i : linear N n f -> length x = N -> (i < n)%nat -> Re (nth i (f x) (RtoC 0)) = Rsum N (fun j => Re (nth i (f (eye_row N j)) (RtoC 0)) * nth j x 0).
Proof.
  intros H L Hi. pose proof (lin_matrix N n _ x (re_lin _ _ _ H) L) as E. cbv beta in E. rewrite <- nth_Re, E, nth_tab by auto. rewrite bsum_Rsum. apply Rsum_ext. intros j Hj. cbn [nmul NumR].
  f_equal. exact (nth_Re _ _).
Qed.
Lemma im_img N n f x i : linear N n f -> length x = N -> (i < n)%nat -> Im (nth i (f x) (RtoC 0)) = Rsum N (fun j => Im (nth i (f (eye_row N j)) (RtoC 0)) * nth j x 0).
Proof.
  intros H L Hi. pose proof (lin_matrix N n _ x (im_lin _ _ _ H) L) as E. cbv beta in E. rewrite <- nth_Im, E, nth_tab by auto. rewrite bsum_Rsum. apply Rsum_ext. intros j Hj. cbn [nmul NumR].
  f_equal. exact (nth_Im _ _).
Qed.
Lemma eye_len N j : length (eye_row N j) = N. Proof. apply length_tab. Qed.
(** the matrix before the test for real entries *)
Definition M0 (f : list R -> list C) (N n : nat) : arr C := mk2 n N (fun i j => nth i (f (eye_row N j)) (RtoC 0)).
Lemma to_matrix_val f N n : (1 <= N)%nat -> (forall j, (j < N)%nat -> length (f (eye_row N j)) = n) ->
  to_matrix (fun x => Ok (f x)) N = Ok (if forallb (fun z => Z.eqb (rounded 10 (Im z)) 0) (dat (M0 f N n)) then MReal (mk2 n N (fun i j => Re (nth i (f (eye_row N j)) (RtoC 0)))) else MCplx (M0 f N n)).
Proof.
  intros HN L. unfold to_matrix. rewrite (mapM_ok _ f) by reflexivity. cbn [bind]. rewrite map_map.
  assert (stack (map (fun j => f (eye_row N j)) (seq 0 N)) = Ok (mk2 N n (fun j i => nth i (f (eye_row N j)) (RtoC 0)))) as E.
  { unfold stack. destruct (map (fun j => f (eye_row N j)) (seq 0 N)) as [|r Lr] eqn:EL.
    { exfalso. apply (f_equal (@length _)) in EL. rewrite map_length, seq_length in EL. cbn in EL. lia. }
    assert (length r = n) as Lr0. { assert (In r (map (fun j => f (eye_row N j)) (seq 0 N))) as K by (rewrite EL; cbn; auto). apply in_map_iff in K as (j & <- & Hj). apply in_seq in Hj. apply L. lia. }
    rewrite <- EL. assert (forallb (fun s => Nat.eqb (length s) (length r)) (map (fun j => f (eye_row N j)) (seq 0 N)) = true) as ->.
    { apply forallb_forall. intros s Hs. apply in_map_iff in Hs as (j & <- & Hj). apply in_seq in Hj. apply Nat.eqb_eq. rewrite Lr0. apply L. lia. }
    rewrite map_length, seq_length, Lr0. unfold mk2. f_equal. f_equal. exact (concat_rows N n (fun j => f (eye_row N j)) L). }
  rewrite E. cbn [bind]. rewrite (transpose_mk2 (A := C)). fold (M0 f N n). apply (f_equal (@Ok matrix)).
  destruct (forallb _ _); [|reflexivity]. f_equal. unfold M0, mk2. cbn [nr nc dat]. rewrite map_tab. reflexivity.
Qed.
Lemma dat_mk2_forallb r c (g : nat -> nat -> C) p : forallb p (dat (mk2 r c g)) = true <-> forall i j, (i < r)%nat -> (j < c)%nat -> p (g i j) = true.
Proof.
  rewrite forallb_forall. unfold mk2, dat, tab. split.
  - intros H i j Hi Hj. apply H. apply in_map_iff. exists (i * c + j)%nat. rewrite div_add, mod_add by auto. split; [reflexivity|]. apply in_seq. pose proof (idx_lt r c i j Hi Hj). lia.
  - intros H z Hz. apply in_map_iff in Hz as (k & <- & Hk). apply in_seq in Hk. destruct (idx_div r c k) as [K1 K2]; [lia|]. apply H; auto.
Qed.
Lemma mvC_M0 f N n x : linear N n f -> length x = N -> mvC (M0 f N n) x = f x.
Proof.
  intros H L. unfold mvC, M0. rewrite nr_mk2, nc_mk2. assert (length (f x) = n) as Lf by (apply H; auto).
  apply (list_eq_nth (RtoC 0)); [now rewrite length_tab|]. rewrite length_tab. intros i Hi. rewrite nth_tab by auto.
  assert (forall z w : C, Re z = Re w -> Im z = Im w -> z = w) as ext by (intros [] []; cbn; intros -> ->; reflexivity). apply ext.
  - rewrite Re_Csum, (re_img N n) by auto. apply Rsum_ext. intros j Hj. rewrite (at_mk2 (A := C)) by auto. unfold Re, Cmult, RtoC. cbn. ring.
  - rewrite Im_Csum, (im_img N n) by auto. apply Rsum_ext. intros j Hj. rewrite (at_mk2 (A := C)) by auto. unfold Im, Cmult, RtoC. cbn. ring.
Qed.
Lemma Rsum_abs_le n g b : (forall i, (i < n)%nat -> Rabs (g i) <= b i) -> Rabs (Rsum n g) <= Rsum n b.
Proof. induction n as [|n IH]; intro H; cbn; [rewrite Rabs_R0; lra|]. eapply Rle_trans; [apply Rabs_triang|]. apply Rplus_le_compat; [apply IH; intros; apply H; lia|apply H; lia]. Qed.

(** A linear operator with real values is represented exactly *)
Theorem C60_represents_real N n (f : list R -> list C) : (1 <= N)%nat -> linear N n f ->
  (forall x i, length x = N -> Im (nth i (f x) (RtoC 0)) = 0) ->
  exists M, to_matrix (fun x => Ok (f x)) N = Ok (MReal M) /\ nr M = n /\ nc M = N /\
  forall x, length x = N -> map RtoC (mvR M x) = f x.
Proof.
  intros HN H Hr. rewrite (to_matrix_val f N n) by (auto; intros; apply H; apply eye_len).
  unfold M0. rewrite (Logic.proj2 (dat_mk2_forallb _ _ _ _)).
  2: { intros i j Hi Hj. cbv beta. rewrite Hr by apply eye_len. apply Z.eqb_eq. apply rounded_zero. rewrite Rabs_R0. assert (0 < 10 ^ 10) by (apply pow_lt; lra). assert (0 < / 10 ^ 10) by now apply Rinv_0_lt_compat. lra. }
  eexists. split; [reflexivity|]. split; [reflexivity|]. split; [reflexivity|]. intros x L. unfold mvR. rewrite nr_mk2, nc_mk2, map_tab.
  assert (length (f x) = n) as Lf by (apply H; auto). apply (list_eq_nth (RtoC 0)); [now rewrite length_tab|]. rewrite length_tab. intros i Hi. rewrite nth_tab by auto.
  assert (forall z w : C, Re z = Re w -> Im z = Im w -> z = w) as ext by (intros [] []; cbn; intros -> ->; reflexivity). apply ext.
  - rewrite (re_img N n) by auto. apply Rsum_ext. intros j Hj. rewrite (at_mk2 (A := R)) by auto. reflexivity.
  - now rewrite Hr by auto.
Qed.
(** In general the matrix represents the operator exactly, unless all the entries have imaginary parts of at most 5e-11,
    which are dropped *)
Theorem C60_represents N n (f : list R -> list C) : (1 <= N)%nat -> linear N n f ->
  (exists M, to_matrix (fun x => Ok (f x)) N = Ok (MCplx M) /\ nr M = n /\ nc M = N /\ forall x, length x = N -> mvC M x = f x) \/
  (exists M, to_matrix (fun x => Ok (f x)) N = Ok (MReal M) /\ nr M = n /\ nc M = N /\
     forall x, length x = N -> mvR M x = map Re (f x) /\
       forall i, (i < n)%nat -> Rabs (Im (nth i (f x) (RtoC 0))) <= 5 / 10 ^ 11 * Rsum N (fun j => Rabs (nth j x 0))).
Proof.
  intros HN H. rewrite (to_matrix_val f N n) by (auto; intros; apply H; apply eye_len). destruct (forallb _ _) eqn:E.
  - right. eexists. split; [reflexivity|]. split; [reflexivity|]. split; [reflexivity|]. intros x L. assert (length (f x) = n) as Lf by (apply H; auto). split.
    + unfold mvR. rewrite nr_mk2, nc_mk2. apply (list_eq_nth 0); [now rewrite length_tab, map_length|]. rewrite length_tab. intros i Hi. rewrite nth_tab, nth_Re by auto. rewrite (re_img N n) by auto. apply Rsum_ext. intros j Hj. rewrite (at_mk2 (A := R)) by auto. reflexivity.
    + intros i Hi. rewrite (im_img N n) by auto. rewrite <- Rsum_scal. apply Rsum_abs_le. intros j Hj. rewrite Rabs_mult. apply Rmult_le_compat_r; [apply Rabs_pos|].
      pose proof (Logic.proj1 (dat_mk2_forallb _ _ _ _) E i j Hi Hj) as K. cbv beta in K. apply Z.eqb_eq, rounded_zero in K. eapply Rle_trans; [exact K|]. right. field.
  - left. exists (M0 f N n). split; [reflexivity|]. split; [reflexivity|]. split; [reflexivity|]. intros x L. now apply mvC_M0.
Qed.
(** real operators, as returned by the tables of the grids *)
Definition creal (f : list R -> list R) : list R -> res (list C) := fun x => Ok (cplxv (f x)).
(** the converse: the matrix of x -> M x is M *)
Theorem C60_matrix_of_matrix r N (m : nat -> nat -> R) : (1 <= N)%nat ->
  to_matrix (creal (mvR (mk2 r N m))) N = Ok (MReal (mk2 r N m)).
Proof.
  intro HN. unfold creal. rewrite (to_matrix_val _ N r) by (auto; intros; rewrite length_cplxv; unfold mvR; rewrite length_tab; reflexivity).
  assert (forall i j, (i < r)%nat -> (j < N)%nat -> nth i (cplxv (mvR (mk2 r N m) (eye_row N j))) (RtoC 0) = RtoC (m i j)) as K.
  { intros i j Hi Hj. unfold cplxv, mvR. rewrite nr_mk2, nc_mk2, map_tab, nth_tab by auto. f_equal.
    rewrite <- bsum_Rsum. rewrite (bsum_ext _ _ (fun k => if Nat.eqb k j then m i j else 0)).
    - rewrite bsum_Rsum, (Rsum_single N j) by (auto; intros k Hk K; destruct (Nat.eqb_spec k j); congruence). now rewrite Nat.eqb_refl.
    - intros k Hk. rewrite (at_mk2 (A := R)) by auto. unfold eye_row. rewrite nth_tab by auto. destruct (Nat.eqb_spec k j) as [->|]; ring. }
  unfold M0. rewrite (Logic.proj2 (dat_mk2_forallb _ _ _ _)).
  - apply (f_equal (@Ok matrix)), f_equal, mk2_ext. intros i j Hi Hj. now rewrite K.
  - intros i j Hi Hj. rewrite K by auto. apply Z.eqb_eq, rounded_zero. cbn [Im RtoC snd]. rewrite Rabs_R0. assert (0 < 10 ^ 10) by (apply pow_lt; lra). assert (0 < / 10 ^ 10) by now apply Rinv_0_lt_compat. lra.
Qed.

(** composition: the product of the matrices *)
Definition mm (M K : arr R) : arr R := mk2 (nr M) (nc K) (fun i j => Rsum (nc M) (fun k => at2 M i k * at2 K k j)).
(** f is linear from vectors with N entries to vectors with n entries *)
Definition rlinear (N n : nat) (f : list R -> list R) : Prop :=
  (forall x, length x = N -> length (f x) = n) /\
  (forall c x y, length x = N -> length y = N -> f (zipw (fun a b => c * a + b) x y) = zipw (fun a b => c * a + b) (f x) (f y)).
Lemma rlinear_c N n f : rlinear N n f -> linear N n (fun x => cplxv (f x)).
Proof.
  intros [L H]. split; [intros; rewrite length_cplxv; auto|]. intros c x y Lx Ly. rewrite H by auto. apply map_zipw. intros a b. unfold RtoC, Cplus, Cmult. cbn. f_equal; ring.
Qed.
Lemma cplx_real l i : Im (nth i (cplxv l) (RtoC 0)) = 0.
Proof. change (RtoC 0) with (RtoC 0) at 1. unfold cplxv. rewrite map_nth. reflexivity. Qed.
Lemma cplxv_inj a b : cplxv a = cplxv b -> a = b.
Proof. intro E. apply (f_equal (map Re)) in E. unfold cplxv in E. rewrite !map_map in E. cbn in E. now rewrite !map_id in E. Qed.
Theorem C60_represents_op N n f : (1 <= N)%nat -> rlinear N n f ->
  exists M, to_matrix (creal f) N = Ok (MReal M) /\ M = mk2 n N (at2 M) /\ forall x, length x = N -> mvR M x = f x.
Proof.
  intros HN H. destruct (C60_represents_real N n (fun x => cplxv (f x)) HN (rlinear_c _ _ _ H)) as (M & E & Er & Ec & Ev); [intros; apply cplx_real|].
  exists M. split; [exact E|]. split; [|intros x L; apply cplxv_inj, Ev, L].
  unfold creal in E. rewrite (to_matrix_val _ N n) in E by (auto; intros; rewrite length_cplxv; apply H, eye_len). destruct (forallb _ _); [|discriminate].
  injection E as <-. apply (mk2_at (A := R)), wf_mk2.
Qed.
Theorem C60_composition N n p f g : (1 <= N)%nat -> (1 <= n)%nat -> rlinear N n f -> rlinear n p g ->
  exists F G, to_matrix (creal f) N = Ok (MReal F) /\ to_matrix (creal g) n = Ok (MReal G) /\
  to_matrix (creal (fun x => g (f x))) N = Ok (MReal (mm G F)).
Proof.
  intros HN Hn Hf Hg. assert (rlinear N p (fun x => g (f x))) as Hgf.
  { split; [intros x L; apply Hg, Hf, L|]. intros c x y Lx Ly. rewrite (Logic.proj2 Hf) by auto. apply Hg; apply Hf; auto. }
  destruct (C60_represents_op N n f HN Hf) as (F & EF & WF & VF). destruct (C60_represents_op n p g Hn Hg) as (G & EG & WG & VG). exists F, G. split; [exact EF|]. split; [exact EG|].
  assert (nr F = n /\ nc F = N /\ nr G = p /\ nc G = n) as (F1 & F2 & G1 & G2) by (rewrite WF, WG; auto).
  transitivity (to_matrix (creal (mvR (mm G F))) N); [|unfold mm; rewrite F2; now apply C60_matrix_of_matrix].
  assert (forall x, length x = N -> mvR (mm G F) x = g (f x)) as K.
  { intros x L. rewrite <- VG by now apply Hf. rewrite <- VF by auto. unfold mvR, mm. cbn [nr nc]. apply tab_ext. intros i Hi. rewrite nc_mk2.
    etransitivity; [apply Rsum_ext; intros j Hj; rewrite (at_mk2 (A := R)) by auto; symmetry; apply Rsum_scal_r|]. cbv beta. rewrite Rsum_swap. apply Rsum_ext. intros k Hk. rewrite nth_tab by lia.
    rewrite <- Rsum_scal. apply Rsum_ext. intros j Hj. ring. }
  unfold to_matrix. apply (f_equal (fun L => bind L _)).
  assert (forall j, In j (map (eye_row N) (seq 0 N)) -> length j = N) as LL by (intros j Hj; apply in_map_iff in Hj as (? & <- & _); apply eye_len).
  revert LL. induction (map (eye_row N) (seq 0 N)) as [|e L IH]; intro LL; cbn [mapM]; [reflexivity|]. unfold creal at 1 3. cbn [bind]. rewrite K by (apply LL; cbn; auto). rewrite IH by (intros; apply LL; cbn; auto). reflexivity.
Qed.
(** there is no matrix with no columns *)
Theorem C60_empty_raises f : to_matrix f 0 = Err ValueError.
Proof. reflexivity. Qed.
Example C60_instance : exists M, to_matrix (creal (roll 1)) 3 = Ok (MReal M) /\ M = mk2 3 3 (at2 M) /\ forall x, length x = 3%nat -> mvR M x = roll 1 x.
Proof.
  apply (C60_represents_op 3 3 (roll 1)); [lia|]. split; [intros; now rewrite length_roll|]. intros c x y Lx Ly.
  destruct x as [|x0 [|x1 [|x2 [|]]]]; cbn in Lx; try lia. destruct y as [|y0 [|y1 [|y2 [|]]]]; cbn in Ly; try lia. reflexivity.
Qed.

(** ** C61 *)
Theorem C61_interweave {A} (a b c : list A) : interweave a b = Ok c <->
  (length a = length b \/ length a = length b + 1)%nat /\ length c = (length a + length b)%nat /\
  (forall i d, (i < length a)%nat -> nth (2 * i) c d = nth i a d) /\ (forall i d, (i < length b)%nat -> nth (2 * i + 1) c d = nth i b d).
Proof.
  unfold interweave. split.
  - destruct (_ && _)%bool eqn:E; [|discriminate]. intros [= <-]. apply andb_prop in E as [E1 E2]. apply Nat.eqb_eq in E1, E2.
    assert (length b <= length a <= length b + 1)%nat as H by lia. split; [lia|]. split; [now apply length_weave|]. split; intros i d Hi; [now apply nth_weave_even|now apply nth_weave_odd].
  - intros (L & Lc & He & Ho). assert (length b <= length a <= length b + 1)%nat as H by lia.
    rewrite (Logic.proj2 (andb_true_iff _ _)) by (split; apply Nat.eqb_eq; lia). f_equal. destruct c as [|d0 c'].
    + cbn in Lc. destruct a; [reflexivity|cbn in Lc; lia].
    + apply (list_eq_nth d0); [rewrite length_weave by auto; now rewrite Lc|]. rewrite length_weave by auto. intros i Hi. destruct (Nat.Even_or_Odd i) as [[k ->]|[k ->]].
      * rewrite nth_weave_even by auto. symmetry. apply He. lia.
      * rewrite nth_weave_odd by auto. symmetry. apply Ho. lia.
Qed.
Theorem C61_interweave_raises {A} (a b : list A) : length a <> length b -> length a <> (length b + 1)%nat -> interweave a b = Err ValueError.
Proof. intros H1 H2. unfold interweave. destruct (_ && _)%bool eqn:E; [|reflexivity]. apply andb_prop in E as [E1 E2]. apply Nat.eqb_eq in E1, E2. lia. Qed.
Example C61_interweave_instance : interweave [0; 1; 2]%Z [3; 4]%Z = Ok [0; 3; 1; 4; 2]%Z. Proof. reflexivity. Qed.

(** arrays with two axes, along the last one: the numbers of columns must be equal when there are two rows or more *)
Lemma nth_weave_2d (a b : list R) r c i j : length a = (r * c)%nat -> length b = (r * c)%nat -> (i < r)%nat -> (j < c)%nat ->
  nth (i * (c + c) + 2 * j) (weave a b) 0 = nth (i * c + j) a 0 /\ nth (i * (c + c) + (2 * j + 1)) (weave a b) 0 = nth (i * c + j) b 0.
Proof.
  intros La Lb Hi Hj. replace (i * (c + c) + 2 * j)%nat with (2 * (i * c + j))%nat by lia. replace (i * (c + c) + (2 * j + 1))%nat with (2 * (i * c + j) + 1)%nat by lia.
  split; [apply nth_weave_even|apply nth_weave_odd]; lia.
Qed.
Lemma fit_eq {A} n (x : list A) : length x = n -> fit n x = Ok x.
Proof. intros <-. unfold fit. now rewrite Nat.eqb_refl. Qed.
Lemma interweave_last_ok (a b : arr R) : wf2 a -> wf2 b -> nr a = nr b -> nc a = nc b ->
  interweave_last a b = Ok (MkArr (nr a) (nc a + nc a) (weave (dat a) (dat b))).
Proof.
  unfold wf2. intros Wa Wb Er Ec. unfold interweave_last, interweave_flat. rewrite <- Ec. rewrite <- Er, <- Ec in Wb. replace (nr a * (nc a + nc a))%nat with (2 * (nr a * nc a))%nat by lia.
  rewrite fit_eq by lia. cbn [bind]. rewrite fit_eq by lia. reflexivity.
Qed.
Theorem C61_interweave_rows (a b : arr R) : wf2 a -> wf2 b -> nr a = nr b -> nc a = nc b ->
  exists c, interweave2 false a b = Ok c /\ wf2 c /\ nr c = nr a /\ nc c = (2 * nc a)%nat /\
  forall i j, (i < nr a)%nat -> (j < nc a)%nat -> at2 c i (2 * j) = at2 a i j /\ at2 c i (2 * j + 1) = at2 b i j.
Proof.
  intros Wa Wb Er Ec. cbn [interweave2]. rewrite interweave_last_ok by auto. eexists. split; [reflexivity|]. unfold wf2 in *. cbn [nr nc dat].
  assert (length (weave (dat a) (dat b)) = (nr a * (nc a + nc a))%nat) as LW by (rewrite length_weave by lia; rewrite Wa, Wb, <- Er, <- Ec; lia).
  split; [exact LW|]. split; [reflexivity|]. split; [lia|]. intros i j Hi Hj. unfold at2. cbn [nc dat]. rewrite <- Ec. apply (nth_weave_2d _ _ (nr a)); auto. now rewrite Wb, <- Er, <- Ec.
Qed.
Theorem C61_interweave_rows_raises (a b : arr R) : wf2 a -> wf2 b -> nr a = nr b -> (2 <= nr a)%nat -> nc a <> nc b ->
  interweave2 false a b = Err ValueError.
Proof.
  unfold wf2. intros Wa Wb Er H2 Ec. cbn [interweave2]. unfold interweave_last, interweave_flat, fit. rewrite Wa, Wb, <- Er. set (r := nr a) in *. set (p := nc a) in *. set (q := nc b) in *.
  destruct (Nat.eqb_spec (r * p) ((r * (p + q) + 1) / 2)) as [E|E].
  - cbn [bind]. destruct (Nat.eqb_spec (r * q) (r * (p + q) / 2)) as [E'|E'].
    + exfalso. apply Ec. nia.
    + destruct (dat b) as [|v [|]] eqn:Eb; [reflexivity| |reflexivity]. cbn in Wb. exfalso. rewrite <- Er in Wb. destruct q; [lia|]. clear - Wb H2. nia.
  - destruct (dat a) as [|v [|]] eqn:Ea; [reflexivity| |reflexivity]. cbn in Wa. exfalso. destruct p; [lia|]. clear - Wa H2. nia.
Qed.
Theorem C61_interweave_columns (a b : arr R) : wf2 a -> wf2 b -> nr a = nr b -> nc a = nc b ->
  exists c, interweave2 true a b = Ok c /\ wf2 c /\ nr c = (2 * nr a)%nat /\ nc c = nc a /\
  forall i j, (i < nr a)%nat -> (j < nc a)%nat -> at2 c (2 * i) j = at2 a i j /\ at2 c (2 * i + 1) j = at2 b i j.
Proof.
  intros Wa Wb Er Ec. destruct (C61_interweave_rows (transpose a) (transpose b)) as (c & E & Wc & Rc & Cc & V); try apply (wf_mk2 (A := R)); auto.
  exists (transpose c). cbn [interweave2] in E |- *. rewrite E. split; [reflexivity|]. cbn [transpose] in *. unfold transpose in Rc, Cc, V |- *. rewrite ?nr_mk2, ?nc_mk2 in *.
  split; [apply (wf_mk2 (A := R))|]. split; [lia|]. split; [lia|]. intros i j Hi Hj. rewrite !(at_mk2 (A := R)) by lia. destruct (V j i Hj Hi) as [V1 V2]. rewrite V1, V2, !(at_mk2 (A := R)) by lia. auto.
Qed.
Example C61_interweave2_instance : interweave2 true (MkArr 2 2 [0; 1; 2; 3]) (MkArr 2 2 [4; 5; 6; 7]) = Ok (MkArr 4 2 [0; 1; 4; 5; 2; 3; 6; 7]) /\
  interweave2 false (MkArr 2 2 [0; 1; 2; 3]) (MkArr 2 1 [4; 5]) = Err ValueError.
Proof. split; reflexivity. Qed.

(** bndry_with_zeros *)
Theorem C61_pad (x : list R) : let y := bndry_with_zeros1 x in
  length y = (length x + 2)%nat /\ (forall i, (i < length x)%nat -> nth (i + 1) y 0 = nth i x 0) /\ nth 0 y 1 = 0 /\ nth (length x + 1) y 1 = 0.
Proof.
  cbv zeta. unfold bndry_with_zeros1, pad0. split; [rewrite !app_length; cbn; lia|]. split; [|split].
  - intros i Hi. rewrite Nat.add_1_r. cbn. now rewrite app_nth1.
  - reflexivity.
  - rewrite Nat.add_1_r. cbn. rewrite app_nth2 by lia. now rewrite Nat.sub_diag.
Qed.
Lemma nth_pad0 (x : list R) j : nth j (pad0 x) 0 = if (Nat.ltb 0 j && Nat.ltb j (length x + 1))%bool then nth (j - 1) x 0 else 0.
Proof.
  unfold pad0. destruct j as [|j]; cbn [app nth]; [reflexivity|]. replace (S j - 1)%nat with j by lia. change (Nat.ltb 0 (S j)) with true. cbn [andb].
  destruct (Nat.ltb_spec (S j) (length x + 1)) as [H|H].
  - now rewrite app_nth1 by lia.
  - rewrite app_nth2 by lia. destruct (j - length x)%nat as [|[|]]; reflexivity.
Qed.
Theorem C61_pad2 (x : arr R) : wf2 x -> (1 <= nr x)%nat -> (1 <= nc x)%nat ->
  bndry_with_zeros2 false x = Ok (mk2 (nr x) (nc x + 2) (fun i j => if (Nat.ltb 0 j && Nat.ltb j (nc x + 1))%bool then at2 x i (j - 1) else 0)) /\
  bndry_with_zeros2 true x = Ok (mk2 (nr x + 2) (nc x) (fun i j => if (Nat.ltb 0 i && Nat.ltb i (nr x + 1))%bool then at2 x (i - 1) j else 0)).
Proof.
  intros W Hr Hc. unfold bndry_with_zeros2. split.
  - rewrite (mk2_at x W) at 1. rewrite (along1_mk2 _ pad0 (nr x) (nc x) (nc x + 2)); [|lia|intros l L; split; [reflexivity|unfold pad0; rewrite !app_length, L; cbn; lia]].
    apply (f_equal (@Ok (arr R))), mk2_ext. intros i j Hi Hj. rewrite nth_pad0, length_tab. destruct (_ && _)%bool eqn:E; [|reflexivity]. apply andb_prop in E as [E1 E2]. apply Nat.ltb_lt in E1, E2. now rewrite nth_tab by lia.
  - rewrite (mk2_at x W) at 1. rewrite (along0_mk2 _ pad0 (nr x) (nc x) (nr x + 2)); [|lia|intros l L; split; [reflexivity|unfold pad0; rewrite !app_length, L; cbn; lia]].
    apply (f_equal (@Ok (arr R))), mk2_ext. intros i j Hi Hj. rewrite nth_pad0, length_tab. destruct (_ && _)%bool eqn:E; [|reflexivity]. apply andb_prop in E as [E1 E2]. apply Nat.ltb_lt in E1, E2. now rewrite nth_tab by lia.
Qed.

(** apply_map *)
Fixpoint lookup (m : list (Z * Z)) (k : Z) : Z := match m with [] => k | (k', v) :: m' => if Z.eqb k k' then v else lookup m' k end.
Lemma length_set_at {A} (l : list A) i v : length (set_at l i v) = length l.
Proof. revert i. induction l as [|a l IH]; intros [|i]; cbn; auto. Qed.
Lemma nth_set_at {A} (l : list A) i v k d : (i < length l)%nat -> nth k (set_at l i v) d = if Nat.eqb k i then v else nth k l d.
Proof.
  revert i k. induction l as [|a l IH]; intros i k H; [cbn in H; lia|]. destruct i as [|i], k as [|k]; cbn; auto. apply IH. cbn in H. lia.
Qed.
Lemma index_of_ok n k : (0 <= k < Z.of_nat n)%Z -> index_of n k = Ok (Z.to_nat k).
Proof. intro H. unfold index_of. now rewrite (Logic.proj2 (andb_true_iff _ _)) by (split; [apply Z.leb_le|apply Z.ltb_lt]; lia). Qed.
Lemma store_ok kv mp : NoDup (map fst kv) -> (forall k, In k (map fst kv) -> (0 <= k < Z.of_nat (length mp))%Z) ->
  exists mp', store mp kv = Ok mp' /\ length mp' = length mp /\ forall i, (i < length mp)%nat -> nth i mp' 0%Z = if in_dec Z.eq_dec (Z.of_nat i) (map fst kv) then lookup kv (Z.of_nat i) else nth i mp 0%Z.
Proof.
  revert mp. induction kv as [|[k v] kv IH]; intros mp ND H; cbn [store map fst].
  - exists mp. split; [reflexivity|]. split; [reflexivity|]. intros i Hi. destruct (in_dec _ _ _) as [[]|]; reflexivity.
  - inversion ND as [|? ? Nk ND']; subst. assert (0 <= k < Z.of_nat (length mp))%Z as Hk by (apply H; cbn; auto).
    rewrite index_of_ok by auto. cbn [bind]. destruct (IH (set_at mp (Z.to_nat k) v) ND') as (mp' & E & L & V); [intros k' Hk'; rewrite length_set_at; apply H; cbn; auto|].
    exists mp'. split; [exact E|]. rewrite length_set_at in *. split; [exact L|]. intros i Hi. rewrite V by auto. rewrite nth_set_at by lia. cbn [lookup].
    destruct (Z.eqb_spec (Z.of_nat i) k) as [<-|D].
    + destruct (in_dec _ _ (map fst kv)); [contradiction|]. destruct (in_dec _ _ (_ :: _)) as [|n0]; [|exfalso; apply n0; cbn; auto]. now rewrite Nat2Z.id, Nat.eqb_refl.
    + destruct (Nat.eqb_spec i (Z.to_nat k)); [exfalso; lia|]. destruct (in_dec _ _ (map fst kv)) as [I|I], (in_dec _ _ (k :: map fst kv)) as [J|J]; try reflexivity; exfalso; cbn in J; intuition.
Qed.
Lemma max_ge l d : (d <= fold_left Z.max l d)%Z /\ forall k, In k l -> (k <= fold_left Z.max l d)%Z.
Proof.
  revert d. induction l as [|a l IH]; intro d; cbn; [split; [lia|tauto]|]. destruct (IH (Z.max d a)) as [H1 H2]. split; [lia|]. intros k [->|Hk]; [lia|auto].
Qed.
Lemma max_in l d : In (fold_left Z.max l d) (d :: l).
Proof.
  revert d. induction l as [|a l IH]; intro d; cbn; [auto|]. destruct (IH (Z.max d a)) as [E|E]; [|auto]. rewrite <- E. destruct (Z.max_spec d a) as [[_ ->]|[_ ->]]; auto.
Qed.
Lemma lookup_notin kv k : ~ In k (map fst kv) -> lookup kv k = k.
Proof. induction kv as [|[k' v] kv IH]; cbn; [reflexivity|]. intro H. destruct (Z.eqb_spec k k'); [exfalso; auto|]. auto. Qed.
(** the keys must not exceed the largest index that occurs *)
Theorem C61_apply_map data identify : data <> [] -> (forall k, In k data -> (0 <= k)%Z) -> NoDup (map fst identify) ->
  (forall k, In k (map fst identify) -> (0 <= k)%Z /\ exists d, In d data /\ (k <= d)%Z) ->
  apply_map data identify = Ok (map (lookup identify) data).
Proof.
  destruct data as [|d data]; [easy|]. intros _ Hd ND Hk. unfold apply_map. cbv zeta. set (m := fold_left Z.max data d). destruct (max_ge data d) as [G1 G2]. fold m in G1, G2.
  assert (0 <= m)%Z by (specialize (Hd d ltac:(cbn; auto)); lia). set (mp := map Z.of_nat (seq 0 (Z.to_nat (m + 1)))).
  assert (length mp = Z.to_nat (m + 1)) as Lm by (unfold mp; now rewrite map_length, seq_length).
  destruct (store_ok identify mp ND) as (mp' & E & L & V).
  { intros k Hk'. destruct (Hk k Hk') as (H0 & x & Hx & Hkx). rewrite Lm. destruct Hx as [->|Hx]; [lia|]. specialize (G2 x Hx). lia. }
  rewrite E. cbn [bind]. apply mapM_ok. intros k Hk'. assert (0 <= k <= m)%Z as Hkm by (split; [now apply Hd|]; destruct Hk' as [->|Hk']; auto).
  rewrite index_of_ok by lia. cbn [bind]. f_equal. rewrite V by lia. rewrite Z2Nat.id by lia. destruct (in_dec _ _ _) as [I|I]; [reflexivity|].
  rewrite lookup_notin by auto. unfold mp. change 0%Z with (Z.of_nat 0) at 1. rewrite map_nth, seq_nth by lia. lia.
Qed.
(** entries down to -(m + 1), m the largest one, are indices from the end: they are replaced like their m + 1 + k *)
Theorem C61_apply_map_negative data identify m : In m data -> (0 <= m)%Z -> (forall k, In k data -> (- (m + 1) <= k <= m)%Z) -> NoDup (map fst identify) ->
  (forall k, In k (map fst identify) -> (0 <= k <= m)%Z) ->
  apply_map data identify = Ok (map (fun k => lookup identify (if (k <? 0)%Z then (m + 1 + k)%Z else k)) data).
Proof.
  destruct data as [|d data]; [easy|]. intros Im Pm Hd ND Hk. unfold apply_map. cbv zeta. destruct (max_ge data d) as [G1 G2]. pose proof (max_in data d) as G3.
  assert (fold_left Z.max data d = m) as -> by (apply Z.le_antisymm; [apply Hd; auto|destruct Im as [->|Im]; auto]). set (mp := map Z.of_nat (seq 0 (Z.to_nat (m + 1)))).
  assert (length mp = Z.to_nat (m + 1)) as Lm by (unfold mp; now rewrite map_length, seq_length).
  destruct (store_ok identify mp ND) as (mp' & E & L & V). { intros k Hk'. specialize (Hk k Hk'). lia. }
  rewrite E. cbn [bind]. apply mapM_ok. intros k Hk'. specialize (Hd k Hk').
  assert (forall i, (0 <= i <= m)%Z -> nth (Z.to_nat i) mp' 0%Z = lookup identify i) as V'.
  { intros i Hi. rewrite V by lia. rewrite Z2Nat.id by lia. destruct (in_dec _ _ _) as [I|I]; [reflexivity|]. rewrite lookup_notin by auto. unfold mp. change 0%Z with (Z.of_nat 0) at 1. rewrite map_nth, seq_nth by lia. lia. }
  destruct (Z.ltb_spec k 0) as [Hn|Hp].
  - unfold index_of. replace (0 <=? k)%Z with false by (symmetry; apply Z.leb_gt; lia). cbn [andb]. replace (- Z.of_nat (length mp') <=? k)%Z with true by (symmetry; apply Z.leb_le; lia). replace (k <? 0)%Z with true by (symmetry; apply Z.ltb_lt; lia). cbn [andb bind].
    apply (f_equal (@Ok Z)). rewrite <- V' by lia. f_equal. lia.
  - rewrite index_of_ok by lia. cbn [bind]. now rewrite V' by lia.
Qed.
(** a key larger than every index raises IndexError, and so does an empty array (ValueError) *)
Theorem C61_apply_map_raises data k v identify : (forall x, In x data -> (0 <= x < k)%Z) ->
  apply_map data ((k, v) :: identify) = Err (match data with [] => ValueError | _ => IndexError end).
Proof.
  destruct data as [|d data]; [reflexivity|]. intro H. unfold apply_map. cbv zeta. pose proof (max_in data d) as Hm. apply H in Hm. cbn [store]. rewrite map_length, seq_length. unfold index_of.
  set (m := fold_left Z.max data d) in *. replace (k <? Z.of_nat (Z.to_nat (m + 1)))%Z with false by (symmetry; apply Z.ltb_ge; lia).
  replace (k <? 0)%Z with false by (symmetry; apply Z.ltb_ge; lia). rewrite !andb_false_r. reflexivity.
Qed.
Example C61_apply_map_instance : apply_map [0; 1; 2; 1]%Z [(0, 3); (2, 0)]%Z = Ok [3; 1; 0; 1]%Z.
Proof. apply (C61_apply_map [0; 1; 2; 1]%Z [(0, 3); (2, 0)]%Z); [easy| | |]. - cbn. intuition lia. - repeat constructor; cbn; intuition lia. - cbn. intros k [<-|[<-|[]]]; (split; [lia|]); exists 2%Z; (split; [tauto|lia]). Qed.

Example C61_apply_map_negative_instance : apply_map [0; -1; 2; -3]%Z [(0, 3); (1, 5)]%Z = Ok [3; 2; 2; 3]%Z.
Proof. apply (C61_apply_map_negative [0; -1; 2; -3]%Z [(0, 3); (1, 5)]%Z 2%Z); [cbn; tauto|lia|cbn; intuition lia|repeat constructor; cbn; intuition lia|cbn; intuition lia]. Qed.
(** ** C33: refinement of arrays of integers *)
(** all but T[0, False] treat an array of integers like the array of floats with the same values *)
Theorem C33_unaffected close l : let f := AInt l in let g := AFlt (map IZR l) in
  T0_nd f = T0_nd g /\ T1_nd f = T1_nd g /\ T1d_nd f = T1d_nd g /\
  T0_cheb_nd f = T0_cheb_nd g /\ T1_cheb_nd close f = T1_cheb_nd close g /\ T1d_cheb_nd f = T1d_cheb_nd g.
Proof.
  cbv zeta. repeat split.
  - unfold T0_nd, flt. cbn [floats]. destruct (spec opS (map IZR l)); reflexivity.
  - unfold T0_cheb_nd, flt. cbn [floats]. destruct (S_cheb (map IZR l)); reflexivity.
Qed.
(** on floats these are the refinements of C31 and C32 *)
Theorem C33_floats close x :
  T0_nd (AFlt x) = bind (T0_periodic x) (fun y => Ok (AFlt y)) /\ T1_nd (AFlt x) = bind (T1_periodic x) (fun y => Ok (AFlt y)) /\
  T0d_nd (AFlt x) = bind (T0d_periodic x) (fun y => Ok (AFlt y)) /\ T1d_nd (AFlt x) = bind (T1d_periodic x) (fun y => Ok (AFlt y)) /\
  T0_cheb_nd (AFlt x) = bind (T0_cheb x) (fun y => Ok (AFlt y)) /\ T1_cheb_nd close (AFlt x) = bind (T1_cheb close x) (fun y => Ok (AFlt y)) /\
  T0d_cheb_nd (AFlt x) = bind (T0d_cheb x) (fun y => Ok (AFlt y)) /\ T1d_cheb_nd (AFlt x) = bind (T1d_cheb x) (fun y => Ok (AFlt y)).
Proof.
  assert (forall u, T0_nd (AFlt u) = bind (T0_periodic u) (fun y => Ok (AFlt y))) as A1 by (intro u; unfold T0_nd, T0_periodic, flt; cbn [floats]; destruct (spec opS u); reflexivity).
  assert (forall u, T0d_nd (AFlt u) = bind (T0d_periodic u) (fun y => Ok (AFlt y))) as A2 by (intro u; unfold T0d_nd, T0d_periodic, flt; cbn [floats]; destruct (spec opSinv u); reflexivity).
  assert (forall u, T0_cheb_nd (AFlt u) = bind (T0_cheb u) (fun y => Ok (AFlt y))) as A3 by (intro u; unfold T0_cheb_nd, T0_cheb, flt; cbn [floats]; destruct (S_cheb u); reflexivity).
  assert (forall u, T0d_cheb_nd (AFlt u) = bind (T0d_cheb u) (fun y => Ok (AFlt y))) as A4 by (intro u; unfold T0d_cheb_nd, T0d_cheb, flt; cbn [floats]; destruct (S_cheb_pinv u); reflexivity).
  repeat split; auto.
  - unfold T1_nd, T1_periodic, flt. cbn [floats]. destruct (spec opHinv x); [|reflexivity]. cbn [bind]. apply A2.
  - unfold T1d_nd, T1d_periodic, flt. cbn [floats]. destruct (spec opHinv x); [|reflexivity]. cbn [bind]. apply A1.
  - unfold T1_cheb_nd, T1_cheb, flt. cbn [floats]. destruct (H1_cheb close x); [|reflexivity]. cbn [bind]. apply A4.
  - unfold T1d_cheb_nd, T1d_cheb, flt. cbn [floats]. destruct (H1d_cheb x); [|reflexivity]. cbn [bind]. apply A3.
Qed.
(** T[0, False] returns integers: the interpolated values, at the even positions, are truncated *)
Lemma weave_map {A B} (h : A -> B) a b : map h (weave a b) = weave (map h a) (map h b).
Proof. revert b. induction a as [|x a IH]; intros [|y b]; cbn; [reflexivity..|]. now rewrite IH. Qed.
Lemma interweave_trunc s l c : interweave s (map IZR l) = Ok c -> exists d, interweave (map trunc s) l = Ok d /\ length d = length c /\
  forall j, nth j (map IZR d) 0 = if Nat.even j then IZR (trunc (nth j c 0)) else nth j c 0.
Proof.
  unfold interweave. rewrite !map_length. destruct (_ && _)%bool eqn:E; [|discriminate]. intros [= <-]. apply andb_prop in E as [E1 E2]. apply Nat.eqb_eq in E1, E2.
  eexists. split; [reflexivity|]. assert (length l <= length s <= length l + 1)%nat as H by lia. split; [rewrite !length_weave; rewrite ?map_length; lia|]. intro j.
  rewrite weave_map. destruct (Nat.even j) eqn:Ej.
  - apply Nat.even_spec in Ej as [k ->]. rewrite !nth_weave_even by (rewrite ?map_length; lia). rewrite map_map. destruct (Nat.lt_ge_cases k (length s)) as [K|K].
    + now rewrite (nth_map_ _ _ _ _ 0) by auto.
    + rewrite !nth_overflow by (rewrite ?map_length; lia). now rewrite trunc_IZR.
  - assert (Nat.odd j = true) as Oj by (unfold Nat.odd; now rewrite Ej). apply Nat.odd_spec in Oj as [k ->]. now rewrite !nth_weave_odd by (rewrite ?map_length; lia).
Qed.
Theorem C33_dual_truncates N l : (1 <= N)%nat -> length l = N -> exists c d,
  T0d_nd (AFlt (map IZR l)) = Ok (AFlt c) /\ T0d_nd (AInt l) = Ok (AInt d) /\ length c = (2 * N)%nat /\ length d = (2 * N)%nat /\
  forall j, nth j (map IZR d) 0 = if Nat.even j then IZR (trunc (nth j c 0)) else nth j c 0.
Proof.
  intros HN L. destruct (C33_floats (fun _ _ => false) (map IZR l)) as (_ & _ & E & _). unfold T0d_periodic in E. unfold T0d_nd at 2. unfold flt. cbn [floats].
  assert (spec opSinv (map IZR l) = Ok (opSinv (map IZR l))) as Es by (unfold spec; destruct l; [cbn in L; lia|reflexivity]). rewrite Es in *. cbn [bind] in *. rewrite E.
  set (s := opSinv (map IZR l)) in *. assert (length s = N) as Ls by (unfold s; rewrite (lin_len N N) by (try apply lin_opSinv; rewrite ?map_length; auto); reflexivity).
  rewrite interweave_ok by (rewrite ?map_length; lia). cbn [bind interweave_nd ints].
  destruct (interweave_trunc s l (weave s (map IZR l))) as (d & Ed & Ld & V); [apply interweave_ok; rewrite map_length; lia|]. rewrite Ed. cbn [bind].
  rewrite length_weave in Ld by (rewrite map_length; lia). rewrite map_length in Ld.
  exists (weave s (map IZR l)), d. split; [reflexivity|]. split; [reflexivity|]. rewrite length_weave by (rewrite map_length; lia). rewrite map_length. split; [lia|]. split; [lia|exact V].
Qed.
Theorem C33_dual_truncates_cheb n l : (2 <= n)%nat -> length l = (n - 1)%nat -> exists c d,
  T0d_cheb_nd (AFlt (map IZR l)) = Ok (AFlt c) /\ T0d_cheb_nd (AInt l) = Ok (AInt d) /\ length c = (2 * n - 1)%nat /\ length d = (2 * n - 1)%nat /\
  forall j, nth j (map IZR d) 0 = if Nat.even j then IZR (trunc (nth j c 0)) else nth j c 0.
Proof.
  intros HN L. destruct (C33_floats (fun _ _ => false) (map IZR l)) as (_ & _ & _ & _ & _ & _ & E & _). unfold T0d_cheb_nd at 2. unfold flt. cbn [floats]. rewrite E. unfold T0d_cheb.
  destruct (rlin_total (n - 1) n S_cheb_pinv (map IZR l)) as (s & Es & Ls); [apply (rlin_eq (n - 1) (n - 1 + 1)); [lia|lia|apply rlin_S_cheb_pinv; lia]|rewrite map_length; lia|]. rewrite Es. cbn [bind].
  rewrite interweave_ok by (rewrite ?map_length; lia). cbn [bind interweave_nd ints].
  destruct (interweave_trunc s l (weave s (map IZR l))) as (d & Ed & Ld & V); [apply interweave_ok; rewrite map_length; lia|]. rewrite Ed. cbn [bind].
  rewrite length_weave in Ld by (rewrite map_length; lia). rewrite map_length in Ld.
  exists (weave s (map IZR l)), d. split; [reflexivity|]. split; [reflexivity|]. rewrite length_weave by (rewrite map_length; lia). rewrite map_length. split; [lia|]. split; [lia|exact V].
Qed.
(** so the refinement of a dual 0-form depends on the type of the array: for [0, 1] the value 1/2 becomes 0 *)
Theorem C33_refuted : exists c d, T0d_nd (AFlt [0; 1]) = Ok (AFlt c) /\ T0d_nd (AInt [0; 1]%Z) = Ok (AInt d) /\
  nth 0 c 0 = 1 / 2 /\ nth 0 d 0%Z = 0%Z /\ map IZR d <> c.
Proof.
  destruct (C33_dual_truncates 2 [0; 1]%Z) as (c & d & E1 & E2 & L1 & L2 & V); [lia|reflexivity|]. cbn [map] in E1. exists c, d. split; [exact E1|]. split; [exact E2|].
  assert (nth 0 c 0 = 1 / 2) as E0.
  { destruct (C33_floats (fun _ _ => false) [0; 1]) as (_ & _ & E & _). rewrite E1 in E. rewrite (T0d_val 2) in E by (auto; lia). cbn [bind] in E. injection E as ->. rewrite nth_tab by lia.
    assert (forall x, alphaS 2 x = (cos x + 1) / 2) as A2.
    { intro x. unfold alphaS, fz. cbn [Rsum INR]. simpl (Z.of_nat _ - Z.of_nat _)%Z. replace (-1 * x) with (- x) by ring. rewrite cos_neg, Rmult_0_l, cos_0. field. }
    unfold interp. cbn [length Rsum nth]. rewrite !A2. unfold xg, hstep. cbn [INR Nat.add].
    replace (0 * (2 * PI / (1 + 1 + 1 + 1)) - 2 * PI / (1 + 1) / 2 - 1 * (2 * PI / (1 + 1))) with (- (3 * (PI / 2))) by field. rewrite cos_neg, cos_3PI2. field. }
  pose proof (V 0%nat) as V0. rewrite E0 in V0. cbn [Nat.even] in V0.
  assert (trunc (1 / 2) = 0%Z) as T0. { unfold trunc. destruct (Rlt_dec _ _); [lra|]. apply floor_unique. lra. }
  rewrite T0 in V0. split; [exact E0|]. destruct d as [|z d]; [cbn in L2; lia|]. cbn in V0. split; [cbn; now apply eq_IZR|]. intros <-. cbn in E0. lra.
Qed.
