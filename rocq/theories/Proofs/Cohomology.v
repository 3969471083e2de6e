(** Cohomology of the discrete de Rham complex of a product grid, from the kernels and images of the two factors (Kuenneth) *)
From Coq Require Import ZArith Reals List Lia Lra Arith Bool.
From Coq Require Import ZifyNat ZifyBool.
From Verif Require Import Model.Sym.
From Coquelicot Require Import Coquelicot.
From Verif Require Import Model.Num Model.Np Model.Spectral Model.Basis Model.Grids1 Model.Regular Model.Chebyshev Model.Common Model.Decform Model.Grid2 Spec.Tiling
  Proofs.ListLemmas Proofs.RingSums Proofs.Grids1P Proofs.GridsThm Proofs.Lin Proofs.TableLin Proofs.Arr2 Proofs.Grid2P Proofs.Grid2Ops Proofs.LaplaceP.
Import ListNotations.
Local Open Scope R_scope.
Ltac Zify.zify_post_hook ::= Z.div_mod_to_equations.

Lemma finite_choice {A} (P : nat -> A -> Prop) (a0 : A) r : (forall i, (i < r)%nat -> exists a, P i a) -> exists F, forall i, (i < r)%nat -> P i (F i).
Proof.
  induction r as [|r IH]; intro H; [exists (fun _ => a0); lia|]. destruct IH as (F & HF); [intros; apply H; lia|]. destruct (H r ltac:(lia)) as (a & Ha).
  exists (fun i => if Nat.eqb i r then a else F i). intros i Hi. destruct (Nat.eqb_spec i r) as [->|]; [exact Ha|apply HF; lia].
Qed.
Lemma onrows_comb m n g a b (F G : nat -> nat -> R) i j : lin m n g -> (j < n)%nat -> onrows m g (fun i j => a * F i j + b * G i j) i j = a * onrows m g F i j + b * onrows m g G i j.
Proof.
  intros L Hj. unfold onrows. transitivity (nth j (g (tab m (fun k => bsum 2 (fun q => match q with O => a | _ => b end * match q with O => F i k | _ => G i k end)))) 0).
  { do 2 f_equal. apply tab_ext. intros k Hk. cbn. ring. }
  etransitivity; [exact (nth_lin_bsum (A := R) m n g 2 (fun q => match q with O => a | _ => b end) (fun q k => match q with O => F i k | _ => G i k end) j L Hj)|]. cbn. change (fun k : nat => F i k) with (F i). change (fun k => G i k) with (G i). ring.
Qed.
Lemma oncols_comb m n g a b (F G : nat -> nat -> R) i j : lin m n g -> (i < n)%nat -> oncols m g (fun i j => a * F i j + b * G i j) i j = a * oncols m g F i j + b * oncols m g G i j.
Proof. intros L H. exact (onrows_comb m n g a b (fun i j => F j i) (fun i j => G j i) j i L H). Qed.
Lemma lsum_tabR n (f : nat -> R) : lsum (tab n f) = bsum n f. Proof. exact (lsum_tab n f). Qed.
Lemma bsum_extR n (f g : nat -> R) : (forall i, (i < n)%nat -> f i = g i) -> bsum n f = bsum n g. Proof. exact (bsum_ext n f g). Qed.
Lemma bsum_comb n a b (f g : nat -> R) : bsum n (fun i => a * f i + b * g i) = a * bsum n f + b * bsum n g.
Proof. pose proof (bsum_plus (A := R) n (fun i => a * f i) (fun i => b * g i)) as Q. pose proof (bsum_scal (A := R) n a f) as Q1. pose proof (bsum_scal (A := R) n b g) as Q2. cbn [nadd nmul NumR] in *. lra. Qed.
(** the sum over a row of an operator on the columns is the operator on the row sums *)
Lemma oncols_rowsum m n p g (F : nat -> nat -> R) i : lin m n g -> (i < n)%nat -> bsum p (oncols m g F i) = nth i (g (tab m (fun k => bsum p (F k)))) 0.
Proof.
  intros L Hi. symmetry. transitivity (nth i (g (tab m (fun k => bsum p (fun j => 1 * F k j)))) 0).
  { do 2 f_equal. apply tab_ext. intros k Hk. apply bsum_extR. intros. ring. }
  etransitivity; [exact (nth_lin_bsum (A := R) m n g p (fun _ => 1) (fun q k => F k q) i L Hi)|]. apply bsum_extR. intros j Hj. unfold oncols. cbn. ring.
Qed.

(** ** a complex with one operator: constants in the kernel or not ([h0]), sums of the image zero or not ([h1]) *)
Definition line (h0 h1 : bool) (m n : nat) (d : list R -> list R) : Prop :=
  lin m n d /\
  (forall f, length f = m -> d f = cst n 0 -> f = cst m (if h0 then nth 0 f 0 else 0)) /\
  (h0 = true -> forall c, d (cst m c) = cst n 0) /\
  (h1 = true -> forall f, length f = m -> lsum (d f) = 0) /\
  (forall g, length g = n -> (h1 = true -> lsum g = 0) -> exists f, length f = m /\ d f = g).
Definition loop (g : grid1) : bool := match kd g with Periodic => true | _ => false end.
Lemma line_dv g t : good g -> line (loop g || t) (loop g || negb t) (Nd g 0 t) (Nd g 1 t) (dv g t).
Proof.
  intro G. pose proof G as [B _]. split; [now apply lin_dv|]. unfold loop, Nd, dv. set (k := kd g) in *. set (n := sz g) in *.
  assert (k = Periodic /\ match k with Periodic => true | _ => false end = true \/ k <> Periodic /\ match k with Periodic => true | _ => false end = false) as [[Hk ->]|[Hk ->]] by (destruct k; (left; now split) || (right; split; [discriminate|reflexivity])); cbn [orb].
  - destruct t.
    + split; [exact (D0_ker k n B)|]. split; [intros _; exact (D0_cst k n B)|]. split; [intros _ f; exact (sum_D0_periodic k n B f Hk)|].
      intros g' L S. exact (D0_image k n B g' L (fun _ => S eq_refl)).
    + split; [intros f; exact (D0d_ker_periodic k n B f Hk)|]. split; [intros _ c; exact (D0d_cst_periodic k n B c Hk)|]. split; [intros _ f; exact (sum_D0d k n B f)|].
      intros g' L S. exact (D0d_image k n B g' L (S eq_refl)).
  - destruct t; cbn [negb].
    + split; [exact (D0_ker k n B)|]. split; [intros _; exact (D0_cst k n B)|]. split; [discriminate|].
      intros g' L S. apply (D0_image k n B g' L). intro; congruence.
    + split; [intros f; exact (D0d_ker_interval k n B f Hk)|]. split; [discriminate|]. split; [intros _ f; exact (sum_D0d k n B f)|].
      intros g' L S. exact (D0d_image k n B g' L (S eq_refl)).
Qed.

Lemma tab_cst m c : tab m (fun _ => c) = cst m c.
Proof. apply (nth_ext _ _ 0 0); [now rewrite length_tab, length_cst|]. intros i Hi. rewrite length_tab in Hi. rewrite nth_tab, nth_cst by auto. reflexivity. Qed.
Lemma tab_zero m f : (forall i, (i < m)%nat -> f i = 0) -> tab m f = cst m 0.
Proof. intro H. rewrite <- tab_cst. apply tab_ext. exact H. Qed.
Lemma nth0 i m : nth i (cst m 0) 0 = 0.
Proof. destruct (Nat.lt_ge_cases i m); [now apply nth_cst|apply nth_overflow; now rewrite length_cst]. Qed.

Section Rows.
Variables (h0 h1 : bool) (m n : nat) (d : list R -> list R).
Hypothesis Hd : line h0 h1 m n d.
(** solving along every row *)
Lemma rows_solve r (U : nat -> nat -> R) : (h1 = true -> forall i, (i < r)%nat -> bsum n (U i) = 0) -> exists F, forall i j, (i < r)%nat -> (j < n)%nat -> onrows m d F i j = U i j.
Proof.
  intro H. destruct Hd as (Ld & _ & _ & _ & Im).
  destruct (finite_choice (fun i f => length f = m /\ d f = tab n (U i)) [] r) as (F & HF).
  { intros i Hi. apply Im; [apply length_tab|]. intro E. rewrite lsum_tabR. now apply H. }
  exists (fun i j => nth j (F i) 0). intros i j Hi Hj. destruct (HF i Hi) as (L & E). unfold onrows. rewrite <- L, <- (list_tab 0), E, nth_tab by auto. reflexivity.
Qed.
Lemma rows_ker r (F : nat -> nat -> R) : (0 < m)%nat -> (forall i j, (i < r)%nat -> (j < n)%nat -> onrows m d F i j = 0) -> forall i j, (i < r)%nat -> (j < m)%nat -> F i j = if h0 then F i 0%nat else 0.
Proof.
  intros Hm H i j Hi Hj. destruct Hd as (Ld & K & _). assert (d (tab m (F i)) = cst n 0) as E.
  { apply (nth_ext _ _ 0 0); [rewrite length_cst; apply (lin_len m n d _ Ld), length_tab|]. intros q Hq. rewrite (lin_len m n d _ Ld) in Hq by apply length_tab. rewrite nth_cst by auto. exact (H i q Hi Hq). }
  apply K in E; [|apply length_tab]. rewrite <- (nth_tab m (F i) j 0) at 1 by auto. rewrite E, nth_cst by auto. destruct h0; auto. now apply nth_tab.
Qed.
Lemma rows_cst (F : nat -> nat -> R) i j : h0 = true -> (j < n)%nat -> (forall k, (k < m)%nat -> F i k = F i 0%nat) -> onrows m d F i j = 0.
Proof. intros E Hj H. destruct Hd as (_ & _ & Kc & _). unfold onrows. rewrite (tab_ext m _ (fun _ => F i 0%nat)) by exact H. rewrite tab_cst, Kc by auto. apply nth0. Qed.
Lemma rows_zero (F : nat -> nat -> R) i j : (forall k, (k < m)%nat -> F i k = 0) -> onrows m d F i j = 0.
Proof. intros H. destruct Hd as (Ld & _). unfold onrows. rewrite tab_zero by exact H. rewrite (lin_zeros m n d Ld). apply nth0. Qed.
Lemma rows_sum (F : nat -> nat -> R) i : h1 = true -> bsum n (onrows m d F i) = 0.
Proof.
  intro E. destruct Hd as (Ld & _ & _ & S & _). unfold onrows. rewrite <- lsum_tabR. rewrite <- (lin_len m n d (tab m (F i)) Ld) at 1 by apply length_tab. rewrite <- (list_tab 0). apply S; auto. apply length_tab.
Qed.
End Rows.

Section Kuenneth.
Variables (h0x h1x h0y h1y : bool) (mx nx my ny : nat) (dx dy : list R -> list R).
Hypothesis Hx : line h0x h1x mx nx dx. Hypothesis Hy : line h0y h1y my ny dy.
Hypothesis Pmx : (0 < mx)%nat. Hypothesis Pnx : (0 < nx)%nat. Hypothesis Pmy : (0 < my)%nat. Hypothesis Pny : (0 < ny)%nat.
Lemma linx : lin mx nx dx. Proof. exact (Logic.proj1 Hx). Qed.
Lemma liny : lin my ny dy. Proof. exact (Logic.proj1 Hy). Qed.
(** kernel of the derivative of 0-forms *)
Lemma kernel0 (F : nat -> nat -> R) : ((forall i j, (i < my)%nat -> (j < nx)%nat -> onrows mx dx F i j = 0) /\ (forall i j, (i < ny)%nat -> (j < mx)%nat -> oncols my dy F i j = 0)) <->
  (forall i j, (i < my)%nat -> (j < mx)%nat -> F i j = if h0x && h0y then F 0%nat 0%nat else 0).
Proof.
  split.
  - intros [H H'] i j Hi Hj. rewrite (rows_ker h0x h1x mx nx dx Hx my F Pmx H i j Hi Hj). destruct h0x; cbn [andb]; auto.
    exact (rows_ker h0y h1y my ny dy Hy mx (fun i j => F j i) Pmy (fun i j Hi Hj => H' j i Hj Hi) 0%nat i Pmx Hi).
  - intro H. split; intros i j Hi Hj.
    + destruct h0x eqn:E; cbn [andb] in H.
      * apply (rows_cst true h1x mx nx dx); auto. intros k Hk. destruct h0y; rewrite (H i k), (H i 0%nat); auto.
      * apply (rows_zero false h1x mx nx dx); auto. 
    + destruct h0y eqn:E.
      * apply (rows_cst true h1y my ny dy Hy (fun i j => F j i)); auto. intros k Hk. destruct h0x; cbn [andb] in H; rewrite (H k j), (H 0%nat j); auto.
      * apply (rows_zero false h1y my ny dy Hy (fun i j => F j i)). intros k Hk. rewrite andb_false_r in H. auto.
Qed.
Notation closed U V := (forall i j, (i < ny)%nat -> (j < nx)%nat -> - oncols my dy U i j + onrows mx dx V i j = 0).
Notation exact1 U V := (exists F, (forall i j, (i < my)%nat -> (j < nx)%nat -> onrows mx dx F i j = U i j) /\ (forall i j, (i < ny)%nat -> (j < mx)%nat -> oncols my dy F i j = V i j)).
(** the sums of a closed form along the rows are all the same *)
Lemma period_rows (U V : nat -> nat -> R) : closed U V -> h1x = true -> forall i, (i < my)%nat -> bsum nx (U i) = if h0y then bsum nx (U 0%nat) else 0.
Proof.
  intros H E i Hi. refine (rows_ker h0y h1y my ny dy Hy 1%nat (fun _ k => bsum nx (U k)) Pmy _ 0%nat i ltac:(lia) Hi).
  intros z j _ Hj. pose proof (oncols_rowsum my ny nx dy U j liny Hj) as Q. unfold onrows. etransitivity; [exact (eq_sym Q)|]. 
  rewrite <- (rows_sum h0x h1x mx nx dx Hx V j E). apply bsum_extR. intros q Hq. specialize (H j q Hj Hq). lra.
Qed.
Lemma period_cols (U V : nat -> nat -> R) : closed U V -> h1y = true -> forall j, (j < mx)%nat -> bsum ny (fun i => V i j) = if h0x then bsum ny (fun i => V i 0%nat) else 0.
Proof.
  intros H E j Hj. refine (rows_ker h0x h1x mx nx dx Hx 1%nat (fun _ k => bsum ny (fun i => V i k)) Pmx _ 0%nat j ltac:(lia) Hj).
  intros z q _ Hq. pose proof (oncols_rowsum mx nx ny dx (fun i j => V j i) q linx Hq) as Q. unfold onrows. etransitivity; [exact (eq_sym Q)|].
  rewrite <- (rows_sum h0y h1y my ny dy Hy (fun i j => U j i) q E). apply bsum_extR. intros p Hp. specialize (H p q Hp Hq). unfold onrows, oncols in *. change (fun i => V p i) with (V p) in *. change (fun i => U i q) with (fun k => U k q) in *. lra.
Qed.
Lemma exact_1 (U V : nat -> nat -> R) : closed U V -> (h1x = true -> h0y = true -> bsum nx (U 0%nat) = 0) -> (h0x = true -> h1y = true -> bsum ny (fun i => V i 0%nat) = 0) -> exact1 U V.
Proof.
  intros Hc Px Py. pose proof linx as LX. pose proof liny as LY. destruct (rows_solve h0x h1x mx nx dx Hx my U) as (F0 & EF).
  { intros E i Hi. rewrite (period_rows U V Hc E i Hi). destruct h0y; auto. }
  set (W := fun i j => 1 * V i j + (-1) * oncols my dy F0 i j).
  assert (forall i j, (i < ny)%nat -> (j < mx)%nat -> W i j = if h0x then W i 0%nat else 0) as HW.
  { apply (rows_ker h0x h1x mx nx dx Hx ny W Pmx). intros i j Hi Hj. unfold W. rewrite (onrows_comb mx nx dx 1 (-1) V (oncols my dy F0) i j LX Hj).
    rewrite (rows_cols my mx nx ny dx dy F0 i j LX LY Hi Hj). rewrite (oncols_ext my dy (onrows mx dx F0) U) by (intros; now apply EF). specialize (Hc i j Hi Hj). lra. }
  destruct h0x eqn:Ex.
  - destruct (rows_solve h0y h1y my ny dy Hy 1%nat (fun _ i => W i 0%nat)) as (gg & Eg).
    { intros E _ _. unfold W. rewrite (bsum_comb ny 1 (-1) (fun i => V i 0%nat) (fun i => oncols my dy F0 i 0%nat)). rewrite Py by auto.
      pose proof (rows_sum h0y h1y my ny dy Hy (fun i j => F0 j i) 0%nat E) as Q. unfold onrows, oncols in *. rewrite Q. ring. }
    exists (fun i j => 1 * F0 i j + 1 * gg 0%nat i). split; intros i j Hi Hj.
    + rewrite (onrows_comb mx nx dx 1 1 F0 (fun i _ => gg 0%nat i) i j LX Hj), EF by auto. rewrite (rows_cst true h1x mx nx dx Hx (fun i _ => gg 0%nat i)) by auto. ring.
    + rewrite (oncols_comb my ny dy 1 1 F0 (fun i _ => gg 0%nat i) i j LY Hi). change (oncols my dy (fun i _ => gg 0%nat i) i j) with (onrows my dy gg 0 i). rewrite Eg by (auto; lia). rewrite <- (HW i j) by auto. unfold W. ring.
  - exists F0. split; [exact EF|]. intros i j Hi Hj. specialize (HW i j Hi Hj). unfold W in HW. lra.
Qed.
Lemma exact_1_sums (U V : nat -> nat -> R) : exact1 U V -> (h1x = true -> forall i, (i < my)%nat -> bsum nx (U i) = 0) /\ (h1y = true -> forall j, (j < mx)%nat -> bsum ny (fun i => V i j) = 0).
Proof.
  intros (F & EU & EV). split.
  - intros E i Hi. rewrite <- (rows_sum h0x h1x mx nx dx Hx F i E). apply bsum_extR. intros j Hj. symmetry. now apply EU.
  - intros E j Hj. rewrite <- (rows_sum h0y h1y my ny dy Hy (fun i j => F j i) j E). apply bsum_extR. intros i Hi. symmetry. now apply EV.
Qed.
(** closed forms with any periods *)
Definition delta0 (i : nat) : R := match i with O => 1 | _ => 0 end.
Lemma bsum_delta p c : (0 < p)%nat -> bsum p (fun i => c * delta0 i) = c.
Proof. intro H. rewrite (bsum_single (A := R) p 0 (fun i => c * delta0 i) H). - cbn. ring. - intros i Hi H0. destruct i; [congruence|]. cbn. ring. Qed.
Lemma periods_onto a b : (h1x = true -> h0y = true -> exists U, closed U (fun _ _ => 0) /\ bsum nx (U 0%nat) = a) /\ (h0x = true -> h1y = true -> exists V, closed (fun _ _ => 0) V /\ bsum ny (fun i => V i 0%nat) = b).
Proof.
  split; intros E E'.
  - exists (fun _ j => a * delta0 j). split; [|now apply bsum_delta]. intros i j Hi Hj. rewrite (rows_zero h0x h1x mx nx dx Hx (fun _ _ => 0)) by auto.
    pose proof (rows_cst h0y h1y my ny dy Hy (fun i _ => a * delta0 i) j i E' Hi ltac:(auto)) as Q. unfold oncols, onrows in *. lra.
  - exists (fun i _ => b * delta0 i). split; [|now apply bsum_delta]. intros i j Hi Hj. rewrite (rows_cst h0x h1x mx nx dx Hx (fun i _ => b * delta0 i) i j E Hj) by auto.
    pose proof (rows_zero h0y h1y my ny dy Hy (fun _ _ => 0) j i ltac:(auto)) as Q. unfold oncols, onrows in *. lra.
Qed.
(** 2-forms *)
Notation exact2 K := (exists U V, forall i j, (i < ny)%nat -> (j < nx)%nat -> - oncols my dy U i j + onrows mx dx V i j = K i j).
Lemma exact_2 (K : nat -> nat -> R) : exact2 K <-> (h1x = true -> h1y = true -> bsum ny (fun i => bsum nx (K i)) = 0).
Proof.
  pose proof linx as LX. pose proof liny as LY. split.
  - intros (U & V & H) E E'. transitivity (bsum ny (fun i => bsum nx (fun j => - oncols my dy U i j) + bsum nx (onrows mx dx V i))).
    { apply bsum_extR. intros i Hi. refine (eq_trans _ (bsum_plus (A := R) nx (fun j => - oncols my dy U i j) (onrows mx dx V i))). apply bsum_extR. intros j Hj. symmetry. now apply H. }
    rewrite (bsum_extR ny _ (fun i => bsum nx (fun j => - oncols my dy U i j))). 2:{ intros i Hi. rewrite (rows_sum h0x h1x mx nx dx Hx V i E). ring. }
    etransitivity; [exact (bsum_swap (A := R) ny nx (fun i j => - oncols my dy U i j))|]. apply bsum_zeroR. intros j Hj. etransitivity; [exact (bsum_opp (A := R) ny (fun i => oncols my dy U i j))|].
    pose proof (rows_sum h0y h1y my ny dy Hy (fun i j => U j i) j E') as Q. unfold onrows, oncols in *. rewrite Q. cbn. ring.
  - intro H. destruct h1x eqn:Ex.
    + destruct (rows_solve h0x true mx nx dx Hx ny (fun i j => 1 * K i j + - (bsum nx (K i)) * delta0 j)) as (V & EV).
      { intros _ i Hi. rewrite (bsum_comb nx 1 (- (bsum nx (K i))) (K i) delta0). pose proof (bsum_delta nx 1 Pnx) as Q. rewrite (bsum_extR nx _ delta0) in Q by (intros; ring). rewrite Q. change (fun j => K i j) with (K i). ring. }
      destruct (rows_solve h0y h1y my ny dy Hy 1%nat (fun _ i => bsum nx (K i))) as (gg & Eg); [intros E _ _; now apply H|].
      exists (fun i j => - delta0 j * gg 0%nat i + 0 * 0), V. intros i j Hi Hj. rewrite EV by auto. rewrite (oncols_comb my ny dy (- delta0 j) 0 (fun i _ => gg 0%nat i) (fun _ _ => 0) i j LY Hi) || idtac.
      assert (oncols my dy (fun i j => - delta0 j * gg 0%nat i + 0 * 0) i j = - delta0 j * bsum nx (K i)) as ->; [|ring].
      transitivity (oncols my dy (fun i _ => - delta0 j * gg 0%nat i + 0 * 0) i j); [reflexivity|].
      rewrite (oncols_comb my ny dy (- delta0 j) 0 (fun i _ => gg 0%nat i) (fun _ _ => 0) i j LY Hi). change (oncols my dy (fun i _ => gg 0%nat i) i j) with (onrows my dy gg 0 i). rewrite Eg by (auto; lia). ring.
    + destruct (rows_solve h0x false mx nx dx Hx ny K) as (V & EV); [discriminate|]. exists (fun _ _ => 0), V. intros i j Hi Hj. rewrite EV by auto.
      pose proof (rows_zero h0y h1y my ny dy Hy (fun _ _ => 0) j i ltac:(auto)) as Q. unfold oncols, onrows in *. lra.
Qed.
End Kuenneth.
