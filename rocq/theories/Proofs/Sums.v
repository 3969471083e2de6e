(** Finite sums over R and C. *)
From Coq Require Import ZArith Reals List Lia Lra Arith.
From Coq Require Import ZifyNat.
From Coquelicot Require Import Complex.
From Verif Require Import Model.Num Model.Np Proofs.ListLemmas.
Import ListNotations.
Local Open Scope R_scope.

Lemma Rsum_ext n f g : (forall i, (i < n)%nat -> f i = g i) -> Rsum n f = Rsum n g.
Proof. induction n as [|n IH]; intro H; simpl; [reflexivity|]. rewrite IH, H by (intros; try apply H; lia). reflexivity. Qed.

Lemma Rsum_plus n f g : Rsum n (fun i => f i + g i) = Rsum n f + Rsum n g.
Proof. induction n; simpl; lra. Qed.
Lemma Rsum_minus n f g : Rsum n (fun i => f i - g i) = Rsum n f - Rsum n g.
Proof. induction n; simpl; lra. Qed.
Lemma Rsum_opp n f : Rsum n (fun i => - f i) = - Rsum n f.
Proof. induction n; simpl; lra. Qed.
Lemma Rsum_scal n c f : Rsum n (fun i => c * f i) = c * Rsum n f.
Proof. induction n; simpl; lra. Qed.
Lemma Rsum_scal_r n c f : Rsum n (fun i => f i * c) = Rsum n f * c.
Proof. induction n; simpl; lra. Qed.
Lemma Rsum_zero n : Rsum n (fun _ => 0) = 0.
Proof. induction n; simpl; lra. Qed.
Lemma Rsum_const n c : Rsum n (fun _ => c) = INR n * c.
Proof. induction n as [|n IH]; [simpl; lra|]. rewrite S_INR. simpl Rsum. rewrite IH. lra. Qed.

Lemma Rsum_zero_ext n f : (forall i, (i < n)%nat -> f i = 0) -> Rsum n f = 0.
Proof. intro H. rewrite (Rsum_ext _ _ (fun _ => 0)); auto. apply Rsum_zero. Qed.

Lemma Rsum_swap n m f : Rsum n (fun i => Rsum m (fun j => f i j)) = Rsum m (fun j => Rsum n (fun i => f i j)).
Proof.
  induction n as [|n IH]; simpl; [now rewrite Rsum_zero|]. rewrite IH, <- Rsum_plus. reflexivity.
Qed.

Lemma Rsum_split n m f : Rsum (n + m) f = Rsum n f + Rsum m (fun i => f (n + i)%nat).
Proof.
  induction m as [|m IH]; simpl; [rewrite Nat.add_0_r; lra|].
  rewrite Nat.add_succ_r. simpl. rewrite IH. lra.
Qed.

Lemma Rsum_S_l n f : Rsum (S n) f = f 0%nat + Rsum n (fun i => f (S i)).
Proof. change (S n) with (1 + n)%nat. rewrite Rsum_split. simpl. lra. Qed.

Lemma Rsum_rev n f : Rsum n f = Rsum n (fun i => f (n - 1 - i)%nat).
Proof.
  induction n as [|n IH]; [reflexivity|]. rewrite (Rsum_S_l n (fun i => f (S n - 1 - i)%nat)).
  simpl Rsum. rewrite IH. rewrite Rplus_comm. f_equal; [f_equal; lia|].
  apply Rsum_ext. intros i Hi. f_equal. lia.
Qed.

Lemma Rsum_single n k f : (k < n)%nat -> (forall i, (i < n)%nat -> i <> k -> f i = 0) -> Rsum n f = f k.
Proof.
  intros Hk H. induction n as [|n IH]; [lia|]. simpl. destruct (Nat.eq_dec k n) as [->|E].
  - rewrite Rsum_zero_ext; [lra|]. intros i Hi. apply H; lia.
  - rewrite IH by (try lia; intros; apply H; lia). rewrite (H n) by lia. lra.
Qed.

Lemma Rsum_tele n f : Rsum n (fun i => f (S i) - f i) = f n - f 0%nat.
Proof. induction n as [|n IH]; simpl; [lra|]. rewrite IH. lra. Qed.

(** rotation of the index *)
Lemma Rsum_rot N s f : (s <= N)%nat ->
  Rsum N (fun i => f (if Nat.ltb (i + s) N then i + s else i + s - N)%nat) = Rsum N f.
Proof.
  intro H. replace (Rsum N f) with (Rsum (s + (N - s)) f) by (f_equal; lia).
  transitivity (Rsum ((N - s) + s) (fun i => f (if Nat.ltb (i + s) N then i + s else i + s - N)%nat)).
  { f_equal; lia. }
  rewrite !Rsum_split, Rplus_comm. f_equal; apply Rsum_ext; intros i Hi.
  - destruct (Nat.ltb_spec (N - s + i + s) N); [lia|]. f_equal; lia.
  - destruct (Nat.ltb_spec (i + s) N); [|lia]. f_equal; lia.
Qed.

Lemma Rsum_even_odd n f : Rsum (2 * n) f = Rsum n (fun i => f (2 * i)%nat) + Rsum n (fun i => f (2 * i + 1)%nat).
Proof.
  induction n as [|n IH]; [simpl; lra|].
  replace (2 * S n)%nat with (S (S (2 * n))) by lia. simpl Rsum. simpl in IH. rewrite IH.
  replace (S (n + (n + 0))) with (2 * n + 1)%nat by lia. replace (n + (n + 0))%nat with (2 * n)%nat by lia.
  lra.
Qed.

Lemma Rsum_nonneg n f : (forall i, (i < n)%nat -> 0 <= f i) -> 0 <= Rsum n f.
Proof. induction n as [|n IH]; intro H; simpl; [lra|]. apply Rplus_le_le_0_compat; auto. Qed.

(** complex sums *)
Lemma Csum_pair n f : Csum n f = (Rsum n (fun i => Re (f i)), Rsum n (fun i => Im (f i))).
Proof.
  induction n as [|n IH]; simpl; [reflexivity|]. rewrite IH. unfold Cplus, Re, Im. reflexivity.
Qed.

Lemma C_eq (a b : C) : Re a = Re b -> Im a = Im b -> a = b.
Proof. destruct a, b; simpl; intros; f_equal; assumption. Qed.

Lemma Csum_ext n f g : (forall i, (i < n)%nat -> f i = g i) -> Csum n f = Csum n g.
Proof. induction n as [|n IH]; intro H; simpl; [reflexivity|]. rewrite IH, H by (intros; try apply H; lia). reflexivity. Qed.
Lemma Csum_plus n f g : Csum n (fun i => Cplus (f i) (g i)) = Cplus (Csum n f) (Csum n g).
Proof. induction n as [|n IH]; simpl; [ring|]. rewrite IH. ring. Qed.
Lemma Csum_scal n c f : Csum n (fun i => Cmult c (f i)) = Cmult c (Csum n f).
Proof. induction n as [|n IH]; simpl; [ring|]. rewrite IH. ring. Qed.
Lemma Csum_scal_r n c f : Csum n (fun i => Cmult (f i) c) = Cmult (Csum n f) c.
Proof. induction n as [|n IH]; simpl; [ring|]. rewrite IH. ring. Qed.
Lemma Csum_zero n : Csum n (fun _ => RtoC 0) = RtoC 0.
Proof. induction n as [|n IH]; simpl; [reflexivity|]. rewrite IH. ring. Qed.
Lemma Csum_zero_ext n f : (forall i, (i < n)%nat -> f i = RtoC 0) -> Csum n f = RtoC 0.
Proof. intro H. rewrite (Csum_ext _ _ (fun _ => RtoC 0)); auto. apply Csum_zero. Qed.
Lemma Csum_swap n m f : Csum n (fun i => Csum m (fun j => f i j)) = Csum m (fun j => Csum n (fun i => f i j)).
Proof.
  induction n as [|n IH]; simpl; [now rewrite Csum_zero|]. rewrite IH, <- Csum_plus. reflexivity.
Qed.
Lemma Csum_single n k f : (k < n)%nat -> (forall i, (i < n)%nat -> i <> k -> f i = RtoC 0) -> Csum n f = f k.
Proof.
  intros Hk H. rewrite Csum_pair. apply C_eq; simpl.
  - rewrite (Rsum_single n k); auto. intros i Hi Hn. now rewrite H.
  - rewrite (Rsum_single n k); auto. intros i Hi Hn. now rewrite H.
Qed.
Lemma Csum_rot N s f : (s <= N)%nat ->
  Csum N (fun i => f (if Nat.ltb (i + s) N then i + s else i + s - N)%nat) = Csum N f.
Proof.
  intro H. rewrite !Csum_pair.
  rewrite (Rsum_rot N s (fun i => Re (f i))), (Rsum_rot N s (fun i => Im (f i))) by assumption. reflexivity.
Qed.
Lemma Csum_split n m f : Csum (n + m) f = Cplus (Csum n f) (Csum m (fun i => f (n + i)%nat)).
Proof. rewrite !Csum_pair, !Rsum_split. reflexivity. Qed.
Lemma Csum_S_l n f : Csum (S n) f = Cplus (f 0%nat) (Csum n (fun i => f (S i))).
Proof. change (S n) with (1 + n)%nat. rewrite Csum_split. simpl. rewrite Cplus_0_l. reflexivity. Qed.

Lemma Re_Csum n f : Re (Csum n f) = Rsum n (fun i => Re (f i)).
Proof. now rewrite Csum_pair. Qed.
Lemma Im_Csum n f : Im (Csum n f) = Rsum n (fun i => Im (f i)).
Proof. now rewrite Csum_pair. Qed.
Lemma Re_mult_RtoC (r : R) z : Re (Cmult (RtoC r) z) = r * Re z.
Proof. destruct z; simpl; ring. Qed.
Lemma Im_mult_RtoC (r : R) z : Im (Cmult (RtoC r) z) = r * Im z.
Proof. destruct z; simpl; ring. Qed.
Lemma Re_RtoC r : Re (RtoC r) = r. Proof. reflexivity. Qed.
Lemma Im_RtoC r : Im (RtoC r) = 0. Proof. reflexivity. Qed.
Lemma RtoC_Rsum n f : RtoC (Rsum n f) = Csum n (fun i => RtoC (f i)).
Proof. rewrite Csum_pair. apply C_eq; simpl; [reflexivity|]. now rewrite Rsum_zero. Qed.

(** cis *)
Lemma cis_plus a b : cis (a + b) = Cmult (cis a) (cis b).
Proof. unfold cis, Cmult; simpl. rewrite cos_plus, sin_plus. f_equal; ring. Qed.
Lemma cis_0 : cis 0 = RtoC 1.
Proof. unfold cis. rewrite cos_0, sin_0. reflexivity. Qed.

Lemma cos_period_Z x k : cos (x + 2 * IZR k * PI) = cos x.
Proof.
  destruct k as [|p|p].
  - f_equal; simpl; ring.
  - rewrite <- (positive_nat_Z p), <- INR_IZR_INZ. apply cos_period.
  - rewrite <- (cos_period (x + 2 * IZR (Z.neg p) * PI) (Pos.to_nat p)). f_equal.
    rewrite INR_IZR_INZ, positive_nat_Z. change (Z.neg p) with (- Z.pos p)%Z. rewrite opp_IZR. ring.
Qed.
Lemma sin_period_Z x k : sin (x + 2 * IZR k * PI) = sin x.
Proof.
  destruct k as [|p|p].
  - f_equal; simpl; ring.
  - rewrite <- (positive_nat_Z p), <- INR_IZR_INZ. apply sin_period.
  - rewrite <- (sin_period (x + 2 * IZR (Z.neg p) * PI) (Pos.to_nat p)). f_equal.
    rewrite INR_IZR_INZ, positive_nat_Z. change (Z.neg p) with (- Z.pos p)%Z. rewrite opp_IZR. ring.
Qed.
Lemma cis_period_Z x k : cis (x + 2 * IZR k * PI) = cis x.
Proof. unfold cis. now rewrite cos_period_Z, sin_period_Z. Qed.

Lemma sin_IZR_PI k : sin (IZR k * PI) = 0.
Proof. apply sin_eq_0_1. now exists k. Qed.

(** Orthogonality, real form. *)
Lemma sum_cos_tele M d c :
  2 * sin d * Rsum M (fun m => cos (2 * d * INR m + c)) = sin (2 * d * INR M - d + c) - sin (c - d).
Proof.
  induction M as [|M IH].
  - simpl. replace (2 * d * 0 - d + c) with (c - d) by ring. ring.
  - cbn [Rsum]. rewrite Rmult_plus_distr_l, IH.
    rewrite S_INR.
    replace (2 * d * (INR M + 1) - d + c) with ((2 * d * INR M + c) + d) by ring.
    replace (2 * d * INR M - d + c) with ((2 * d * INR M + c) - d) by ring.
    rewrite sin_plus, sin_minus. ring.
Qed.

Lemma sum_cos_ortho (M : nat) (k : Z) c : (0 < M)%nat ->
  Rsum M (fun m => cos (2 * PI * IZR k * INR m / INR M + c)) =
  if Z.eqb (k mod Z.of_nat M) 0 then INR M * cos c else 0.
Proof.
  intro HM. assert (INR M <> 0) as HM' by (apply not_0_INR; lia).
  destruct (Z.eqb_spec (k mod Z.of_nat M) 0) as [E|E].
  - assert (exists q, k = (q * Z.of_nat M)%Z) as [q Hq].
    { exists (k / Z.of_nat M)%Z. rewrite Z.mul_comm. apply Z_div_exact_full_2; lia. }
    rewrite (Rsum_ext _ _ (fun _ => cos c)); [apply Rsum_const|].
    intros i Hi. rewrite <- (cos_period_Z c (q * Z.of_nat i)). f_equal.
    subst k. rewrite !mult_IZR, <- !INR_IZR_INZ. field. assumption.
  - set (d := PI * IZR k / INR M).
    assert (sin d <> 0) as Hd.
    { intro H0. apply sin_eq_0_0 in H0. destruct H0 as [q Hq]. apply E.
      assert (IZR k = IZR (q * Z.of_nat M)) as Hk.
      { rewrite mult_IZR, <- INR_IZR_INZ. apply (Rmult_eq_reg_r (PI / INR M)).
        - unfold d in Hq. replace (IZR k * (PI / INR M)) with (PI * IZR k / INR M) by (field; assumption).
          rewrite Hq. field. assumption.
        - apply Rmult_integral_contrapositive_currified; [apply PI_neq0|now apply Rinv_neq_0_compat]. }
      apply eq_IZR in Hk. subst k. apply Z_mod_mult. }
    pose proof (sum_cos_tele M d c) as T.
    rewrite (Rsum_ext _ _ (fun m => cos (2 * d * INR m + c))).
    2:{ intros i Hi. f_equal. unfold d. field. assumption. }
    apply (Rmult_eq_reg_l (2 * sin d)); [|lra]. rewrite T, Rmult_0_r.
    replace (2 * d * INR M - d + c) with ((c - d) + 2 * IZR k * PI).
    + rewrite sin_period_Z. ring.
    + unfold d. field. assumption.
Qed.

Lemma sum_sin_ortho (M : nat) (k : Z) c : (0 < M)%nat ->
  Rsum M (fun m => sin (2 * PI * IZR k * INR m / INR M + c)) =
  if Z.eqb (k mod Z.of_nat M) 0 then INR M * sin c else 0.
Proof.
  intro HM.
  rewrite (Rsum_ext _ _ (fun m => cos (2 * PI * IZR k * INR m / INR M + (c - PI/2)))).
  - rewrite sum_cos_ortho by assumption. destruct (_ =? _)%Z; [|reflexivity].
    f_equal. rewrite cos_minus, cos_PI2, sin_PI2. ring.
  - intros i Hi. replace (2 * PI * IZR k * INR i / INR M + (c - PI / 2)) with
      ((2 * PI * IZR k * INR i / INR M + c) - PI/2) by lra.
    rewrite cos_minus, cos_PI2, sin_PI2. ring.
Qed.

Lemma sum_cis_ortho (M : nat) (k : Z) c : (0 < M)%nat ->
  Csum M (fun m => cis (2 * PI * IZR k * INR m / INR M + c)) =
  if Z.eqb (k mod Z.of_nat M) 0 then Cmult (RtoC (INR M)) (cis c) else RtoC 0.
Proof.
  intro HM. rewrite Csum_pair. unfold cis; simpl.
  rewrite sum_cos_ortho, sum_sin_ortho by assumption.
  destruct (_ =? _)%Z; apply C_eq; simpl; ring.
Qed.
