(** Cosine polynomials in t are polynomials in -cos t, and sine polynomials are sin t times such. *)
From Coq Require Import ZArith Reals List Lia Lra Arith.
From Coq Require Import ZifyNat.
From Coquelicot Require Import Coquelicot.
From Verif Require Import Model.Num Spec.Trig Spec.Poly Proofs.Sums Proofs.RIntLemmas Proofs.Fourier Proofs.Kernels Proofs.Trig Proofs.Ops.
Local Open Scope R_scope.

Lemma Rsum_le_split n m f : (n <= m)%nat -> Rsum m f = Rsum n f + Rsum (m - n) (fun i => f (n + i)%nat).
Proof. intro H. replace m with (n + (m - n))%nat at 1 by lia. apply Rsum_split. Qed.
Lemma Rsum_pad n m f : (n <= m)%nat -> Rsum m (fun i => if Nat.ltb i n then f i else 0) = Rsum n f.
Proof.
  intro H. rewrite (Rsum_le_split n m) by auto. rewrite (Rsum_zero_ext (m - n)).
  - rewrite Rplus_0_r. apply Rsum_ext. intros i Hi. destruct (Nat.ltb_spec i n); [auto|lia].
  - intros i Hi. destruct (Nat.ltb_spec (n + i) n); [lia|auto].
Qed.
(** ** polynomials *)
Lemma poly_ext d p q : (forall x, p x = q x) -> polynomial d q -> polynomial d p.
Proof. intros E [c H]. exists c. intro x. now rewrite E. Qed.
Lemma poly_mono d e p : (d <= e)%nat -> polynomial d p -> polynomial e p.
Proof.
  intros H [c Hc]. exists (fun i => if Nat.ltb i (S d) then c i else 0). intro x. rewrite Hc.
  rewrite <- (Rsum_pad (S d) (S e)) by lia. apply Rsum_ext. intros i Hi. destruct (Nat.ltb i (S d)); ring.
Qed.
Lemma poly_const d a : polynomial d (fun _ => a).
Proof. apply (poly_mono 0); [lia|]. exists (fun _ => a). intro x. cbn. ring. Qed.
Lemma poly_plus d p q : polynomial d p -> polynomial d q -> polynomial d (fun x => p x + q x).
Proof. intros [c H] [c' H']. exists (fun i => c i + c' i). intro x. rewrite H, H', <- Rsum_plus. apply Rsum_ext. intros. ring. Qed.
Lemma poly_scal d a p : polynomial d p -> polynomial d (fun x => a * p x).
Proof. intros [c H]. exists (fun i => a * c i). intro x. rewrite H, <- Rsum_scal. apply Rsum_ext. intros. ring. Qed.
Lemma poly_mulx d p : polynomial d p -> polynomial (S d) (fun x => x * p x).
Proof.
  intros [c H]. exists (fun i => match i with O => 0 | S i => c i end). intro x. rewrite Rsum_S_l, H, <- Rsum_scal.
  cbn [pow]. rewrite Rmult_0_l, Rplus_0_l. apply Rsum_ext. intros. ring.
Qed.
Lemma poly_Rsum d n (p : nat -> R -> R) : (forall i, (i < n)%nat -> polynomial d (p i)) -> polynomial d (fun x => Rsum n (fun i => p i x)).
Proof. induction n as [|n IH]; intro H; cbn [Rsum]; [apply poly_const|]. apply poly_plus; [apply IH; intros; apply H; lia|apply H; lia]. Qed.
Lemma poly_cont d p x : polynomial d p -> continuous p x.
Proof.
  intros [c H]. apply (continuous_ext (fun x => Rsum (S d) (fun i => c i * x ^ i))); [intro; now rewrite H|].
  apply continuous_Rsum. intros i Hi. apply continuous_derivable. auto_derive. auto.
Qed.
(** ** cosine polynomials *)
Definition cosp (K : nat) (g : R -> R) : Prop := exists a, forall t, g t = a 0%nat + Rsum K (fun m => a (S m) * cos (INR (S m) * t)).
Lemma cosp_ext K g f : (forall t, g t = f t) -> cosp K f -> cosp K g.
Proof. intros E [a H]. exists a. intro t. now rewrite E. Qed.
Lemma cosp_mono K L g : (K <= L)%nat -> cosp K g -> cosp L g.
Proof.
  intros H [a Ha]. exists (fun i => if Nat.leb i K then a i else 0). intro t. rewrite Ha. destruct (Nat.leb_spec 0 K); [|lia]. f_equal.
  rewrite <- (Rsum_pad K L) by auto. apply Rsum_ext. intros i Hi. destruct (Nat.ltb_spec i K), (Nat.leb_spec (S i) K); try lia; ring.
Qed.
Lemma cosp_const K a : cosp K (fun _ => a).
Proof. apply (cosp_mono 0); [lia|]. exists (fun _ => a). intro t. cbn. ring. Qed.
Lemma cosp_plus K f g : cosp K f -> cosp K g -> cosp K (fun t => f t + g t).
Proof. intros [a H] [b H']. exists (fun i => a i + b i). intro t. rewrite H, H'. rewrite (Rsum_ext K (fun m => (a (S m) + b (S m)) * _) (fun m => a (S m) * cos (INR (S m) * t) + b (S m) * cos (INR (S m) * t))) by (intros; ring). rewrite Rsum_plus. ring. Qed.
Lemma cosp_scal K c g : cosp K g -> cosp K (fun t => c * g t).
Proof. intros [a H]. exists (fun i => c * a i). intro t. rewrite H. rewrite (Rsum_ext K (fun m => c * a (S m) * _) (fun m => c * (a (S m) * cos (INR (S m) * t)))) by (intros; ring). rewrite Rsum_scal. ring. Qed.
Lemma cosp_Rsum K n (g : nat -> R -> R) : (forall i, (i < n)%nat -> cosp K (g i)) -> cosp K (fun t => Rsum n (fun i => g i t)).
Proof. induction n as [|n IH]; intro H; cbn [Rsum]; [apply cosp_const|]. apply cosp_plus; [apply IH; intros; apply H; lia|apply H; lia]. Qed.
Lemma cosp_cos K m : (m <= K)%nat -> cosp K (fun t => cos (INR m * t)).
Proof.
  intro H. destruct m as [|m].
  - apply (cosp_ext _ _ (fun _ => 1)); [intro; cbn [INR]; rewrite Rmult_0_l; apply cos_0|apply cosp_const].
  - exists (fun i => if Nat.eqb i (S m) then 1 else 0). intro t. cbn [Nat.eqb]. rewrite (Rsum_single K m); [rewrite Nat.eqb_refl; ring|lia|]. intros i Hi Hne. destruct (Nat.eqb_spec i m); [lia|ring].
Qed.
Lemma cosp_even K g t : cosp K g -> g (- t) = g t.
Proof. intros [a H]. rewrite !H. f_equal. apply Rsum_ext. intros. rewrite <- cos_neg. do 2 f_equal. ring. Qed.
Lemma cosp_period K g t : cosp K g -> g (t + 2 * PI) = g t.
Proof.
  intros [a H]. rewrite !H. f_equal. apply Rsum_ext. intros i _. f_equal. replace (INR (S i) * (t + 2 * PI)) with (INR (S i) * t + 2 * INR (S i) * PI) by ring. apply cos_period.
Qed.
Lemma cosp_mulcos K g : cosp K g -> cosp (S K) (fun t => cos t * g t).
Proof.
  intros [a H]. apply (cosp_ext _ _ (fun t => a 0%nat * cos (INR 1 * t) + Rsum K (fun m => a (S m) * (/ 2 * cos (INR (S (S m)) * t) + / 2 * cos (INR m * t))))).
  - intro t. rewrite H, Rmult_plus_distr_l, <- Rsum_scal. f_equal; [cbn [INR]; rewrite Rmult_1_l; ring|]. apply Rsum_ext. intros m _.
    replace (INR (S (S m)) * t) with (INR (S m) * t + t) by (rewrite (S_INR (S m)); ring). replace (INR m * t) with (INR (S m) * t - t) by (rewrite (S_INR m); ring).
    rewrite cos_plus, cos_minus. field.
  - apply cosp_plus; [apply cosp_scal, cosp_cos; lia|]. apply cosp_Rsum. intros m Hm. apply cosp_scal, cosp_plus; apply cosp_scal, cosp_cos; lia.
Qed.
Lemma cosp_refl K g : cosp K g -> cosp K (fun t => g (PI - t)).
Proof.
  intros [a H]. exists (fun m => a m * (-1) ^ m). intro t. rewrite H. f_equal; [ring|]. apply Rsum_ext. intros m _.
  replace (INR (S m) * (PI - t)) with (INR (S m) * PI - INR (S m) * t) by ring. rewrite cos_minus, cos_PI_nat.
  replace (sin (INR (S m) * PI)) with 0 by (rewrite INR_IZR_INZ, sin_IZR_PI; reflexivity). ring.
Qed.
Lemma cosp_cont K g t : cosp K g -> continuous g t.
Proof.
  intros [a H]. apply (continuous_ext (fun t => a 0%nat + Rsum K (fun m => a (S m) * cos (INR (S m) * t)))); [intro; now rewrite H|].
  apply (continuous_plus (fun _ => a 0%nat)); [apply continuous_const|]. apply continuous_Rsum. intros i Hi. apply continuous_derivable. auto_derive. auto.
Qed.
Lemma cosp_trig K g : cosp K g -> exists a, forall t, g t = trig K a (fun _ => 0) t.
Proof. intros [a H]. exists a. intro t. rewrite H. unfold trig. f_equal. apply Rsum_ext. intros. ring. Qed.
Lemma cosp_degree K g : cosp K g -> trig_degree K g.
Proof. intro H. destruct (cosp_trig K g H) as [a E]. exists a, (fun _ => 0). exact E. Qed.
Lemma cosp_interpolant N K g : (2 * K <= N)%nat -> cosp K g -> trig_interpolant N g.
Proof.
  intros H Hg. apply (cosp_mono K (N / 2)) in Hg; [|apply Nat.div_le_lower_bound; lia]. destruct (cosp_trig _ g Hg) as [a E]. exists a, (fun _ => 0). split; [auto|exact E].
Qed.
(** even trigonometric polynomials *)
Lemma even_cosp K g : trig_degree K g -> (forall t, g (- t) = g t) -> cosp K g.
Proof.
  intros (a & b & H) Ev. exists a. intro t. replace (g t) with ((g t + g (- t)) / 2) by (rewrite Ev; field). rewrite !H. unfold trig.
  replace (Rsum K (fun k => a (S k) * cos (INR (S k) * - t) + b (S k) * sin (INR (S k) * - t))) with (Rsum K (fun k => a (S k) * cos (INR (S k) * t) - b (S k) * sin (INR (S k) * t))).
  - rewrite Rsum_plus, Rsum_minus. field.
  - apply Rsum_ext. intros k _. replace (INR (S k) * - t) with (- (INR (S k) * t)) by ring. rewrite cos_neg, sin_neg. ring.
Qed.
(** odd ones: sin t times an even one *)
Lemma sin_mult m : exists g, cosp (m - 1) g /\ forall t, sin (INR m * t) = sin t * g t.
Proof.
  assert (forall m, (exists g, cosp (m - 1) g /\ forall t, sin (INR m * t) = sin t * g t) /\ (exists g, cosp m g /\ forall t, sin (INR (S m) * t) = sin t * g t)) as H.
  { clear m. induction m as [|m [(g & Hg & Eg) (g' & Hg' & Eg')]].
    - split.
      + exists (fun _ => 0). split; [apply cosp_const|]. intro t. cbn [INR]. rewrite Rmult_0_l, sin_0. ring.
      + exists (fun _ => 1). split; [apply cosp_const|]. intro t. cbn [INR]. rewrite Rmult_1_l. ring.
    - split; [exists g'; replace (S m - 1)%nat with m by lia; auto|].
      exists (fun t => 2 * (cos t * g' t) + -1 * g t). split.
      + apply cosp_plus; apply cosp_scal; [now apply cosp_mulcos|]. apply (cosp_mono (m - 1)); [lia|auto].
      + intro t. replace (INR (S (S m)) * t) with (INR (S m) * t + t) by (rewrite (S_INR (S m)); ring). rewrite sin_plus.
        replace (sin t * (2 * (cos t * g' t) + -1 * g t)) with (2 * cos t * (sin t * g' t) - sin t * g t) by ring. rewrite <- Eg, <- Eg'.
        replace (INR m * t) with (INR (S m) * t - t) by (rewrite (S_INR m); ring). rewrite sin_minus. ring. }
  apply H.
Qed.
Lemma odd_sin K g : trig_degree K g -> (forall t, g (- t) = - g t) -> exists q, cosp (K - 1) q /\ forall t, g t = sin t * q t.
Proof.
  intros (a & b & H) Od.
  assert (forall t, g t = Rsum K (fun m => b (S m) * sin (INR (S m) * t))) as E.
  { intro t. replace (g t) with ((g t - g (- t)) / 2) by (rewrite Od; field). rewrite !H. unfold trig.
    replace (Rsum K (fun k => a (S k) * cos (INR (S k) * - t) + b (S k) * sin (INR (S k) * - t))) with (Rsum K (fun k => a (S k) * cos (INR (S k) * t) - b (S k) * sin (INR (S k) * t))).
    - rewrite Rsum_plus, Rsum_minus. field.
    - apply Rsum_ext. intros k _. replace (INR (S k) * - t) with (- (INR (S k) * t)) by ring. rewrite cos_neg, sin_neg. ring. }
  clear H Od a. revert g E. induction K as [|K IH]; intros g E.
  - exists (fun _ => 0). split; [apply cosp_const|]. intro t. rewrite E. cbn. ring.
  - destruct (IH (fun t => Rsum K (fun m => b (S m) * sin (INR (S m) * t))) (fun t => eq_refl)) as (q & Hq & Eq).
    destruct (sin_mult (S K)) as (g' & Hg' & Eg'). exists (fun t => q t + b (S K) * g' t). split.
    + apply cosp_plus; [apply (cosp_mono (K - 1)); [lia|auto]|]. apply cosp_scal. auto.
    + intro t. rewrite E. cbn [Rsum]. rewrite Eq, Eg'. ring.
Qed.
(** ** the substitution x = -cos t *)
Lemma cos_poly m : exists P, polynomial m P /\ forall t, cos (INR m * t) = P (- cos t).
Proof.
  assert (forall m, (exists P, polynomial m P /\ forall t, cos (INR m * t) = P (- cos t)) /\ (exists P, polynomial (S m) P /\ forall t, cos (INR (S m) * t) = P (- cos t))) as H.
  { clear m. induction m as [|m [(g & Hg & Eg) (g' & Hg' & Eg')]].
    - split.
      + exists (fun _ => 1). split; [apply poly_const|]. intro t. cbn [INR]. rewrite Rmult_0_l, cos_0. ring.
      + exists (fun x => -1 * (x * 1)). split; [apply poly_scal, poly_mulx, poly_const|]. intro t. cbn [INR]. rewrite Rmult_1_l. ring.
    - split; [exists g'; auto|].
      exists (fun x => -2 * (x * g' x) + -1 * g x). split.
      + apply poly_plus; apply poly_scal; [now apply poly_mulx|]. apply (poly_mono m); [lia|auto].
      + intro t. replace (INR (S (S m)) * t) with (INR (S m) * t + t) by (rewrite (S_INR (S m)); ring). rewrite cos_plus.
        rewrite <- Eg, <- Eg'. replace (INR m * t) with (INR (S m) * t - t) by (rewrite (S_INR m); ring). rewrite cos_minus. ring. }
  apply H.
Qed.
Lemma cosp_poly K g : cosp K g -> exists P, polynomial K P /\ forall t, g t = P (- cos t).
Proof.
  intros [a H]. revert g H. induction K as [|K IH]; intros g H.
  - exists (fun _ => a 0%nat). split; [apply poly_const|]. intro t. rewrite H. cbn. ring.
  - destruct (IH (fun t => a 0%nat + Rsum K (fun m => a (S m) * cos (INR (S m) * t))) (fun t => eq_refl)) as (P & HP & EP).
    destruct (cos_poly (S K)) as (Q & HQ & EQ). exists (fun x => P x + a (S K) * Q x). split.
    + apply poly_plus; [apply (poly_mono K); [lia|auto]|now apply poly_scal].
    + intro t. rewrite H. cbn [Rsum]. rewrite <- EQ, <- EP. ring.
Qed.
Lemma poly_cosp K P : polynomial K P -> cosp K (fun t => P (- cos t)).
Proof.
  intros [c H]. apply (cosp_ext _ _ (fun t => Rsum (S K) (fun i => c i * (- cos t) ^ i))); [intro; apply H|].
  apply cosp_Rsum. intros i Hi. apply cosp_scal. apply (cosp_mono i); [lia|]. clear.
  induction i as [|i IH]; cbn [pow]; [apply cosp_const|].
  apply (cosp_ext _ _ (fun t => -1 * (cos t * (- cos t) ^ i))); [intro; ring|]. apply cosp_scal, cosp_mulcos, IH.
Qed.
Lemma RInt_cos_subst (f : R -> R) a b : (forall x, continuous f x) -> RInt f (- cos a) (- cos b) = RInt (fun t => f (- cos t) * sin t) a b.
Proof.
  intro Hf. rewrite <- (RInt_comp (V := R_CompleteNormedModule) f (fun t => - cos t) sin a b).
  - apply RInt_ext. intros t _. unfold scal; simpl; unfold mult; simpl. ring.
  - intros x _. apply Hf.
  - intros x _. split; [auto_derive; [auto|ring]|apply continuous_derivable; auto_derive; auto].
Qed.
