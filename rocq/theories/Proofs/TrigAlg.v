(** The algebra of trigonometric polynomials. *)
From Coq Require Import ZArith Reals List Lia Lra Arith.
From Coq Require Import ZifyNat.
From Coquelicot Require Import Coquelicot.
From Verif Require Import Model.Num Model.Np Model.Spectral Spec.Trig Proofs.ListLemmas Proofs.Sums Proofs.RIntLemmas Proofs.Trig.
Import ListNotations.
Local Open Scope R_scope.
Ltac Zify.zify_post_hook ::= Z.div_mod_to_equations.

Lemma td_ext K g f : (forall t, g t = f t) -> trig_degree K f -> trig_degree K g.
Proof. intros E (a & b & H). exists a, b. intro t. now rewrite E. Qed.
Lemma td_plus K f g : trig_degree K f -> trig_degree K g -> trig_degree K (fun t => f t + g t).
Proof.
  intros (a & b & H) (a' & b' & H'). exists (fun i => a i + a' i), (fun i => b i + b' i). intro t. rewrite H, H'. unfold trig.
  replace (a 0%nat + Rsum K _ + (a' 0%nat + Rsum K _)) with (a 0%nat + a' 0%nat + (Rsum K (fun k => a (S k) * cos (INR (S k) * t) + b (S k) * sin (INR (S k) * t)) + Rsum K (fun k => a' (S k) * cos (INR (S k) * t) + b' (S k) * sin (INR (S k) * t)))) by ring.
  f_equal. rewrite <- Rsum_plus. apply Rsum_ext. intros. ring.
Qed.
Lemma td_scal K c g : trig_degree K g -> trig_degree K (fun t => c * g t).
Proof.
  intros (a & b & H). exists (fun i => c * a i), (fun i => c * b i). intro t. rewrite H. unfold trig. rewrite Rmult_plus_distr_l, <- Rsum_scal. f_equal. apply Rsum_ext. intros. ring.
Qed.
Lemma td_opp K g : trig_degree K g -> trig_degree K (fun t => - g t).
Proof. intro H. apply (td_ext _ _ (fun t => -1 * g t)); [intro; ring|now apply td_scal]. Qed.
Lemma td_minus K f g : trig_degree K f -> trig_degree K g -> trig_degree K (fun t => f t - g t).
Proof. intros H H'. apply (td_ext _ _ (fun t => f t + - g t)); [intro; ring|]. apply td_plus; auto. now apply td_opp. Qed.
Lemma td_mono K L g : (K <= L)%nat -> trig_degree K g -> trig_degree L g.
Proof.
  intros HL (a & b & H). exists (fun i => if Nat.leb i K then a i else 0), (fun i => if Nat.leb i K then b i else 0). intro t. rewrite H. unfold trig. change (Nat.leb 0 K) with true. cbv iota. f_equal.
  replace L with (K + (L - K))%nat by lia. rewrite Rsum_split. rewrite (Rsum_zero_ext (L - K)).
  - rewrite Rplus_0_r. apply Rsum_ext. intros i Hi. destruct (Nat.leb_spec (S i) K); [reflexivity|lia].
  - intros i Hi. destruct (Nat.leb_spec (S (K + i)) K); [lia|ring].
Qed.
Lemma td_const K a : trig_degree K (fun _ => a).
Proof. apply (td_mono 0); [lia|]. exists (fun _ => a), (fun _ => 0). intro t. unfold trig. cbn. ring. Qed.
Lemma td_Rsum K n (g : nat -> R -> R) : (forall i, (i < n)%nat -> trig_degree K (g i)) -> trig_degree K (fun t => Rsum n (fun i => g i t)).
Proof. induction n as [|n IH]; intro H; cbn [Rsum]; [apply td_const|]. apply td_plus; [apply IH; intros; apply H; lia|apply H; lia]. Qed.
Lemma td_cos_nat K m c : (m <= K)%nat -> trig_degree K (fun t => cos (INR m * t + c)).
Proof.
  intro H. destruct m as [|m].
  - apply (td_ext _ _ (fun _ => cos c)); [intro; cbn [INR]; f_equal; ring|apply td_const].
  - exists (fun i => if Nat.eqb i (S m) then cos c else 0), (fun i => if Nat.eqb i (S m) then - sin c else 0). intro t. unfold trig. cbn [Nat.eqb].
    rewrite (Rsum_single K m); [rewrite Nat.eqb_refl, cos_plus; ring|lia|]. intros i Hi Hne. destruct (Nat.eqb_spec i m); [lia|ring].
Qed.
Lemma td_cosZ K z c : (Z.abs z <= Z.of_nat K)%Z -> trig_degree K (fun t => cos (IZR z * t + c)).
Proof.
  intro H. destruct (Z_le_gt_dec 0 z) as [Hz|Hz].
  - apply (td_ext _ _ (fun t => cos (INR (Z.to_nat z) * t + c))); [|apply td_cos_nat; lia]. intro t. rewrite INR_IZR_INZ, Z2Nat.id by auto. reflexivity.
  - apply (td_ext _ _ (fun t => cos (INR (Z.to_nat (- z)) * t + - c))); [|apply td_cos_nat; lia]. intro t. rewrite INR_IZR_INZ, Z2Nat.id by lia. rewrite opp_IZR.
    rewrite <- cos_neg. f_equal. ring.
Qed.
Lemma td_sinZ K z c : (Z.abs z <= Z.of_nat K)%Z -> trig_degree K (fun t => sin (IZR z * t + c)).
Proof. intro H. apply (td_ext _ _ (fun t => cos (IZR z * t + (c - PI / 2)))); [|now apply td_cosZ]. intro t. rewrite <- cos_shift. rewrite <- cos_neg. f_equal. ring. Qed.
Lemma INR_abs m K : (m <= K)%nat -> (Z.abs (Z.of_nat m) <= Z.of_nat K)%Z. Proof. lia. Qed.
Lemma td_sin_nat K m c : (m <= K)%nat -> trig_degree K (fun t => sin (INR m * t + c)).
Proof. intro H. apply (td_ext _ _ (fun t => sin (IZR (Z.of_nat m) * t + c))); [intro; now rewrite INR_IZR_INZ|]. apply td_sinZ. lia. Qed.
Lemma td_trig K a b : trig_degree K (trig K a b). Proof. now exists a, b. Qed.
(** to show closure under a linear operation, show it on the basis *)
Lemma td_ind K (Op : (R -> R) -> R -> R) L :
  (forall f g, (forall t, f t = g t) -> forall t, Op f t = Op g t) ->
  (forall a b c e t, Op (fun t => a + Rsum K (fun k => b k * cos (INR (S k) * t) + c k * sin (INR (S k) * t)) + e) t =
     a * Op (fun _ => 1) t + Rsum K (fun k => b k * Op (fun t => cos (INR (S k) * t)) t + c k * Op (fun t => sin (INR (S k) * t)) t) + e * Op (fun _ => 1) t) ->
  trig_degree L (Op (fun _ => 1)) -> (forall m, (1 <= m <= K)%nat -> trig_degree L (Op (fun t => cos (INR m * t))) /\ trig_degree L (Op (fun t => sin (INR m * t)))) ->
  forall g, trig_degree K g -> trig_degree L (Op g).
Proof.
  intros E Ln H1 Hm g (a & b & H).
  apply (td_ext _ _ (fun t => a 0%nat * Op (fun _ => 1) t + Rsum K (fun k => a (S k) * Op (fun t => cos (INR (S k) * t)) t + b (S k) * Op (fun t => sin (INR (S k) * t)) t))).
  - intro t. rewrite (E g (fun t => a 0%nat + Rsum K (fun k => a (S k) * cos (INR (S k) * t) + b (S k) * sin (INR (S k) * t)) + 0)); [|intro; rewrite H; unfold trig; ring].
    rewrite Ln. ring.
  - apply td_plus; [now apply td_scal|]. apply td_Rsum. intros i Hi. destruct (Hm (S i)) as [C S']; [lia|]. apply td_plus; now apply td_scal.
Qed.
Lemma td_shift K s g : trig_degree K g -> trig_degree K (fun t => g (t + s)).
Proof.
  revert g. apply (td_ind K (fun g t => g (t + s)) K).
  - intros f g E t. apply E.
  - intros. ring.
  - apply td_const.
  - intros m Hm; split; [apply (td_ext _ _ (fun t => cos (INR m * t + INR m * s))); [intro; f_equal; ring|apply td_cos_nat; lia]
                        |apply (td_ext _ _ (fun t => sin (INR m * t + INR m * s))); [intro; f_equal; ring|apply td_sin_nat; lia]].
Qed.
Lemma td_neg K g : trig_degree K g -> trig_degree K (fun t => g (- t)).
Proof.
  revert g. apply (td_ind K (fun g t => g (- t)) K).
  - intros f g E t. apply E.
  - intros. ring.
  - apply td_const.
  - intros m Hm; split; [apply (td_ext _ _ (fun t => cos (INR m * t + 0))); [intro; rewrite <- cos_neg; f_equal; ring|apply td_cos_nat; lia]
                        |apply (td_ext _ _ (fun t => - sin (INR m * t + 0))); [intro; rewrite <- sin_neg; f_equal; ring|apply td_opp, td_sin_nat; lia]].
Qed.
Lemma coscos a b : cos a * cos b = / 2 * (cos (a + b) + cos (a - b)).
Proof. rewrite cos_plus, cos_minus. field. Qed.
Lemma sincos a b : sin a * cos b = / 2 * (sin (a + b) + sin (a - b)).
Proof. rewrite sin_plus, sin_minus. field. Qed.
Lemma sinsin a b : sin a * sin b = / 2 * (cos (a - b) - cos (a + b)).
Proof. rewrite cos_plus, cos_minus. field. Qed.
Lemma Zsum_INR m l t : INR m * t + INR l * t = IZR (Z.of_nat m + Z.of_nat l) * t + 0.
Proof. rewrite plus_IZR, <- !INR_IZR_INZ. ring. Qed.
Lemma Zdif_INR m l t : INR m * t - INR l * t = IZR (Z.of_nat m - Z.of_nat l) * t + 0.
Proof. rewrite minus_IZR, <- !INR_IZR_INZ. ring. Qed.
Lemma td_mult K L f g : trig_degree K f -> trig_degree L g -> trig_degree (K + L) (fun t => f t * g t).
Proof.
  intros Hf. revert g. apply (td_ind L (fun g t => f t * g t) (K + L)).
  - intros g g' E t. now rewrite E.
  - intros a b c e t. rewrite !Rmult_plus_distr_l, <- Rsum_scal. rewrite (Rsum_ext L _ (fun i => b i * (f t * cos (INR (S i) * t)) + c i * (f t * sin (INR (S i) * t)))) by (intros; ring). ring.
  - apply (td_ext _ _ f); [intro; ring|]. apply (td_mono K); [lia|auto].
  - intros l Hl. split.
    + revert f Hf. apply (td_ind K (fun f t => f t * cos (INR l * t)) (K + L)).
      * intros g g' E t. now rewrite E.
      * intros a b c e t. rewrite !Rmult_plus_distr_r, <- Rsum_scal_r. rewrite (Rsum_ext K _ (fun i => b i * (cos (INR (S i) * t) * cos (INR l * t)) + c i * (sin (INR (S i) * t) * cos (INR l * t)))) by (intros; ring). ring.
      * apply (td_ext _ _ (fun t => cos (INR l * t + 0))); [intro; rewrite Rmult_1_l; f_equal; ring|apply td_cos_nat; lia].
      * intros m Hm. split.
        -- eapply td_ext; [intro t; rewrite coscos, Zsum_INR, Zdif_INR; reflexivity|]. apply td_scal, td_plus; apply td_cosZ; lia.
        -- eapply td_ext; [intro t; rewrite sincos, Zsum_INR, Zdif_INR; reflexivity|]. apply td_scal, td_plus; apply td_sinZ; lia.
    + revert f Hf. apply (td_ind K (fun f t => f t * sin (INR l * t)) (K + L)).
      * intros g g' E t. now rewrite E.
      * intros a b c e t. rewrite !Rmult_plus_distr_r, <- Rsum_scal_r. rewrite (Rsum_ext K _ (fun i => b i * (cos (INR (S i) * t) * sin (INR l * t)) + c i * (sin (INR (S i) * t) * sin (INR l * t)))) by (intros; ring). ring.
      * apply (td_ext _ _ (fun t => sin (INR l * t + 0))); [intro; rewrite Rmult_1_l; f_equal; ring|apply td_sin_nat; lia].
      * intros m Hm. split.
        -- eapply td_ext; [intro t; rewrite Rmult_comm, sincos, Zsum_INR, Zdif_INR; reflexivity|]. apply td_scal, td_plus; apply td_sinZ; lia.
        -- eapply td_ext; [intro t; rewrite sinsin, Zsum_INR, Zdif_INR; reflexivity|]. apply td_scal, td_minus; apply td_cosZ; lia.
Qed.
Lemma is_derive_Rsum n (f f' : nat -> R -> R) x : (forall i, (i < n)%nat -> is_derive (f i) x (f' i x)) -> is_derive (fun t => Rsum n (fun i => f i t)) x (Rsum n (fun i => f' i x)).
Proof.
  induction n as [|n IH]; intro H; cbn [Rsum]; [apply (is_derive_const (K := R_AbsRing) (V := R_NormedModule) 0)|].
  apply (is_derive_plus (K := R_AbsRing) (V := R_NormedModule) (fun t => Rsum n (fun i => f i t)) (f n)); [apply IH; intros; apply H; lia|apply H; lia].
Qed.
Lemma td_deriv K g : trig_degree K g -> exists g', trig_degree K g' /\ forall t, is_derive g t (g' t).
Proof.
  intros (a & b & H). exists (fun t => Rsum K (fun k => - INR (S k) * a (S k) * sin (INR (S k) * t) + INR (S k) * b (S k) * cos (INR (S k) * t))). split.
  - apply td_Rsum. intros i Hi. apply td_plus.
    + apply (td_ext _ _ (fun t => (- INR (S i) * a (S i)) * sin (INR (S i) * t + 0))); [intro; do 2 f_equal; ring|apply td_scal, td_sin_nat; lia].
    + apply (td_ext _ _ (fun t => (INR (S i) * b (S i)) * cos (INR (S i) * t + 0))); [intro; do 2 f_equal; ring|apply td_scal, td_cos_nat; lia].
  - intro t. apply (is_derive_ext (fun t => a 0%nat + Rsum K (fun k => a (S k) * cos (INR (S k) * t) + b (S k) * sin (INR (S k) * t)))); [intro; now rewrite H|].
    rewrite <- (Rplus_0_l (Rsum _ _)). apply (is_derive_plus (K := R_AbsRing) (V := R_NormedModule) (fun _ => a 0%nat) (fun t => Rsum K (fun k => a (S k) * cos (INR (S k) * t) + b (S k) * sin (INR (S k) * t)))).
    + apply (is_derive_const (K := R_AbsRing) (V := R_NormedModule)).
    + apply (is_derive_Rsum K (fun k t => a (S k) * cos (INR (S k) * t) + b (S k) * sin (INR (S k) * t)) (fun k t => - INR (S k) * a (S k) * sin (INR (S k) * t) + INR (S k) * b (S k) * cos (INR (S k) * t))).
      intros i _. set (w := INR (S i)). auto_derive; [auto|ring].
Qed.
Lemma td_cont K g t : trig_degree K g -> continuous g t.
Proof. intro H. destruct (td_deriv K g H) as (g' & _ & D). apply continuous_derivable. now exists (g' t). Qed.
