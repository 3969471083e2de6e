(** Series of functions: termwise integration, and the error of a linear functional. *)
From Coq Require Import ZArith Reals List Lia Lra Arith.
From Coquelicot Require Import Coquelicot.
From Verif Require Import Model.Num Model.Np Spec.Series Proofs.ListLemmas Proofs.RingSums Proofs.Sums Proofs.RIntLemmas Proofs.Lin.
Local Open Scope R_scope.

Lemma amp_nonneg a b k : 0 <= amplitude a b k.
Proof. unfold amplitude. pose proof (Rabs_pos (a k)). pose proof (Rabs_pos (b k)). lra. Qed.
Lemma comb_bound a b x : Rabs (a * cos x + b * sin x) <= Rabs a + Rabs b.
Proof.
  eapply Rle_trans; [apply Rabs_triang|]. rewrite !Rabs_mult. pose proof (Rabs_pos a). pose proof (Rabs_pos b).
  assert (Rabs (cos x) <= 1) by (apply Rabs_le; pose proof (COS_bound x); lra). assert (Rabs (sin x) <= 1) by (apply Rabs_le; pose proof (SIN_bound x); lra).
  apply Rplus_le_compat; rewrite <- (Rmult_1_r (Rabs _)) at 2; apply Rmult_le_compat_l; auto.
Qed.
Lemma mode_bound a b k x : Rabs (mode_at a b k x) <= amplitude a b k.
Proof. apply comb_bound. Qed.

Lemma is_series_zero : is_series (fun _ : nat => 0) 0.
Proof. apply filterlim_ext with (fun _ : nat => 0); [|apply filterlim_const]. intro m. induction m as [|m IH]; [now rewrite sum_O|]. rewrite sum_Sn, <- IH. unfold plus; cbn. ring. Qed.
(** the tail of a summable sequence becomes small *)
Lemma tail_small w : (forall k, 0 <= w k) -> ex_series w -> forall eps : posreal, exists N, forall m, (N <= m)%nat -> 0 <= tail w m < eps.
Proof.
  intros Hp [l Hl] eps. assert (is_lim_seq (sum_n w) l) as L by exact Hl. apply is_lim_seq_spec in L. destruct (L eps) as [N HN]. exists (S N). intros m Hm.
  assert (ex_series (fun k => w (m + k)%nat)) as Ex by (apply ex_series_incr_n; now exists l).
  split. { unfold tail. rewrite <- (is_series_unique _ _ is_series_zero). apply Series_le; auto. intro k. split; [lra|apply Hp]. }
  unfold tail. assert (Series w = sum_f_R0 w (Init.Nat.pred m) + Series (fun k => w (m + k)%nat)) as E by (apply Series_incr_n; [lia|now exists l]).
  rewrite (is_series_unique _ _ Hl) in E. specialize (HN (Init.Nat.pred m) ltac:(lia)). rewrite sum_n_Reals in HN.
  replace (sum_f_R0 w (Init.Nat.pred m) - l) with (- Series (fun k => w (m + k)%nat)) in HN by lra. rewrite Rabs_Ropp in HN. eapply Rle_lt_trans; [apply Rle_abs|exact HN].
Qed.

(** a series whose first m terms vanish *)
Lemma tail_bound (u w : nat -> R) l m : is_series u l -> (forall k, (k < m)%nat -> u k = 0) -> (forall k, (m <= k)%nat -> Rabs (u k) <= w k) -> ex_series w -> Rabs l <= tail w m.
Proof.
  intros Hu H0 Hb Ew. rewrite <- (is_series_unique _ _ Hu). unfold tail. rewrite (Series_incr_n_aux u m H0).
  assert (ex_series (fun k => w (m + k)%nat)) as Ex by now apply ex_series_incr_n.
  eapply Rle_trans; [apply Series_Rabs|apply Series_le; auto].
  - apply (ex_series_le (V := R_CompleteNormedModule) _ (fun k => w (m + k)%nat)); auto. intro k. unfold norm; cbn; unfold abs; cbn. rewrite Rabs_Rabsolu. apply Hb. lia.
  - intro k. split; [apply Rabs_pos|apply Hb; lia].
Qed.

(** uniformly bounded terms: the partial sums converge uniformly, to the sum f *)
Section Uniform.
Variables (u : nat -> R -> R) (w : nat -> R) (f : R -> R).
Hypothesis Hs : forall x, is_series (fun k => u k x) (f x).
Hypothesis Hb : forall k x, Rabs (u k x) <= w k.
Hypothesis Ew : ex_series w.
Lemma w_nonneg k : 0 <= w k.
Proof. eapply Rle_trans; [apply Rabs_pos|apply (Hb k 0)]. Qed.
Lemma partial_error m x : Rabs (f x - sum_n (fun k => u k x) m) <= tail w (S m).
Proof.
  assert (f x = sum_f_R0 (fun k => u k x) m + Series (fun k => u (S m + k)%nat x)) as ->.
  { rewrite <- (is_series_unique _ _ (Hs x)). apply (Series_incr_n (fun k => u k x) (S m)); [lia|exists (f x); apply Hs]. }
  rewrite sum_n_Reals. replace (_ + Series _ - _) with (Series (fun k => u (S m + k)%nat x)) by ring.
  assert (ex_series (fun k => w (S m + k)%nat)) as Ex by now apply ex_series_incr_n.
  eapply Rle_trans; [apply Series_Rabs|apply Series_le; auto].
  - apply (ex_series_le (V := R_CompleteNormedModule) _ (fun k => w (S m + k)%nat)); auto. intro k. unfold norm; cbn; unfold abs; cbn. rewrite Rabs_Rabsolu. apply Hb.
  - intro k. split; [apply Rabs_pos|apply Hb].
Qed.
Lemma uniform : filterlim (fun m x => sum_n (fun k => u k x) m) eventually (locally (T := fct_UniformSpace R R_UniformSpace) f).
Proof.
  intros P [eps HP]. destruct (tail_small w w_nonneg Ew eps) as [N HN]. exists N. intros m Hm. apply HP. intro x. change (Rabs (sum_n (fun k => u k x) m - f x) < eps). rewrite Rabs_minus_sym.
  eapply Rle_lt_trans; [apply partial_error|]. apply HN. lia.
Qed.
Hypothesis Hc : forall k x, continuous (u k) x.
Lemma partial_cont m x : continuous (fun t => sum_n (fun k => u k t) m) x.
Proof.
  induction m as [|m IH].
  - apply (continuous_ext (u 0%nat)); [intro; now rewrite sum_O|apply Hc].
  - apply (continuous_ext (fun t => plus (sum_n (fun k => u k t) m) (u (S m) t))); [intro; now rewrite sum_Sn|]. apply (continuous_plus (V := R_NormedModule)); auto.
Qed.
Lemma sum_continuous x : continuous f x.
Proof.
  apply continuity_pt_filterlim. apply (CVU_continuity (fun m t => sum_n (fun k => u k t) m) f x (mkposreal 1 Rlt_0_1)).
  - intros eps He. destruct (tail_small w w_nonneg Ew (mkposreal eps He)) as [N HN]. exists N. intros m y Hm _. eapply Rle_lt_trans; [apply partial_error|]. apply (HN (S m)). lia.
  - intros m y _. apply continuity_pt_filterlim. apply partial_cont.
  - unfold Boule. cbn. rewrite Rminus_eq_0, Rabs_R0. lra.
Qed.
Lemma sum_integral p q : is_series (fun k => RInt (u k) p q) (RInt f p q).
Proof.
  destruct (filterlim_RInt (fun m x => sum_n (fun k => u k x) m) p q eventually eventually_filter f (fun m => sum_n (fun k => RInt (u k) p q) m)) as (I & HI & Hf).
  - intro m. induction m as [|m IH].
    + rewrite sum_O. apply (is_RInt_ext (u 0%nat)); [intros; now rewrite sum_O|]. apply (RInt_correct (u 0%nat)). apply ex_RInt_cont_all. apply Hc.
    + rewrite sum_Sn. apply (is_RInt_ext (fun t => plus (sum_n (fun k => u k t) m) (u (S m) t))); [intros; now rewrite sum_Sn|].
      apply (is_RInt_plus (V := R_NormedModule)); [exact IH|]. apply (RInt_correct (u (S m))). apply ex_RInt_cont_all. apply Hc.
  - exact uniform.
  - rewrite (is_RInt_unique f p q I Hf). exact HI.
Qed.
End Uniform.

(** linear functionals of arrays act termwise *)
Lemma is_series_plus_R (u v : nat -> R) a b : is_series u a -> is_series v b -> is_series (fun k => u k + v k) (a + b).
Proof. intros. now apply (is_series_plus (V := R_NormedModule)). Qed.
Lemma is_series_scal_R (c : R) (u : nat -> R) a : is_series u a -> is_series (fun k => c * u k) (c * a).
Proof. intros. now apply (is_series_scal (V := R_NormedModule)). Qed.
Lemma is_series_bsum n (d : nat -> nat -> R) (D : nat -> R) : (forall i, (i < n)%nat -> is_series (fun k => d k i) (D i)) -> is_series (fun k => bsum n (d k)) (bsum n D).
Proof.
  induction n as [|n IH]; intro H.
  - cbn [bsum]. exact is_series_zero.
  - cbn [bsum]. apply is_series_plus_R; [apply IH; intros; apply H; lia|apply H; lia].
Qed.
Lemma functional_series n (phi : list R -> R) (d : nat -> nat -> R) (D : nat -> R) : lf n phi -> (forall i, (i < n)%nat -> is_series (fun k => d k i) (D i)) ->
  is_series (fun k => phi (tab n (d k))) (phi (tab n D)).
Proof.
  intros Hl H. rewrite (lf_matrix n phi (tab n D) Hl (length_tab _ _)).
  apply (is_series_ext (fun k => bsum n (fun i => phi (unit n i) * d k i))).
  - intro k. rewrite (lf_matrix n phi (tab n (d k)) Hl (length_tab _ _)). apply bsum_ext. intros i Hi. now rewrite nth_tab.
  - rewrite (bsum_ext n (fun i => nmul (phi (unit n i)) (nth i (tab n D) nzero)) (fun i => phi (unit n i) * D i)) by (intros i Hi; now rewrite nth_tab).
    apply is_series_bsum. intros i Hi. apply is_series_scal_R. now apply H.
Qed.
(** the error of a functional, when it is exact for the modes below m *)
Lemma functional_error n (phi : list R -> R) (d : nat -> nat -> R) (D : nat -> R) (e : nat -> R) (E : R) (w : nat -> R) m : lf n phi ->
  (forall i, (i < n)%nat -> is_series (fun k => d k i) (D i)) -> is_series e E -> ex_series w ->
  (forall k, (k < m)%nat -> phi (tab n (d k)) = e k) -> (forall k, (m <= k)%nat -> Rabs (phi (tab n (d k)) - e k) <= w k) ->
  Rabs (phi (tab n D) - E) <= tail w m.
Proof.
  intros Hl Hd He Ew H0 Hb. apply (tail_bound (fun k => phi (tab n (d k)) - e k) w); auto.
  - apply (is_series_minus (V := R_NormedModule)); auto. now apply functional_series.
  - intros k Hk. rewrite H0 by auto. ring.
Qed.
Lemma tail_scal c w m : tail (fun k => c * w k) m = c * tail w m.
Proof. apply Series_scal_l. Qed.
Lemma first_unresolved_spec n k : (k < first_unresolved n <-> 2 * k < n)%nat.
Proof. unfold first_unresolved. pose proof (Nat.div_mod (n + 1) 2 ltac:(lia)). pose proof (Nat.mod_upper_bound (n + 1) 2 ltac:(lia)). lia. Qed.
