(** Even Fourier multipliers preserve the symmetry of mirrored arrays; sums over mirrored arrays fold. *)
From Coq Require Import ZArith Reals List Lia Lra Arith.
From Coq Require Import ZifyNat.
From Coquelicot Require Import Coquelicot.
From Verif Require Import Model.Num Model.Np Model.Spectral Spec.Trig Proofs.ListLemmas Proofs.Sums Proofs.Fourier Proofs.RIntLemmas Proofs.Kernels Proofs.Trig Proofs.Ops Proofs.RingSums Proofs.Mirror.
Import ListNotations.
Local Open Scope R_scope.
Ltac Zify.zify_post_hook ::= Z.div_mod_to_equations.

Lemma Csum_rev n f : Csum n f = Csum n (fun i => f (n - 1 - i)%nat).
Proof. rewrite !Csum_pair. f_equal; apply (Rsum_rev n (fun i => _ (f i))). Qed.
(** reflection i -> (N - i) mod N *)
Lemma Csum_refl0 N f : Csum N f = Csum N (fun i => f ((N - i) mod N)%nat).
Proof.
  destruct N as [|N]; [reflexivity|]. rewrite !Csum_S_l. f_equal; [f_equal; rewrite Nat.sub_0_r, Nat.mod_same; lia|].
  rewrite Csum_rev. apply Csum_ext. intros i Hi. f_equal. rewrite Nat.mod_small; lia.
Qed.
Lemma Rsum_refl0 N f : Rsum N f = Rsum N (fun i => f ((N - i) mod N)%nat).
Proof.
  destruct N as [|N]; [reflexivity|]. rewrite !Rsum_S_l. f_equal; [f_equal; rewrite Nat.sub_0_r, Nat.mod_same; lia|].
  rewrite Rsum_rev. apply Rsum_ext. intros i Hi. f_equal. rewrite Nat.mod_small; lia.
Qed.

Definition evenD (D : Z -> C) : Prop := forall n, D (- n)%Z = D n.
Lemma kern_evenD N D k : (0 < N)%nat -> evenD D ->
  kernC N D (IZR k * hstep N) = Cmult (RtoC (/ INR N)) (Csum N (fun i => Cmult (D (fz N i)) (RtoC (cos (IZR (fz N i) * (IZR k * hstep N)))))).
Proof.
  intros HN HD. unfold kernC. f_equal.
  assert (Csum N (fun i => Cmult (D (fz N i)) (RtoC (sin (IZR (fz N i) * (IZR k * hstep N))))) = RtoC 0) as Z0.
  { rewrite Csum_pair. assert (forall P : C -> R, (forall z, P z = Re z) \/ (forall z, P z = Im z) ->
       Rsum N (fun i => P (D (fz N i)) * sin (IZR (fz N i) * (IZR k * hstep N))) = 0) as EP.
    { intros P _. apply (Rsum_Z_odd N (fun n => P (D n) * sin (IZR n * (IZR k * hstep N)))).
      - intro n. rewrite HD, opp_IZR. replace (- IZR n * (IZR k * hstep N)) with (- (IZR n * (IZR k * hstep N))) by ring. rewrite sin_neg. ring.
      - intro Ev. rewrite sin_nyq by auto. ring. }
    apply C_eq; simpl.
    - etransitivity; [|apply (EP Re); left; reflexivity]. apply Rsum_ext. intros. unfold Re. simpl. ring.
    - etransitivity; [|apply (EP Im); right; reflexivity]. apply Rsum_ext. intros. unfold Re, Im. simpl. ring. }
  rewrite (Csum_ext N (fun i => Cmult (D (fz N i)) (cis (IZR (fz N i) * (IZR k * hstep N)))) 
    (fun i => Cplus (Cmult (D (fz N i)) (RtoC (cos (IZR (fz N i) * (IZR k * hstep N)))))
                    (Cmult Ci (Cmult (D (fz N i)) (RtoC (sin (IZR (fz N i) * (IZR k * hstep N)))))))).
  2:{ intros i Hi. unfold cis. apply C_eq; unfold Re, Im; simpl; ring. }
  rewrite Csum_plus, Csum_scal, Z0. ring.
Qed.
Lemma kern_even N D k : (0 < N)%nat -> evenD D -> kernC N D (IZR (- k) * hstep N) = kernC N D (IZR k * hstep N).
Proof.
  intros HN HD. rewrite !kern_evenD by auto. f_equal. apply Csum_ext. intros i Hi. do 2 f_equal.
  rewrite opp_IZR. replace (IZR (fz N i) * (- IZR k * hstep N)) with (- (IZR (fz N i) * (IZR k * hstep N))) by ring. now rewrite cos_neg.
Qed.
Lemma kern_period N D k : (0 < N)%nat -> kernC N D (IZR (k + Z.of_nat N) * hstep N) = kernC N D (IZR k * hstep N).
Proof.
  intro HN. assert (INR N <> 0) by (apply INR_neq0; lia). unfold kernC. f_equal. apply Csum_ext. intros i Hi. f_equal.
  rewrite <- (cis_period_Z (IZR (fz N i) * (IZR k * hstep N)) (fz N i)). f_equal. rewrite plus_IZR, <- INR_IZR_INZ. unfold hstep. field. auto.
Qed.
Lemma kern_periodZ N D k m : (0 < N)%nat -> kernC N D (IZR (k + m * Z.of_nat N) * hstep N) = kernC N D (IZR k * hstep N).
Proof.
  intro HN. revert k.
  assert (forall n : nat, forall k, kernC N D (IZR (k + Z.of_nat n * Z.of_nat N) * hstep N) = kernC N D (IZR k * hstep N)) as P.
  { induction n as [|n IH]; intro k; [f_equal; f_equal; f_equal; lia|].
    replace (k + Z.of_nat (S n) * Z.of_nat N)%Z with ((k + Z.of_nat n * Z.of_nat N) + Z.of_nat N)%Z by lia. rewrite kern_period by auto. apply IH. }
  intro k. destruct (Z_le_dec 0 m) as [Hm|Hm].
  - rewrite <- (Z2Nat.id m) by lia. apply P.
  - rewrite <- (P (Z.to_nat (- m)) (k + m * Z.of_nat N)%Z). f_equal. f_equal. f_equal. rewrite Z2Nat.id by lia. lia.
Qed.

(** symmetry of arrays: x[(c - j) mod N] = s x[j], with c = 0 or c = N-1 *)
Lemma fm_sym0 D x s : evenD D ->
  (forall j, (j < length x)%nat -> nth ((length x - j) mod length x) x (RtoC 0) = Cmult s (nth j x (RtoC 0))) ->
  forall j, (j < length x)%nat -> nth ((length x - j) mod length x) (fm D x) (RtoC 0) = Cmult s (nth j (fm D x) (RtoC 0)).
Proof.
  intros HD Hx j Hj. set (N := length x) in *. assert ((N - j) mod N < N)%nat as Hr by (apply Nat.mod_upper_bound; lia).
  rewrite !nth_fm by (fold N; auto). fold N. rewrite <- Csum_scal. rewrite Csum_refl0. apply Csum_ext. intros m Hm.
  rewrite Hx by auto. rewrite <- Cmult_assoc. f_equal. f_equal. rewrite !xg_diff.
  rewrite <- (kern_even N D (Z.of_nat j - Z.of_nat m)) by (lia || auto).
  assert (exists q, Z.of_nat ((N - j) mod N) - Z.of_nat ((N - m) mod N) = - (Z.of_nat j - Z.of_nat m) + q * Z.of_nat N)%Z as [q Eq].
  { rewrite !Nat2Z.inj_mod. exists ((Z.of_nat (N - m) / Z.of_nat N) - (Z.of_nat (N - j) / Z.of_nat N))%Z.
    pose proof (Z.div_mod (Z.of_nat (N - m)) (Z.of_nat N) ltac:(lia)). pose proof (Z.div_mod (Z.of_nat (N - j)) (Z.of_nat N) ltac:(lia)).
    rewrite Z.mul_sub_distr_r. nia. }
  rewrite Eq. rewrite kern_periodZ by lia. reflexivity.
Qed.
Lemma fm_sym1 D x s : evenD D ->
  (forall j, (j < length x)%nat -> nth (length x - 1 - j) x (RtoC 0) = Cmult s (nth j x (RtoC 0))) ->
  forall j, (j < length x)%nat -> nth (length x - 1 - j) (fm D x) (RtoC 0) = Cmult s (nth j (fm D x) (RtoC 0)).
Proof.
  intros HD Hx j Hj. set (N := length x) in *.
  rewrite !nth_fm by (fold N; lia). fold N. rewrite <- Csum_scal. rewrite Csum_rev. apply Csum_ext. intros m Hm.
  rewrite Hx by auto. rewrite <- Cmult_assoc. f_equal. f_equal. rewrite !xg_diff.
  rewrite <- (kern_even N D (Z.of_nat j - Z.of_nat m)) by (lia || auto). do 2 f_equal. f_equal. lia.
Qed.
Lemma mirror0_fm D (f : list C) : (2 <= length f)%nat -> evenD D ->
  mirror0 (RtoC 1) (unmirror0 (fm D (mirror0 (RtoC 1) f))) = fm D (mirror0 (RtoC 1) f).
Proof.
  intros L HD. apply (mirror0_unmirror0 (RtoC 1 : C) _ (length f - 1)); [rewrite length_fm; now apply length_mirror0'|lia|].
  change (@nzero C NumC) with (RtoC 0). change (@nmul C NumC) with Cmult.
  intros j Hj. pose proof (fm_sym0 D (mirror0 (RtoC 1) f) (RtoC 1) HD) as P. rewrite length_mirror0' in P by auto.
  set (N := (2 * (length f - 1))%nat) in *. 
  specialize (P ltac:(intros i Hi; rewrite !nth_mirror0 by (unfold N in *; lia); change (@nmul C NumC) with Cmult;
     destruct (Nat.eq_dec i 0) as [->|Hi0]; [rewrite Nat.sub_0_r, Nat.mod_same by lia; destruct (Nat.ltb 0 (length f)); ring|];
     rewrite Nat.mod_small by lia; 
     destruct (Nat.ltb_spec i (length f)), (Nat.ltb_spec (N - i) (length f)); rewrite ?Cmult_1_l; f_equal; unfold N in *; lia)).
  specialize (P (N - j)%nat ltac:(lia)). rewrite Nat.mod_small in P by lia. replace (N - (N - j))%nat with j in P by lia. exact P.
Qed.
Lemma mirror1_fm D (f : list C) s : Cmult s s = RtoC 1 -> evenD D ->
  mirror1 s (unmirror1 (fm D (mirror1 s f))) = fm D (mirror1 s f).
Proof.
  intros Hs HD. apply (mirror1_unmirror1 (s : C) _ (length f)); [rewrite length_fm; now apply length_mirror1|].
  change (@nzero C NumC) with (RtoC 0). change (@nmul C NumC) with Cmult.
  intros j Hj. pose proof (fm_sym1 D (mirror1 s f) s HD) as P. rewrite length_mirror1 in P by auto.
  specialize (P ltac:(intros i Hi; rewrite !nth_mirror1 by lia; change (@nmul C NumC) with Cmult;
     destruct (Nat.ltb_spec i (length f)), (Nat.ltb_spec (2 * length f - 1 - i) (length f)); try lia;
     [f_equal; f_equal; lia|rewrite Cmult_assoc, Hs, Cmult_1_l; f_equal; lia])).
  specialize (P (2 * length f - 1 - j)%nat ltac:(lia)). replace (2 * length f - 1 - (2 * length f - 1 - j))%nat with j in P by lia. exact P.
Qed.

(** folding sums over mirrored real arrays *)
Lemma Rsum_mirror1 s (a : list R) g :
  Rsum (2 * length a) (fun m => nth m (mirror1 s a) 0 * g m) = 
  Rsum (length a) (fun i => nth i a 0 * (g i + s * g (2 * length a - 1 - i)%nat)).
Proof.
  set (n := length a). replace (2 * n)%nat with (n + n)%nat at 1 by lia. rewrite Rsum_split, (Rsum_rev n (fun i => nth (n + i) (mirror1 s a) 0 * g (n + i)%nat)), <- Rsum_plus.
  apply Rsum_ext. intros i Hi. rewrite !nth_mirror1 by (unfold n in *; lia). fold n.
  destruct (Nat.ltb_spec i n), (Nat.ltb_spec (n + (n - 1 - i)) n); try lia. change (@nmul R NumR) with Rmult.
  replace (2 * n - 1 - (n + (n - 1 - i)))%nat with i by lia. replace (n + (n - 1 - i))%nat with (2 * n - 1 - i)%nat by lia. ring.
Qed.
Lemma Rsum_mirror0 s (a : list R) g : (2 <= length a)%nat ->
  Rsum (2 * (length a - 1)) (fun m => nth m (mirror0 s a) 0 * g m) = 
  Rsum (length a) (fun i => nth i a 0 * (g i + (if (Nat.eqb i 0 || Nat.eqb i (length a - 1))%bool then 0 else s * g (2 * (length a - 1) - i)%nat))).
Proof.
  intro L. set (n := length a) in *. set (k := (n - 1)%nat).
  replace (2 * k)%nat with (S k + (k - 1))%nat at 1 by (unfold k; lia). rewrite Rsum_split.
  replace n with (S k) at 1 by (unfold k; lia).
  assert (Rsum (S k) (fun i => nth i a 0 * (g i + (if (Nat.eqb i 0 || Nat.eqb i k)%bool then 0 else s * g (2 * k - i)%nat))) =
    Rsum (S k) (fun i => nth i a 0 * g i) + Rsum (S k) (fun i => if (Nat.eqb i 0 || Nat.eqb i k)%bool then 0 else nth i a 0 * (s * g (2 * k - i)%nat))) as ->.
  { rewrite <- Rsum_plus. apply Rsum_ext. intros i Hi. destruct (Nat.eqb i 0 || Nat.eqb i k)%bool; ring. }
  f_equal.
  - apply Rsum_ext. intros i Hi. rewrite nth_mirror0 by (fold n; unfold k in *; lia). fold n. destruct (Nat.ltb_spec i n); [reflexivity|unfold k in *; lia].
  - replace (S k) with (S (S (k - 1))) by (unfold k; lia).
    rewrite (Rsum_S_l (S (k - 1)) (fun i => if (Nat.eqb i 0 || Nat.eqb i k)%bool then 0 else nth i a 0 * (s * g (2 * k - i)%nat))).
    change (Nat.eqb 0 0) with true. cbn [orb]. change (Rsum (S (k - 1)) ?f) with (Rsum (k - 1) f + f (k - 1)%nat).
    cbv beta. replace (S (k - 1)) with k by (unfold k; lia). rewrite Nat.eqb_refl. rewrite Bool.orb_true_r.
    rewrite (Rsum_rev (k - 1) (fun i => nth (S k + i) (mirror0 s a) 0 * g (S k + i)%nat)).
    rewrite Rplus_0_l, Rplus_0_r. apply Rsum_ext. intros i Hi. destruct (Nat.eqb_spec (S i) k); [lia|]. cbn [orb].
    rewrite nth_mirror0 by (fold n; unfold k in *; lia). fold n. destruct (Nat.ltb_spec (S k + (k - 1 - 1 - i)) n); [unfold k in *; lia|].
    change (@nmul R NumR) with Rmult. replace (2 * n - 2 - (S k + (k - 1 - 1 - i)))%nat with (S i) by (unfold k in *; lia).
    replace (S k + (k - 1 - 1 - i))%nat with (2 * k - S i)%nat by (unfold k in *; lia). change (Nat.eqb (S i) 0) with false. cbn [orb]. ring.
Qed.
Lemma cplxv_mirror0 s a : cplxv (mirror0 s a) = mirror0 (RtoC s) (cplxv a).
Proof.
  unfold mirror0, cplxv. rewrite map_app, !map_map. f_equal. rewrite <- map_rev. unfold inner.
  assert (forall (g : R -> C) l, removelast (map g l) = map g (removelast l)) as E.
  { intros g l. induction l as [|x [|y l] IH]; [reflexivity..|]. change (g x :: removelast (map g (y :: l)) = g x :: map g (removelast (y :: l))). now rewrite IH. }
  assert (tl (map RtoC (rev a)) = map RtoC (tl (rev a))) as -> by (destruct (rev a); reflexivity).
  rewrite E, map_map. apply map_ext. intro. apply RtoC_mult.
Qed.
Lemma cplxv_mirror1 s a : cplxv (mirror1 s a) = mirror1 (RtoC s) (cplxv a).
Proof. unfold mirror1, cplxv. rewrite map_app, !map_map, <- map_rev, map_map. f_equal. apply map_ext. intro. apply RtoC_mult. Qed.
