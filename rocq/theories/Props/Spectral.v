(** C09-C14: the Fourier operators of dec/spectral.py. *)
From Coq Require Import ZArith Reals List Lia Lra Arith.
From Coq Require Import ZifyNat.
From Coquelicot Require Import Coquelicot.
From Verif Require Import Model.Num Model.Np Model.Spectral Spec.Trig
  Proofs.ListLemmas Proofs.Sums Proofs.Fourier Proofs.Kernels Proofs.Trig Proofs.Ops Proofs.Exact.
Import ListNotations.
Local Open Scope R_scope.

(** C09 *)
Theorem C09_fft_round_trip (x : list C) : Finv (F x) = x /\ F (Finv x) = x.
Proof. split; [apply Finv_F|apply F_Finv]. Qed.
Theorem C09_freq (N : nat) : (0 < N)%nat ->
  freq N = map (fun i => (Z.of_nat i - Z.of_nat (N / 2))%Z) (seq 0 N).
Proof. apply freq_tab. Qed.
(** entry i of F(x) is the coefficient of exp(1j*freq(N)[i]*t) in the expansion of x at t_j = 2 pi j/N *)
Theorem C09_coefficients (x : list C) j : (j < length x)%nat -> let N := length x in
  nth j x (RtoC 0) = Cmult (RtoC (/ INR N)) (Csum N (fun i =>
     Cmult (nth i (F x) (RtoC 0)) (cis (IZR (nth i (freq N) 0%Z) * (2 * PI * INR j / INR N))))).
Proof.
  intros Hj N. rewrite <- (Finv_F x) at 1. rewrite nth_Finv by (now rewrite length_F). rewrite length_F. fold N.
  f_equal. apply Csum_ext. intros i Hi. rewrite nth_freq by auto. rewrite xg_eq by (unfold N in *; lia). reflexivity.
Qed.
Theorem C09_fft_linear (c : C) (x y : list C) : length x = length y ->
  F (vadd (map (Cmult c) x) y) = vadd (map (Cmult c) (F x)) (F y).
Proof.
  intro L. rewrite !F_tab. unfold vadd. rewrite length_zipw, map_length, L, Nat.min_id.
  rewrite map_tab, zipw_tab. apply tab_ext. intros i Hi. unfold nadd, NumC. rewrite <- Csum_scal, <- Csum_plus.
  apply Csum_ext. intros m Hm. rewrite nth_zipw with (dx := RtoC 0) (dy := RtoC 0) by (rewrite ?map_length; lia).
  rewrite nth_map_ with (d' := RtoC 0) by lia. ring.
Qed.
Example C09_instance : freq 5 = [-2;-1;0;1;2]%Z /\ freq 4 = [-2;-1;0;1]%Z.
Proof. split; reflexivity. Qed.

(** C10: through any vector of samples there is exactly one trigonometric interpolant, and S, Sinv
    evaluate it half a cell to the right and to the left *)
Theorem C10_S_evaluates_interpolant (a : list R) : (0 < length a)%nat -> let N := length a in
  exists p, (trig_interpolant N p /\ samples a p) /\
    (forall q, trig_interpolant N q -> samples a q -> forall x, q x = p x) /\
    length (opS a) = N /\ length (opSinv a) = N /\
    forall j, (j < N)%nat ->
      nth j (opS a) 0 = p (2 * PI * INR j / INR N + PI / INR N) /\
      nth j (opSinv a) 0 = p (2 * PI * INR j / INR N - PI / INR N).
Proof.
  intros HN N. assert (INR N <> 0) by (apply INR_neq0; auto). exists (interp a).
  split; [split; [now apply interp_trig|apply interp_samples]|]. split; [intros q Hq Hs; now apply interp_unique|].
  split; [now apply length_opS|]. split; [now apply length_opSinv|].
  intros j Hj. rewrite nth_opS, nth_opSinv by auto. fold N. rewrite xg_eq by auto.
  replace (hstep N / 2) with (PI / INR N) by (unfold hstep; field; auto). auto.
Qed.
Example C10_instance : trig_interpolant 4 (fun x => cos (2 * x)) /\ samples [1;-1;1;-1] (fun x => cos (2 * x)).
Proof.
  split.
  - exists (fun k => if Nat.eqb k 2 then 1 else 0), (fun _ => 0). split; [reflexivity|]. intro x.
    unfold trig. change (4 / 2)%nat with 2%nat. cbn [Rsum Nat.eqb]. replace (INR 2) with 2 by (simpl; ring). ring.
  - intros j Hj. simpl in Hj. assert (forall k, cos (2 * (2 * PI * INR k / INR 4)) = cos (IZR (Z.of_nat k) * PI)) as E.
    { intro k. f_equal. rewrite <- INR_IZR_INZ. replace (INR 4) with 4 by (simpl; ring). field. }
    simpl length. rewrite E, cos_PI_Z.
    destruct j as [|[|[|[|j]]]]; [reflexivity..|lia].
Qed.

(** C11 *)
Theorem C11_S_inverse_odd (a : list R) : Nat.odd (length a) = true ->
  opSinv (opS a) = a /\ opS (opSinv a) = a.
Proof.
  intro O. assert (Nat.even (length a) = false) by (rewrite <- Nat.negb_odd, O; reflexivity).
  split; [now apply Sinv_S_odd|now apply S_Sinv_odd].
Qed.
(** even length: exactly the alternating component is removed *)
Theorem C11_S_even (a : list R) : (0 < length a)%nat -> Nat.even (length a) = true ->
  let N := length a in
  let alt := Rsum N (fun m => (-1) ^ m * nth m a 0) / INR N in
  opSinv (opS a) = tab N (fun j => nth j a 0 - (-1) ^ j * alt) /\
  opS (opSinv a) = tab N (fun j => nth j a 0 - (-1) ^ j * alt).
Proof. intros H E. split; [now apply Sinv_S_even|now apply S_Sinv_even]. Qed.
(** so S is not invertible on any even length *)
Theorem C11_S_inverse_even_refuted (N : nat) : (0 < N)%nat -> Nat.even N = true ->
  exists a, length a = N /\ opSinv (opS a) = tab N (fun _ => 0) /\ opSinv (opS a) <> a.
Proof.
  intros HN E. exists (tab N (fun j => (-1) ^ j)). rewrite length_tab. split; [reflexivity|].
  assert (opSinv (opS (tab N (fun j => (-1) ^ j))) = tab N (fun _ => 0)) as Z.
  { rewrite Sinv_S_even by (rewrite length_tab; auto). unfold drop_alternating. rewrite length_tab. apply tab_ext.
    intros i Hi. rewrite nth_tab by auto. rewrite (Rsum_ext N _ (fun _ => 1)).
    - rewrite Rsum_const. field. now apply INR_neq0.
    - intros m Hm. rewrite nth_tab by auto. rewrite <- pow_add. rewrite pow_m1_Z.
      replace (Nat.even (m + m)) with true; [reflexivity|]. symmetry. apply Nat.even_spec. exists m. lia. }
  split; [exact Z|]. rewrite Z. intro H. assert (nth 0 (tab N (fun _ => 0)) 0 = nth 0 (tab N (fun j => (-1) ^ j)) 0) as H0 by now rewrite H.
  rewrite !nth_tab in H0 by auto. simpl in H0. lra.
Qed.
Example C11_instance : Nat.odd (length [3;1;-2]) = true. Proof. reflexivity. Qed.
Example C11_instance_even : Nat.even (length [3;1;-2;5]) = true. Proof. reflexivity. Qed.

(** C12 *)
Theorem C12_H_inverse (a : list R) : (0 < length a)%nat ->
  opHinv (opH a) = a /\ opH (opHinv a) = a.
Proof. intro H. split; [now apply Hinv_H|now apply H_Hinv]. Qed.
(** the entries divided by are not zero, and the real part drops nothing *)
Theorem C12_H_well_defined (a : list R) : (0 < length a)%nat -> let N := length a in let h := 2 * PI / INR N in
  (forall i, (i < N)%nat -> nth i (I_diag N (- h / 2) (h / 2)) (RtoC 0) <> RtoC 0) /\
  cplxv (opH a) = Finv (vmul (F (cplxv a)) (I_diag N (- h / 2) (h / 2))) /\
  cplxv (opHinv a) = Finv (vdiv (F (cplxv a)) (I_diag N (- h / 2) (h / 2))).
Proof.
  intros HN N h. change h with (hstep N). split; [|split].
  - intros i Hi. unfold I_diag. rewrite nth_map_ with (d' := 0%Z) by (rewrite length_freq; auto).
    rewrite nth_freq by auto. rewrite I_entry_sym. intro E. apply (wH_neq0 N (fz N i)); auto; [now apply fz_in|].
    now injection E.
  - assert (Finv (vmul (F (cplxv a)) (I_diag N (- hstep N / 2) (hstep N / 2))) = fm (dH N) (cplxv a)) as E.
    { rewrite (fm_ext (dH N) (dI (- hstep N / 2) (hstep N / 2))).
      - rewrite <- vmul_F_fm by (now rewrite length_cplxv). now rewrite length_cplxv.
      - intros n _. unfold dH, dI. now rewrite I_entry_sym. }
    rewrite E. rewrite opH_fm by auto. fold N. rewrite real_fm by apply symD_dH. apply fm_ext.
    intros n _. now apply rl_real.
  - assert (Finv (vdiv (F (cplxv a)) (I_diag N (- hstep N / 2) (hstep N / 2))) = fm (fun n => Cinv (dH N n)) (cplxv a)) as E.
    { rewrite (fm_ext (fun n => Cinv (dH N n)) (fun n => Cinv (dI (- hstep N / 2) (hstep N / 2) n))).
      - rewrite <- vdiv_F_fm by (now rewrite length_cplxv). now rewrite length_cplxv.
      - intros n _. unfold dH, dI. now rewrite I_entry_sym. }
    rewrite E. rewrite opHinv_fm by auto. fold N. rewrite real_fm by (apply symD_inv, symD_dH). apply fm_ext.
    intros n _. apply rl_real. apply Im_Cinv_R.
Qed.
Example C12_instance : (0 < length [3;1;-2;5]%R)%nat. Proof. simpl. lia. Qed.

(** C13 *)
Lemma rH : run_op oH = opH. Proof. reflexivity. Qed.
Lemma rHinv : run_op oHinv = opHinv. Proof. reflexivity. Qed.
Lemma rS : run_op oS = opS. Proof. reflexivity. Qed.
Lemma rSinv : run_op oSinv = opSinv. Proof. reflexivity. Qed.
Theorem C13_H_S_commute (a : list R) : opH (opS a) = opS (opH a) /\ opHinv (opS a) = opS (opHinv a) /\
  opH (opSinv a) = opSinv (opH a) /\ opHinv (opSinv a) = opSinv (opHinv a) /\ opS (opSinv a) = opSinv (opS a).
Proof.
  pose proof (run_op_comm oH oS a) as H1. pose proof (run_op_comm oHinv oS a) as H2.
  pose proof (run_op_comm oH oSinv a) as H3. pose proof (run_op_comm oHinv oSinv a) as H4.
  pose proof (run_op_comm oS oSinv a) as H5. rewrite ?rH, ?rHinv, ?rS, ?rSinv in *. exact (conj H1 (conj H2 (conj H3 (conj H4 H5)))).
Qed.
Theorem C13_S_Hinv_Sinv (a : list R) : Nat.odd (length a) = true -> opS (opHinv (opSinv a)) = opHinv a.
Proof.
  intro O. assert (Nat.even (length a) = false) as E by (rewrite <- Nat.negb_odd, O; reflexivity).
  pose proof (run_op_comm oHinv oSinv a) as C. rewrite rHinv, rSinv in C. rewrite C.
  assert (0 < length a)%nat by (destruct (length a); [discriminate|lia]).
  apply S_Sinv_odd. now rewrite length_opHinv.
Qed.
Example C13_instance : Nat.odd (length [3;1;-2;5;0]) = true. Proof. reflexivity. Qed.

(** C14: exactness on trigonometric polynomials of degree K < N/2 *)
Theorem C14_spectral_exactness (a : list R) (K : nat) (f : R -> R) (x0 x1 : R) :
  (2 * K < length a)%nat -> trig_degree K f -> samples a f ->
  let N := length a in let h := 2 * PI / INR N in let x := fun j => 2 * PI * INR j / INR N in
  opS a = tab N (fun j => f (x j + h / 2)) /\
  opSinv a = tab N (fun j => f (x j - h / 2)) /\
  opH a = tab N (fun j => RInt f (x j - h / 2) (x j + h / 2)) /\
  opHinv (tab N (fun j => RInt f (x j - h / 2) (x j + h / 2))) = a /\
  opI (cplxv a) x0 x1 = cplxv (tab N (fun j => RInt f (x j + x0) (x j + x1))).
Proof.
  intros HK Hf Hs N h x. assert (0 < N)%nat as HN by (unfold N; lia).
  pose proof (trig_degree_interpolant N K f HK Hf) as Hi.
  assert (forall j, x j = xg N j) as Ex by (intro; unfold x; now rewrite xg_eq).
  repeat split.
  - rewrite (exact_S a f) by auto. apply tab_ext. intros. now rewrite Ex.
  - rewrite (exact_Sinv a f) by auto. apply tab_ext. intros. now rewrite Ex.
  - rewrite (exact_H a f) by auto. apply tab_ext. intros. now rewrite Ex.
  - etransitivity; [|apply (exact_Hinv a f); auto]. f_equal. apply tab_ext. intros. now rewrite Ex.
  - rewrite (exact_I a K f) by auto. f_equal. apply tab_ext. intros. now rewrite Ex.
Qed.
Example C14_instance : trig_degree 1 (fun x => 2 + sin x) /\
  samples (tab 3 (fun j => 2 + sin (2 * PI * INR j / INR 3))) (fun x => 2 + sin x).
Proof.
  split.
  - exists (fun k => if Nat.eqb k 0 then 2 else 0), (fun _ => 1). intro x. unfold trig. simpl.
    rewrite Rmult_1_l. ring.
  - intros j Hj. rewrite length_tab in *. now rewrite nth_tab.
Qed.
