(** Every operator of the 1D tables is linear between arrays of the right lengths. *)
From Coq Require Import ZArith Reals List Lia Lra Arith Ring Bool.
From Coq Require Import ZifyNat.
From Coquelicot Require Import Complex.
From Verif Require Import Model.Num Model.Np Model.Spectral Model.Regular Model.Chebyshev Model.Grids1 Model.Common
  Proofs.ListLemmas Proofs.Sums Proofs.Fourier Proofs.Kernels Proofs.RingSums Proofs.Mirror Proofs.Ops Proofs.RegularP Proofs.Lin.
Import ListNotations.
Local Open Scope R_scope.
Ltac Zify.zify_post_hook ::= Z.div_mod_to_equations.

Definition rlin (m n : nat) (o : op1) : Prop := exists g, lin m n g /\ forall f, length f = m -> o f = Ok (g f).
Lemma rlin_comp m n p o o' : rlin m n o -> rlin n p o' -> rlin m p (fun f => bind (o f) o').
Proof.
  intros (g & G & E) (g' & G' & E'). exists (fun f => g' (g f)). split; [now apply (lin_comp m n p)|].
  intros f L. rewrite E by auto. cbn [bind]. apply E'. now apply (lin_len m n).
Qed.
Lemma rlin_ok m n g : lin m n g -> rlin m n (fun f => Ok (g f)).
Proof. intro G. exists g. split; auto. Qed.
Lemma rlin_ext m n o o' : (forall f, length f = m -> o f = o' f) -> rlin m n o' -> rlin m n o.
Proof. intros E (g & G & E'). exists g. split; auto. intros f L. now rewrite E, E'. Qed.
Lemma rlin_eq m n m' n' o : m = m' -> n = n' -> rlin m n o -> rlin m' n' o. Proof. now intros -> ->. Qed.
Lemma rlin_len m n o f g : rlin m n o -> length f = m -> o f = Ok g -> length g = n.
Proof. intros (k & K & E) L H. rewrite E in H by auto. injection H as <-. now apply (lin_len m n). Qed.
Lemma rlin_total m n o f : rlin m n o -> length f = m -> exists g, o f = Ok g /\ length g = n.
Proof. intros (k & K & E) L. exists (k f). split; auto. now apply (lin_len m n). Qed.

(** periodic *)
Lemma rlin_spec n g : (0 < n)%nat -> lin n n g -> rlin n n (spec g).
Proof. intros Hn G. exists g. split; auto. intros [|a f] L; [simpl in L; lia|reflexivity]. Qed.
Lemma lin_opS n : (0 < n)%nat -> lin n n opS.
Proof. intro. apply (lin_ext n n _ (fun f => realv (fm (dS (hstep n / 2)) (cplxv f)))); [intros f L; rewrite opS_fm; now rewrite ?L|]. apply lin_real, lin_fm. Qed.
Lemma lin_opSinv n : (0 < n)%nat -> lin n n opSinv.
Proof. intro. apply (lin_ext n n _ (fun f => realv (fm (dS (- hstep n / 2)) (cplxv f)))); [intros f L; rewrite opSinv_fm; now rewrite ?L|]. apply lin_real, lin_fm. Qed.
Lemma lin_opH n : (0 < n)%nat -> lin n n opH.
Proof. intro. apply (lin_ext n n _ (fun f => realv (fm (Ops.dH n) (cplxv f)))); [intros f L; rewrite opH_fm; now rewrite ?L|]. apply lin_real, lin_fm. Qed.
Lemma lin_opHinv n : (0 < n)%nat -> lin n n opHinv.
Proof. intro. apply (lin_ext n n _ (fun f => realv (fm (fun z => Cinv (Ops.dH n z)) (cplxv f)))); [intros f L; rewrite opHinv_fm; now rewrite ?L|]. apply lin_real, lin_fm. Qed.
Lemma interweave_ok {A} (a b : list A) : (length b <= length a <= length b + 1)%nat -> interweave a b = Ok (weave a b).
Proof.
  intro L. unfold interweave. destruct (Nat.eqb_spec (length a) ((length a + length b + 1) / 2)); [|lia].
  destruct (Nat.eqb_spec (length b) ((length a + length b) / 2)); [reflexivity|lia].
Qed.
Lemma rlin_interweave_l m n p o : (p <= n <= p + 1)%nat -> m = n -> rlin m p o -> rlin m (n + p) (fun f => bind (o f) (fun s => interweave f s)).
Proof.
  intros Hnp -> (g & G & E). exists (fun f => weave f (g f)). split; [apply lin_weave; auto; apply lin_id|].
  intros f L. rewrite E by auto. cbn [bind]. apply interweave_ok. rewrite (lin_len n p g); lia || auto.
Qed.
Lemma rlin_interweave_r m n p o : (p <= n <= p + 1)%nat -> m = p -> rlin m n o -> rlin m (n + p) (fun f => bind (o f) (fun s => interweave s f)).
Proof.
  intros Hnp -> (g & G & E). exists (fun f => weave (g f) f). split; [apply lin_weave; auto; apply lin_id|].
  intros f L. rewrite E by auto. cbn [bind]. apply interweave_ok. rewrite (lin_len p n g); lia || auto.
Qed.
Lemma rlin_pair_sum k : rlin (2 * k) k pair_sum.
Proof.
  exists (fun f => vadd (evens f) (odds f)). split.
  - pose proof (lin_evens (A := R) (2 * k)) as E. pose proof (lin_odds (A := R) (2 * k)) as O.
    replace ((2 * k + 1) / 2)%nat with k in E by lia. replace (2 * k / 2)%nat with k in O by lia. now apply lin_vadd.
  - intros f L. unfold pair_sum, np_bin. destruct (Nat.eqb_spec (length (evens f)) (length (odds f))) as [_|N]; [reflexivity|].
    exfalso. apply N. rewrite length_evens, length_odds. lia.
Qed.
Lemma rlin_T0_p n : (0 < n)%nat -> rlin n (n + n) T0_periodic.
Proof. intro. apply rlin_interweave_l; [lia|auto|]. now apply rlin_spec, lin_opS. Qed.
Lemma rlin_T0d_p n : (0 < n)%nat -> rlin n (n + n) T0d_periodic.
Proof. intro. apply rlin_interweave_r; [lia|auto|]. now apply rlin_spec, lin_opSinv. Qed.
Lemma rlin_T1_p n : (0 < n)%nat -> rlin n (n + n) T1_periodic.
Proof. intro. apply (rlin_comp n n); [now apply rlin_spec, lin_opHinv|now apply rlin_T0d_p]. Qed.
Lemma rlin_T1d_p n : (0 < n)%nat -> rlin n (n + n) T1d_periodic.
Proof. intro. apply (rlin_comp n n); [now apply rlin_spec, lin_opHinv|now apply rlin_T0_p]. Qed.
Lemma rlin_U0_p n : rlin (n + n) n U0_periodic.
Proof. apply rlin_ok. pose proof (lin_evens (A := R) (n + n)) as E. now replace ((n + n + 1) / 2)%nat with n in E by lia. Qed.
Lemma rlin_U0d_p n : rlin (n + n) n U0d_periodic.
Proof. apply rlin_ok. pose proof (lin_odds (A := R) (n + n)) as E. now replace ((n + n) / 2)%nat with n in E by lia. Qed.
Lemma rlin_U1_p n : (0 < n)%nat -> rlin (n + n) n U1_periodic.
Proof.
  intro. apply (rlin_comp _ (n + n) _ (fun f => bind (spec opS f) (spec opH))).
  - apply (rlin_comp _ (n + n)); [apply rlin_spec, lin_opS; lia|apply rlin_spec, lin_opH; lia].
  - apply (rlin_eq (2 * n) n); [lia|auto|]. apply rlin_pair_sum.
Qed.
Lemma rlin_U1d_p n : (0 < n)%nat -> rlin (n + n) n U1d_periodic.
Proof.
  intro. apply (rlin_comp _ (n + n) _ (fun f => bind (spec opSinv f) (spec opH))).
  - apply (rlin_comp _ (n + n)); [apply rlin_spec, lin_opSinv; lia|apply rlin_spec, lin_opH; lia].
  - apply (rlin_eq (2 * n) n); [lia|auto|]. apply rlin_pair_sum.
Qed.

(** complex operators with a step *)
Lemma with_h_ok f k m : length f = S m -> with_h f k = k (hstep (length f)).
Proof. intro L. unfold with_h. now rewrite L. Qed.
Lemma real_with_h m n (pre : list R -> list R) (k : R -> list C -> list C) p : (0 < p)%nat ->
  lin m p pre -> lin p n (k (hstep p)) ->
  rlin m n (fun f => bind (with_h (cplxv (pre f)) (fun h => Ok (k h (cplxv (pre f))))) (fun f => Ok (realv f))).
Proof.
  intros Hp P K. exists (fun f => realv (k (hstep p) (cplxv (pre f)))). split.
  - apply (lin_comp m p n pre (fun f => realv (k (hstep p) (cplxv f)))); auto. now apply lin_real.
  - intros f L. assert (length (cplxv (pre f)) = p) as Lp by (rewrite length_cplxv; now apply (lin_len m p)).
    rewrite (with_h_ok _ _ (p - 1)) by lia. rewrite Lp. reflexivity.
Qed.
Lemma lin_vmulF m D : (0 < m)%nat -> lin m m (fun f => Finv (vmul (F f) (map D (freq m)))).
Proof.
  intro. apply (lin_ext m m _ (fm D)); [|apply lin_fm]. intros f L. rewrite <- L. now rewrite vmul_F_fm by lia.
Qed.
Lemma lin_unmirror0 k : (0 < k)%nat -> lin (2 * k) (k + 1) (@unmirror0 C).
Proof.
  intro. apply (lin_ext (2 * k) (k + 1) _ (firstn (k + 1))); [|apply lin_firstn; lia]. intros f L. unfold unmirror0. rewrite L. f_equal. lia.
Qed.
Lemma lin_unmirror1 k : lin (2 * k) k (@unmirror1 C).
Proof.
  apply (lin_ext (2 * k) k _ (firstn k)); [|apply lin_firstn; lia]. intros f L. unfold unmirror1. rewrite L. f_equal. lia.
Qed.
Lemma rlin_S_cheb n : (2 <= n)%nat -> rlin n (n - 1) S_cheb.
Proof.
  intro Hn. apply (rlin_ext _ _ _ (fun f => bind (with_h (cplxv (mirror0 1 f)) (fun h => Ok ((fun h f => unmirror1 (Finv (vmul (F f) (map (fun z => cis (IZR z * (h / 2))) (freq (2 * (n - 1))))))) h (cplxv (mirror0 1 f))))) (fun f => Ok (realv f)))).
  - intros f L. unfold S_cheb. rewrite length_cplxv, length_mirror0', L by lia. reflexivity.
  - apply (real_with_h n (n - 1) (mirror0 1) (fun h f => unmirror1 (Finv (vmul (F f) (map (fun z => cis (IZR z * (h / 2))) (freq (2 * (n - 1))))))) (2 * (n - 1))); [lia|apply lin_mirror0; lia|].
    apply (lin_comp _ (2 * (n - 1)) _ (fun f => Finv (vmul (F f) (map (fun z => cis (IZR z * (hstep (2 * (n - 1)) / 2))) (freq (2 * (n - 1)))))) unmirror1); [apply lin_vmulF; lia|apply lin_unmirror1].
Qed.
Lemma rlin_S_cheb_pinv k : (1 <= k)%nat -> rlin k (k + 1) S_cheb_pinv.
Proof.
  intro Hn. apply (rlin_ext _ _ _ (fun f => bind (with_h (cplxv (mirror1 1 f)) (fun h => Ok ((fun h f => unmirror0 (Finv (vmul (F f) (map (fun z => cis (IZR z * (- h / 2))) (freq (2 * k)))))) h (cplxv (mirror1 1 f))))) (fun f => Ok (realv f)))).
  - intros f L. unfold S_cheb_pinv. rewrite length_cplxv, length_mirror1, L by lia. reflexivity.
  - apply (real_with_h k (k + 1) (mirror1 1) (fun h f => unmirror0 (Finv (vmul (F f) (map (fun z => cis (IZR z * (- h / 2))) (freq (2 * k)))))) (2 * k)); [lia|apply lin_mirror1; lia|].
    apply (lin_comp _ (2 * k) _ (fun f => Finv (vmul (F f) (map (fun z => cis (IZR z * (- hstep (2 * k) / 2))) (freq (2 * k))))) unmirror0); [apply lin_vmulF; lia|apply lin_unmirror0; lia].
Qed.

(** fourier_K *)
Lemma lin_add_first m n g phi : lin m n g -> lf m phi -> lin m n (fun f => add_first (phi f) (g f)).
Proof.
  intros G P. destruct n as [|n].
  - apply (lin_ext m 0 _ g); auto. intros f L. pose proof (lin_len m 0 g f G L). destruct (g f); [reflexivity|discriminate].
  - apply lin_nth.
    + intros f L. pose proof (lin_len m (S n) g f G L). now destruct (g f).
    + intros j Hj. apply (lf_ext m _ (fun f => nadd (nth j (g f) nzero) (if Nat.eqb j 0 then phi f else nzero))).
      * intros f L. pose proof (lin_len m (S n) g f G L). destruct (g f); [discriminate|]. destruct j; cbn [nth add_first Nat.eqb]; [reflexivity|].
        change (@nadd C NumC) with Cplus. change (@nzero C NumC) with (RtoC 0). now rewrite Cplus_0_r.
      * apply lf_add; [now apply (lin_lf m (S n))|]. destruct (Nat.eqb j 0); auto. apply lf_zero.
Qed.
Lemma lin_add_last m n g phi : lin m n g -> lf m phi -> lin m n (fun f => add_last (phi f) (g f)).
Proof.
  intros G P. unfold add_last. apply (lin_comp m n n (fun f => add_first (phi f) (rev (g f))) (@rev C)); [|apply lin_rev].
  apply lin_add_first; auto. apply (lin_comp m n n g (@rev C)); auto. apply lin_rev.
Qed.
Lemma lf_last m n g : lin m n g -> lf m (fun f => last (g f) (RtoC 0)).
Proof. intros G. apply (lf_ext m _ (fun f => nth (n - 1) (g f) nzero)); [|now apply (lin_lf m n)]. intros f L. now rewrite nth_last, (lin_len m n g). Qed.
Lemma lf_hd m n g : lin m n g -> lf m (fun f => hd (RtoC 0) (g f)).
Proof. intros G. apply (lf_ext m _ (fun f => nth 0 (g f) nzero)); [|now apply (lin_lf m n)]. intros f L. now rewrite nth_hd. Qed.
Lemma length_I_diag N a b : (0 < N)%nat -> length (I_diag N a b) = N.
Proof. intro. unfold I_diag. now rewrite map_length, length_freq. Qed.
Lemma lin_zero1 m : lin m 1 (fun _ : list C => [RtoC 0]). Proof. exact (@lin_zeros C NumC LawsC m 1). Qed.
Lemma lin_K_pre m a b : lin m (m + 2) (fun x0 => vmul (vsub (roll 1 ([RtoC 0] ++ x0 ++ [RtoC 0])) (roll (-1) ([RtoC 0] ++ x0 ++ [RtoC 0])))
   (map (fun y => Cdiv y (Cmult (RtoC 2) Ci)) (I_diag (m + 2) a b))).
Proof.
  apply lin_vmul_r; [rewrite map_length; apply length_I_diag; lia|].
  assert (lin m (m + 2) (fun x0 => [RtoC 0] ++ x0 ++ [RtoC 0])) as E.
  { replace (m + 2)%nat with (1 + (m + 1))%nat by lia. apply (lin_app m 1 (m + 1)); [apply lin_zero1|]. apply (lin_app m m 1); [apply lin_id|apply lin_zero1]. }
  apply lin_vsub; apply (lin_comp m (m + 2) (m + 2) _ (roll _) E); apply lin_roll.
Qed.
Lemma lin_fourier_K m a b : lin m m (fun x => fourier_K x a b).
Proof.
  pose proof (lin_K_pre m a b) as P. set (pre := fun x0 => vmul _ _) in P.
  apply (lin_ext m m _ (fun f => add_last (hd (RtoC 0) (pre f)) (add_first (last (pre f) (RtoC 0)) (inner (pre f))))).
  - intros f L. unfold fourier_K, pre. now rewrite L.
  - apply lin_add_last; [|now apply (lf_hd m (m + 2))]. apply lin_add_first; [|now apply (lf_last m (m + 2))].
    pose proof (lin_comp m (m + 2) (m + 2 - 2) pre inner P (lin_inner (m + 2))) as Q. now replace (m + 2 - 2)%nat with m in Q by lia.
Qed.
Lemma lin_fourier_S m a : (0 < m)%nat -> lin m m (fun x => fourier_S x a).
Proof.
  intro Hm. apply (lin_ext m m _ (fun f => vmul f (S_diag m a))); [intros f L; unfold fourier_S; now rewrite L|].
  apply lin_vmul_r; [|apply lin_id]. unfold S_diag. now rewrite map_length, length_freq.
Qed.
(** fourier_K_inv *)
Definition kguard (close : C -> C -> bool) (N : nat) (a b : R) : bool :=
  let I := I_diag (N + 2) a b in let i k := nth k I (RtoC 0) in
  (close (i 0%nat) (i N) || close (i 1%nat) (i (N + 1)%nat) || close (Cmult (i 0%nat) (i 1%nat)) (Cmult (i N) (i (N + 1)%nat)))%bool.
Lemma lf_div m d p : lf m p -> lf m (fun f => Cdiv (p f) d).
Proof. intro P. exact (lf_scal_r m (Cinv d) p P). Qed.
Lemma lf_comb m d p q : lf m p -> lf m q -> lf m (fun f => Cplus (Cmult d (p f)) (q f)).
Proof. intros P Q. exact (lf_add m (fun x => nmul d (p x)) q (lf_scal m d p P) Q). Qed.
Lemma lf_Copp m p : lf m p -> lf m (fun f => Copp (p f)).
Proof. intros P. exact (lf_opp m p P). Qed.
Lemma lf_Cmul m d p : lf m p -> lf m (fun f => Cmult (p f) d).
Proof. intros P. exact (lf_scal_r m d p P). Qed.
Lemma lin_weave' m n g h p q : (q <= p <= q + 1)%nat -> n = (p + q)%nat -> lin m p g -> lin m q h -> lin m n (fun f => weave (g f) (h f)).
Proof. intros H -> G K. now apply lin_weave. Qed.
Lemma lin_eq {A} `{NumLaws A} m n n' (g : list A -> list A) : n = n' -> lin m n g -> lin m n' g. Proof. now intros ->. Qed.
Lemma lin_fourier_K_inv close m a b : kguard close m a b = false ->
  exists g, lin m m g /\ forall x, length x = m -> fourier_K_inv close x a b = Ok (g x).
Proof.
  intro Hg. set (I := I_diag (m + 2) a b). set (i := fun k => nth k I (RtoC 0)).
  set (X := fun x0 => vdiv x0 (inner I)).
  assert (lin m m X) as LX.
  { apply lin_vdiv_r; [|apply lin_id]. rewrite length_inner. unfold I. rewrite length_I_diag; lia. }
  set (E := fun x0 => lsum (evens (X x0))). set (O := fun x0 => lsum (odds (X x0))).
  assert (lf m E) as LE by (apply (lf_lin m _ (fun x => evens (X x)) lsum (lin_comp m m _ X evens LX (lin_evens m)) (lf_lsum _))).
  assert (lf m O) as LO by (apply (lf_lin m _ (fun x => odds (X x)) lsum (lin_comp m m _ X odds LX (lin_odds m)) (lf_lsum _))).
  set (one := RtoC 1).
  set (y0 := fun x0 => if Nat.even m then Cdiv (O x0) (Cminus one (Cdiv (i 0%nat) (i m)))
     else Cdiv (Cplus (Cmult (Cdiv (i 1%nat) (i (m+1)%nat)) (E x0)) (O x0)) (Cminus one (Cdiv (Cdiv (Cmult (i 1%nat) (i 0%nat)) (i m)) (i (m+1)%nat)))).
  set (yl := fun x0 => if Nat.even m then Cdiv (E x0) (Cminus (Cdiv (i (m+1)%nat) (i 1%nat)) one)
     else Cdiv (Cplus (Cmult (Cdiv (i m) (i 0%nat)) (E x0)) (O x0)) (Cminus (Cdiv (Cdiv (Cmult (i m) (i (m+1)%nat)) (i 0%nat)) (i 1%nat)) one)).
  assert (lf m y0) as Ly0.
  { apply lf_if; apply lf_div; auto. now apply lf_comb. }
  assert (lf m yl) as Lyl.
  { apply lf_if; apply lf_div; auto. now apply lf_comb. }
  set (y0' := fun x0 => if Nat.eqb m 1 then yl x0 else y0 x0).
  assert (lf m y0') as Ly0' by now apply lf_if.
  set (X1 := fun x0 => add_first (Copp (Cdiv (Cmult (yl x0) (i (m+1)%nat)) (i 1%nat))) (X x0)).
  assert (lin m m X1) as LX1.
  { apply lin_add_first; auto. apply lf_Copp, lf_div. now apply lf_Cmul. }
  set (X2 := fun x0 => add_last (Cdiv (Cmult (y0' x0) (i 0%nat)) (i m)) (X1 x0)).
  assert (lin m m X2) as LX2.
  { apply lin_add_last; auto. apply lf_div. now apply lf_Cmul. }
  set (X3 := fun x0 => [Copp (y0' x0)] ++ X2 x0 ++ [yl x0]).
  assert (lin m (m + 2) X3) as LX3.
  { apply (lin_eq m (1 + (m + 1))); [lia|]. apply (lin_app m 1 (m + 1) (fun x0 => [Copp (y0' x0)])); [apply lin_single; now apply lf_Copp|].
    apply (lin_app m m 1 X2 (fun x0 => [yl x0])); auto. now apply lin_single. }
  set (ye := fun x0 => map Copp (removelast (cumsum (evens (X3 x0))))).
  set (yo := fun x0 => rev (removelast (cumsum (rev (odds (X3 x0)))))).
  assert (lin m ((m + 1) / 2) ye) as Lye.
  { apply (lin_eq m ((m + 2 + 1) / 2 - 1)); [lia|]. refine (lin_opp m _ (fun x0 => removelast (cumsum (evens (X3 x0)))) _).
    apply (lin_comp m ((m + 2 + 1) / 2) _ (fun x0 => cumsum (evens (X3 x0))) (@removelast C)); [|apply lin_removelast].
    apply (lin_comp m ((m + 2 + 1) / 2) _ (fun x0 => evens (X3 x0)) cumsum); [|apply lin_cumsum].
    apply (lin_comp m _ _ X3 evens LX3), lin_evens. }
  assert (lin m (m / 2) yo) as Lyo.
  { apply (lin_eq m ((m + 2) / 2 - 1)); [lia|].
    apply (lin_comp m ((m + 2) / 2 - 1) _ (fun x0 => removelast (cumsum (rev (odds (X3 x0))))) (@rev C)); [|apply lin_rev].
    apply (lin_comp m ((m + 2) / 2) _ (fun x0 => cumsum (rev (odds (X3 x0)))) (@removelast C)); [|apply lin_removelast].
    apply (lin_comp m ((m + 2) / 2) _ (fun x0 => rev (odds (X3 x0))) cumsum); [|apply lin_cumsum].
    apply (lin_comp m ((m + 2) / 2) _ (fun x0 => odds (X3 x0)) (@rev C)); [|apply lin_rev].
    apply (lin_comp m _ _ X3 odds LX3), lin_odds. }
  exists (fun x0 => map (fun z => Cmult z (Cmult (RtoC 2) Ci)) (weave (ye x0) (yo x0))). split.
  - apply (lin_ext m m _ (fun x0 => map (nmul (Cmult (RtoC 2) Ci)) (weave (ye x0) (yo x0)))).
    + intros f L. apply map_ext. intro. apply Cmult_comm.
    + apply lin_map. apply (lin_weave' m m ye yo ((m + 1) / 2) (m / 2)); auto; lia.
  - intros x L. unfold fourier_K_inv. unfold kguard in Hg. rewrite L. rewrite Hg. reflexivity.
Qed.
Lemma rlin_H0d_cheb k : (1 <= k)%nat -> rlin k k H0d_cheb.
Proof.
  intro Hk. apply (rlin_ext _ _ _ (fun f => bind (with_h (cplxv (mirror1 1 f)) (fun h => Ok ((fun h f => unmirror1 (Finv (fourier_K (fourier_S (F f) (- h / 2)) 0 h))) h (cplxv (mirror1 1 f))))) (fun f => Ok (realv f)))).
  - reflexivity.
  - apply (real_with_h k k (mirror1 1) (fun h f => unmirror1 (Finv (fourier_K (fourier_S (F f) (- h / 2)) 0 h))) (2 * k)); [lia|apply lin_mirror1|].
    apply (lin_comp _ (2 * k) _ (fun f => Finv (fourier_K (fourier_S (F f) (- hstep (2 * k) / 2)) 0 (hstep (2 * k)))) unmirror1); [|apply lin_unmirror1].
    apply (lin_comp _ (2 * k) _ (fun f => fourier_K (fourier_S (F f) (- hstep (2 * k) / 2)) 0 (hstep (2 * k))) Finv); [|apply lin_Finv].
    apply (lin_comp _ (2 * k) _ (fun f => fourier_S (F f) (- hstep (2 * k) / 2)) (fun f => fourier_K f 0 (hstep (2 * k)))); [|apply lin_fourier_K].
    apply (lin_comp _ (2 * k) _ F (fun f => fourier_S f (- hstep (2 * k) / 2))); [apply lin_F|apply lin_fourier_S; lia].
Qed.
Lemma lin_fold0 k s : lin (2 * k) (k + 1) (@fold0 C _ s).
Proof.
  apply (lin_ext (2 * k) (k + 1) _ (fun f => vadd (firstn k f ++ [RtoC 0]) (map (nmul s) ([RtoC 0] ++ firstn k (rev f))))).
  - intros f L. unfold fold0. rewrite L. replace (2 * k / 2)%nat with k by lia. reflexivity.
  - apply lin_vadd.
    + apply (lin_app _ k 1); [apply lin_firstn; lia|apply lin_zero1].
    + apply lin_map. apply (lin_eq _ (1 + k)); [lia|]. apply (lin_app _ 1 k); [apply lin_zero1|].
      apply (lin_comp _ (2 * k) _ (@rev C) (firstn k)); [apply lin_rev|apply lin_firstn; lia].
Qed.
Lemma rlin_H0_cheb n : (2 <= n)%nat -> rlin n n H0_cheb.
Proof.
  intro Hk. apply (rlin_ext _ _ _ (fun f => bind (with_h (cplxv (mirror0 1 f)) (fun h => Ok ((fun h f => fold0 (RtoC (-1)) (Finv (fourier_K (F f) 0 (h / 2)))) h (cplxv (mirror0 1 f))))) (fun f => Ok (realv f)))).
  - reflexivity.
  - apply (rlin_eq n (n - 1 + 1)); [auto|lia|].
    apply (real_with_h n (n - 1 + 1) (mirror0 1) (fun h f => fold0 (RtoC (-1)) (Finv (fourier_K (F f) 0 (h / 2)))) (2 * (n - 1))); [lia|apply lin_mirror0; lia|].
    apply (lin_comp _ (2 * (n - 1)) _ (fun f => Finv (fourier_K (F f) 0 (hstep (2 * (n - 1)) / 2))) (fold0 (RtoC (-1)))); [|apply lin_fold0].
    apply (lin_comp _ (2 * (n - 1)) _ (fun f => fourier_K (F f) 0 (hstep (2 * (n - 1)) / 2)) Finv); [|apply lin_Finv].
    apply (lin_comp _ (2 * (n - 1)) _ F (fun f => fourier_K f 0 (hstep (2 * (n - 1)) / 2))); [apply lin_F|apply lin_fourier_K].
Qed.
Lemma rlin_H1_cheb close k : (1 <= k)%nat -> kguard close (2 * k) 0 (hstep (2 * k)) = false -> rlin k k (H1_cheb close).
Proof.
  intros Hk Hg. destruct (lin_fourier_K_inv close (2 * k) 0 (hstep (2 * k)) Hg) as (g & G & Eg).
  exists (fun f => realv ((fun f => unmirror1 (Finv (fourier_S (g (F f)) (hstep (2 * k) / 2)))) (cplxv (mirror1 (-1) f)))). split.
  - apply (lin_comp k (2 * k) k (mirror1 (-1)) (fun f => realv ((fun f => unmirror1 (Finv (fourier_S (g (F f)) (hstep (2 * k) / 2)))) (cplxv f)))); [apply lin_mirror1|].
    refine (lin_real _ _ (fun f => unmirror1 (Finv (fourier_S (g (F f)) (hstep (2 * k) / 2)))) _). apply (lin_comp _ (2 * k) _ (fun f => Finv (fourier_S (g (F f)) (hstep (2 * k) / 2))) unmirror1); [|apply lin_unmirror1].
    apply (lin_comp _ (2 * k) _ (fun f => fourier_S (g (F f)) (hstep (2 * k) / 2)) Finv); [|apply lin_Finv].
    apply (lin_comp _ (2 * k) _ (fun f => g (F f)) (fun f => fourier_S f (hstep (2 * k) / 2))); [|apply lin_fourier_S; lia].
    apply (lin_comp _ (2 * k) _ F g); [apply lin_F|auto].
  - intros f L. unfold H1_cheb. assert (length (cplxv (mirror1 (-1) f)) = (2 * k)%nat) as Lm by (rewrite length_cplxv, length_mirror1; lia).
    rewrite (with_h_ok _ _ (2 * k - 1)) by lia. rewrite Lm. rewrite Eg by (rewrite length_F; lia). reflexivity.
Qed.
Lemma lin_I_space m a b : (0 < m)%nat -> lin m m (I_space a b).
Proof. intro. apply (lin_ext m m _ (fun f => Finv (vmul (F f) (map (fun n => I_entry n a b) (freq m))))); [intros f L; unfold I_space, I_diag; now rewrite L|now apply lin_vmulF]. Qed.
Lemma lin_T_space m a : (0 < m)%nat -> lin m m (T_space a).
Proof. intro. apply (lin_ext m m _ (fun f => Finv (vmul (F f) (map (fun n => cis (IZR n * a)) (freq m))))); [intros f L; unfold T_space, S_diag; now rewrite L|now apply lin_vmulF]. Qed.
Lemma lin_I_space_inv m a b : (0 < m)%nat -> lin m m (I_space_inv a b).
Proof.
  intro. apply (lin_ext m m _ (fun f => Finv (vdiv (F f) (map (fun n => I_entry n a b) (freq m))))); [intros f L; unfold I_space_inv, I_diag; now rewrite L|].
  apply (lin_comp m m m (fun f => vdiv (F f) _) Finv); [|apply lin_Finv]. apply lin_vdiv_r; [rewrite map_length, length_freq; auto|apply lin_F].
Qed.
Lemma lin_matC m : (2 <= m)%nat -> lin m m (@matC C _).
Proof.
  intro. apply (lin_eq m (1 + (m - 2 + 1))); [lia|]. apply (lin_app m 1 (m - 2 + 1)); [apply lin_zero1|].
  apply (lin_app m (m - 2) 1); [apply lin_inner|apply lin_zero1].
Qed.
Lemma lin_matB m : (0 < m)%nat -> lin m m matB.
Proof.
  intro. apply (lin_ext m m _ (fun f => tab m (fun j => nmul (RtoC (nth j (half_edge_base m) 0)) (hd (RtoC 0) f)))).
  - intros f L. unfold matB. rewrite L. apply list_eq_nth with (d := RtoC 0); unfold half_edge_base; len; auto. intros i Hi. rewrite nth_map_ with (d' := 0) by (len; auto).
    now rewrite (nth_tab m (fun j => nmul _ _)) by auto.
  - apply lin_tab. intros j Hj. apply lf_scal. apply (lf_hd m m (fun f => f)), lin_id.
Qed.
Lemma lin_matB1 m : (0 < m)%nat -> lin m m matB1.
Proof.
  intro. apply (lin_ext m m _ (fun f => tab m (fun j => nmul (RtoC (nth j (rev (half_edge_base m)) 0)) (last f (RtoC 0))))).
  - intros f L. unfold matB1. rewrite L. apply list_eq_nth with (d := RtoC 0); unfold half_edge_base; len; auto. intros i Hi. rewrite nth_map_ with (d' := 0) by (len; auto).
    now rewrite (nth_tab m (fun j => nmul _ _)) by auto.
  - apply lin_tab. intros j Hj. apply lf_scal. apply (lf_last m m (fun f => f)), lin_id.
Qed.
Lemma rlin_H1d_cheb n : (2 <= n)%nat -> rlin n n H1d_cheb.
Proof.
  intro Hn. set (h := PI / INR (n - 1)).
  exists (fun f => realv ((fun f => vadd (H1d_cheb_midpoints h f) (H1d_cheb_endpoints h f)) (cplxv f))). split.
  2:{ intros f L. unfold H1d_cheb. destruct f as [|a [|b f]]; simpl in L; try lia. unfold h. rewrite <- L. reflexivity. }
  refine (lin_real _ _ (fun f => vadd (H1d_cheb_midpoints h f) (H1d_cheb_endpoints h f)) _). assert (lin n (2 * (n - 1)) (fun f => mirror0 (RtoC (-1)) (matC f))) as M.
  { apply (lin_comp n n _ (@matC C _) (mirror0 (RtoC (-1)))); [now apply lin_matC|apply lin_mirror0; lia]. }
  assert (lin n (2 * (n - 1)) (fun f => I_space_inv (- h / 2) (h / 2) (mirror0 (RtoC (-1)) (matC f)))) as MI.
  { apply (lin_comp n _ _ _ (I_space_inv (- h / 2) (h / 2)) M). apply lin_I_space_inv. lia. }
  assert (forall a b, lin n n (fun f => vsub f (unmirror0 (I_space a b (I_space_inv (- h / 2) (h / 2) (mirror0 (RtoC (-1)) (matC f))))))) as EP.
  { intros a b. apply lin_vsub; [apply lin_id|]. apply (lin_eq n (n - 1 + 1)); [lia|].
    apply (lin_comp n (2 * (n - 1)) _ (fun f => I_space a b (I_space_inv (- h / 2) (h / 2) (mirror0 (RtoC (-1)) (matC f)))) unmirror0); [|apply lin_unmirror0; lia].
    apply (lin_comp n _ _ _ (I_space a b) MI). apply lin_I_space. lia. }
  apply lin_vadd.
  - unfold H1d_cheb_midpoints. set (M2 := (2 * (n - 1))%nat) in *.
    assert (lin n M2 (fun f => T_space (h / 2) (I_space_inv (- h / 2) (h / 2) (mirror0 (RtoC (-1)) (matC f))))) as T.
    { apply (lin_comp n _ _ _ (T_space (h / 2)) MI). apply lin_T_space. unfold M2. lia. }
    apply (lin_ext n n _ (fun f => unmirror0 (T_space (- h / 2) (vdiv (T_space (h / 2) (I_space_inv (- h / 2) (h / 2) (mirror0 (RtoC (-1)) (matC f)))) (cplxv (Omega_d M2)))))).
    + intros f L. cbv zeta. now rewrite (lin_len n M2 _ f T L).
    + apply (lin_eq n (n - 1 + 1)); [lia|].
      apply (lin_comp n M2 _ (fun f => T_space (- h / 2) (vdiv (T_space (h / 2) (I_space_inv (- h / 2) (h / 2) (mirror0 (RtoC (-1)) (matC f)))) (cplxv (Omega_d M2)))) unmirror0); [|apply lin_unmirror0; lia].
      apply (lin_comp n M2 _ (fun f => vdiv (T_space (h / 2) (I_space_inv (- h / 2) (h / 2) (mirror0 (RtoC (-1)) (matC f)))) (cplxv (Omega_d M2))) (T_space (- h / 2))); [|apply lin_T_space; unfold M2; lia].
      apply lin_vdiv_r; auto. unfold Omega_d. now rewrite length_cplxv, length_tab.
  - unfold H1d_cheb_endpoints. apply lin_vadd.
    + apply (lin_comp n n n _ matB (EP 0 (h / 2))). apply lin_matB. lia.
    + apply (lin_comp n n n _ matB1 (EP (- h / 2) 0)). apply lin_matB1. lia.
Qed.
(** refinements of the Chebyshev grid *)
Section Cheb.
Variable close : C -> C -> bool.
Lemma rlin_T0_c n : (2 <= n)%nat -> rlin n (2 * n - 1) T0_cheb.
Proof. intro. apply (rlin_eq n (n + (n - 1))); [auto|lia|]. apply rlin_interweave_l; [lia|auto|]. now apply rlin_S_cheb. Qed.
Lemma rlin_T0d_c k : (1 <= k)%nat -> rlin k (2 * k + 1) T0d_cheb.
Proof. intro. apply (rlin_eq k (k + 1 + k)); [auto|lia|]. apply rlin_interweave_r; [lia|auto|]. now apply rlin_S_cheb_pinv. Qed.
Lemma rlin_T1_c k : (1 <= k)%nat -> kguard close (2 * k) 0 (hstep (2 * k)) = false -> rlin k (2 * k + 1) (T1_cheb close).
Proof. intros. apply (rlin_comp k k); [now apply rlin_H1_cheb|now apply rlin_T0d_c]. Qed.
Lemma rlin_T1d_c n : (2 <= n)%nat -> rlin n (2 * n - 1) T1d_cheb.
Proof. intros. apply (rlin_comp n n); [now apply rlin_H1d_cheb|now apply rlin_T0_c]. Qed.
Lemma rlin_U0_c n : (1 <= n)%nat -> rlin (2 * n - 1) n U0_cheb.
Proof. intro. apply rlin_ok. apply (lin_eq _ ((2 * n - 1 + 1) / 2)); [lia|apply lin_evens]. Qed.
Lemma rlin_U0d_c n : rlin (2 * n - 1) (n - 1) U0d_cheb.
Proof. apply rlin_ok. apply (lin_eq _ ((2 * n - 1) / 2)); [lia|apply lin_odds]. Qed.
Lemma rlin_SH_c n : (2 <= n)%nat -> rlin (2 * n - 1) (2 * n - 2) (fun f => bind (S_cheb f) H0d_cheb).
Proof.
  intro. apply (rlin_comp _ (2 * n - 2)); [|apply rlin_H0d_cheb; lia].
  apply (rlin_eq (2 * n - 1) (2 * n - 1 - 1)); [auto|lia|]. apply rlin_S_cheb. lia.
Qed.
Lemma rlin_U1_c n : (2 <= n)%nat -> rlin (2 * n - 1) (n - 1) U1_cheb.
Proof.
  intro. apply (rlin_comp _ (2 * n - 2) _ (fun f => bind (S_cheb f) H0d_cheb)); [now apply rlin_SH_c|].
  apply (rlin_eq (2 * (n - 1)) (n - 1)); [lia|auto|]. apply rlin_pair_sum.
Qed.
Lemma rlin_U1d_c n : (2 <= n)%nat -> rlin (2 * n - 1) n U1d_cheb.
Proof.
  intro. apply (rlin_comp _ (2 * n - 2) _ (fun f => bind (S_cheb f) H0d_cheb)); [now apply rlin_SH_c|].
  destruct (rlin_pair_sum (n - 2)) as (g & G & E).
  exists (fun f => [hd 0 f] ++ g (inner f) ++ [last f 0]). split.
  - apply (lin_eq _ (1 + (n - 2 + 1))); [lia|]. apply (lin_app _ 1 (n - 2 + 1) (fun f => [hd 0 f])).
    + apply lin_single. apply (lf_ext _ _ (fun f => nth 0 f nzero)); [intros; apply nth_hd|apply lf_nth].
    + apply (lin_app _ (n - 2) 1 (fun f => g (inner f)) (fun f => [last f 0])).
      * apply (lin_comp _ (2 * (n - 2)) _ inner g); auto. apply (lin_eq _ (2 * n - 2 - 2)); [lia|apply lin_inner].
      * apply lin_single. apply (lf_ext _ _ (fun f => nth (2 * n - 2 - 1) f nzero)); [intros f L; rewrite nth_last; now rewrite L|apply lf_nth].
  - intros f L. destruct f as [|x f]; [simpl in L; lia|]. rewrite E by (rewrite length_inner; lia). reflexivity.
Qed.
End Cheb.
(** regular *)
Lemma rlin_real_of m n o g : lin m n g -> (forall f, length f = m -> o f = Ok (g f)) -> rlin m n (real_of o).
Proof.
  intros G E. exists (fun f => realv (g (cplxv f))). split; [now apply lin_real|]. intros f L. unfold real_of. now rewrite E by (now rewrite length_cplxv).
Qed.
Lemma rlin_H0_r n : (2 <= n)%nat -> rlin n n (real_of H0_regular).
Proof.
  intro Hn. apply (rlin_real_of n n _ (fun f => vmul (unmirror0 (fm (Ops.dH (2 * (n - 1))) (mirror0 (RtoC 1) f))) (cplxv (tab n (Aw n))))).
  - apply lin_vmul_r; [now rewrite length_cplxv, length_tab|]. apply (lin_eq _ (n - 1 + 1)); [lia|].
    apply (lin_comp _ (2 * (n - 1)) _ (fun f => fm (Ops.dH (2 * (n - 1))) (mirror0 (RtoC 1) f)) unmirror0); [|apply lin_unmirror0; lia].
    apply (lin_comp _ (2 * (n - 1)) _ (mirror0 (RtoC 1)) (fm _)); [apply lin_mirror0; lia|apply lin_fm].
  - intros f L. rewrite H0_regular_val by lia. now rewrite L.
Qed.
Lemma rlin_H1d_r n : (2 <= n)%nat -> rlin n n (real_of H1d_regular).
Proof.
  intro Hn. apply (rlin_real_of n n _ (fun f => unmirror0 (fm (dHi (2 * (n - 1))) (mirror0 (RtoC 1) (vdiv f (cplxv (tab n (Aw n)))))))).
  - apply (lin_eq _ (n - 1 + 1)); [lia|].
    apply (lin_comp _ (2 * (n - 1)) _ (fun f => fm (dHi (2 * (n - 1))) (mirror0 (RtoC 1) (vdiv f (cplxv (tab n (Aw n)))))) unmirror0); [|apply lin_unmirror0; lia].
    apply (lin_comp _ (2 * (n - 1)) _ (fun f => mirror0 (RtoC 1) (vdiv f (cplxv (tab n (Aw n))))) (fm _)); [|apply lin_fm].
    apply (lin_comp _ n _ (fun f => vdiv f (cplxv (tab n (Aw n)))) (mirror0 (RtoC 1))); [|apply lin_mirror0; lia].
    apply lin_vdiv_r; [now rewrite length_cplxv, length_tab|apply lin_id].
  - intros f L. rewrite H1d_regular_val by lia. now rewrite L.
Qed.
Lemma rlin_H0d_r k : (1 <= k)%nat -> rlin k k (real_of H0d_regular).
Proof.
  intro Hk. apply (rlin_real_of k k _ (fun f => unmirror1 (fm (Ops.dH (2 * k)) (mirror1 (RtoC 1) f)))).
  - apply (lin_comp _ (2 * k) _ (fun f => fm (Ops.dH (2 * k)) (mirror1 (RtoC 1) f)) unmirror1); [|apply lin_unmirror1].
    apply (lin_comp _ (2 * k) _ (mirror1 (RtoC 1)) (fm _)); [apply lin_mirror1|apply lin_fm].
  - intros f L. rewrite H0d_regular_val by lia. now rewrite L.
Qed.
Lemma rlin_H1_r k : (1 <= k)%nat -> rlin k k (real_of H1_regular).
Proof.
  intro Hk. apply (rlin_real_of k k _ (fun f => unmirror1 (fm (dHi (2 * k)) (mirror1 (RtoC 1) f)))).
  - apply (lin_comp _ (2 * k) _ (fun f => fm (dHi (2 * k)) (mirror1 (RtoC 1) f)) unmirror1); [|apply lin_unmirror1].
    apply (lin_comp _ (2 * k) _ (mirror1 (RtoC 1)) (fm _)); [apply lin_mirror1|apply lin_fm].
  - intros f L. rewrite H1_regular_val by lia. now rewrite L.
Qed.
(** derivatives *)
Lemma lin_D0 k n : lin (grid_N k n 0 true) (grid_N k n 1 true) (@grid_D0 R _ k).
Proof.
  destruct k; cbn [grid_N grid_D0 sizes_periodic sizes_interval]; unfold D0_periodic, D0_interval; try apply lin_diff.
  apply lin_vsub; [apply lin_roll|apply lin_id].
Qed.
Lemma lin_D0d k n : (1 <= n)%nat -> lin (grid_N k n 0 false) (grid_N k n 1 false) (@grid_D0d R _ k).
Proof.
  intro Hn. assert (lin (n - 1) n (@D0d_interval R _)) as E.
  { unfold D0d_interval. apply (lin_eq _ (n - 1 + 2 - 1)); [lia|]. apply (lin_comp (n - 1) (n - 1 + 2) _ (fun f => [nzero] ++ f ++ [nzero]) diff); [|apply lin_diff].
    apply (lin_eq _ (1 + (n - 1 + 1))); [lia|]. apply (lin_app _ 1 (n - 1 + 1)); [exact (@lin_zeros R NumR LawsR _ 1)|]. apply (lin_app _ (n - 1) 1); [apply lin_id|exact (@lin_zeros R NumR LawsR _ 1)]. }
  destruct k; cbn [grid_N grid_D0d sizes_periodic sizes_interval]; auto.
  unfold D0d_periodic. apply (lin_comp n n n D0_periodic (roll 1)); [|apply lin_roll]. unfold D0_periodic. apply lin_vsub; [apply lin_roll|apply lin_id].
Qed.
(** all tables *)
Definition big_enough (k : kind1) (n : nat) : Prop := match k with Periodic => (1 <= n)%nat | _ => (2 <= n)%nat end.
Definition guarded (close : C -> C -> bool) (k : kind1) (n : nat) : Prop :=
  match k with Chebyshev => kguard close (2 * (n - 1)) 0 (hstep (2 * (n - 1))) = false | _ => True end.
Definition refined (k : kind1) (n : nat) : nat := match k with Periodic => (n + n)%nat | _ => (2 * n - 1)%nat end.
Lemma table_H_lin close k n d p : big_enough k n -> guarded close k n -> (d <= 1)%nat ->
  exists o, tget (Common.dH (dec_of close k)) (d, p) = Ok o /\ rlin (grid_N k n d p) (grid_N k n (1 - d) (negb p)) o.
Proof.
  intros Hn Hg Hd. destruct d as [|[|d]]; [| |lia]; destruct p, k; cbn in Hn, Hg; eexists; (split; [reflexivity|]); cbn [grid_N sizes_periodic sizes_interval Nat.sub negb].
  - now apply rlin_spec, lin_opH.
  - now apply rlin_H0_r.
  - now apply rlin_H0_cheb.
  - now apply rlin_spec, lin_opH.
  - apply rlin_H0d_r; lia.
  - apply rlin_H0d_cheb; lia.
  - now apply rlin_spec, lin_opHinv.
  - apply rlin_H1_r; lia.
  - apply rlin_H1_cheb; auto; lia.
  - now apply rlin_spec, lin_opHinv.
  - now apply rlin_H1d_r.
  - now apply rlin_H1d_cheb.
Qed.
Lemma table_T_lin close k n d p : big_enough k n -> guarded close k n -> (d <= 1)%nat -> k <> Regular ->
  exists o, tget (rT (refine_of close k)) (d, p) = Ok o /\ rlin (grid_N k n d p) (refined k n) o.
Proof.
  intros Hn Hg Hd Hk. destruct d as [|[|d]]; [| |lia]; destruct p, k; try congruence; cbn in Hn, Hg; eexists; (split; [reflexivity|]); cbn [grid_N sizes_periodic sizes_interval refined].
  - now apply rlin_T0_p.
  - now apply rlin_T0_c.
  - now apply rlin_T0d_p.
  - apply (rlin_eq (n - 1) (2 * (n - 1) + 1)); [auto|lia|]. apply rlin_T0d_c; lia.
  - now apply rlin_T1_p.
  - apply (rlin_eq (n - 1) (2 * (n - 1) + 1)); [auto|lia|]. apply rlin_T1_c; auto; lia.
  - now apply rlin_T1d_p.
  - now apply rlin_T1d_c.
Qed.
Lemma table_U_lin close k n d p : big_enough k n -> (d <= 1)%nat -> k <> Regular ->
  exists o, tget (rU (refine_of close k)) (d, p) = Ok o /\ rlin (refined k n) (grid_N k n d p) o.
Proof.
  intros Hn Hd Hk. destruct d as [|[|d]]; [| |lia]; destruct p, k; try congruence; cbn in Hn; eexists; (split; [reflexivity|]); cbn [grid_N sizes_periodic sizes_interval refined].
  - now apply rlin_U0_p.
  - apply rlin_U0_c; lia.
  - now apply rlin_U0d_p.
  - now apply rlin_U0d_c.
  - now apply rlin_U1_p.
  - now apply rlin_U1_c.
  - now apply rlin_U1d_p.
  - now apply rlin_U1d_c.
Qed.
