(** mirror0/1, unmirror0/1, extend/unextend. *)
From Coq Require Import ZArith Reals List Lia Lra Arith Ring.
From Coq Require Import ZifyNat.
From Coquelicot Require Import Complex.
From Verif Require Import Model.Num Model.Np Model.Spectral Spec.Trig Proofs.ListLemmas Proofs.Sums Proofs.Fourier Proofs.Kernels Proofs.Trig Proofs.RingSums.
Import ListNotations.
Ltac Zify.zify_post_hook ::= Z.div_mod_to_equations.

Lemma nth_app_ {A} (l l' : list A) i d : nth i (l ++ l') d = if Nat.ltb i (length l) then nth i l d else nth (i - length l) l' d.
Proof. destruct (Nat.ltb_spec i (length l)); [now apply app_nth1|now apply app_nth2]. Qed.

Section M.
Context {A : Type} `{NL : NumLaws A}.
Add Ring AringM : num_ring.
Notation "0" := nzero. Notation "1" := none.
Infix "+" := nadd. Infix "*" := nmul. Infix "-" := nsub. Notation "- x" := (nopp x).

Lemma length_mirror0 s (f : list A) : (1 <= length f)%nat -> length (mirror0 s f) = if Nat.eqb (length f) 1 then 1%nat else (2 * length f - 2)%nat.
Proof. intro L. unfold mirror0. len. destruct (Nat.eqb_spec (length f) 1); lia. Qed.
Lemma length_mirror0' s (f : list A) : (2 <= length f)%nat -> length (mirror0 s f) = (2 * (length f - 1))%nat.
Proof. intro L. rewrite length_mirror0 by lia. destruct (Nat.eqb_spec (length f) 1); lia. Qed.
Lemma length_mirror1 s (f : list A) : length (mirror1 s f) = (2 * length f)%nat.
Proof. unfold mirror1. len. lia. Qed.

Lemma nth_mirror0 s (f : list A) j d : (j < 2 * length f - 2)%nat ->
  nth j (mirror0 s f) d = if Nat.ltb j (length f) then nth j f d else s * nth (2 * length f - 2 - j) f d.
Proof.
  intro Hj. unfold mirror0. rewrite nth_app_. destruct (Nat.ltb_spec j (length f)); auto.
  rewrite nth_map_ with (d' := d) by (len; lia). f_equal. rewrite nth_inner by (len; lia).
  rewrite rev_nth by lia. f_equal. lia.
Qed.
Lemma nth_mirror1 s (f : list A) j d : (j < 2 * length f)%nat ->
  nth j (mirror1 s f) d = if Nat.ltb j (length f) then nth j f d else s * nth (2 * length f - 1 - j) f d.
Proof.
  intro Hj. unfold mirror1. rewrite nth_app_. destruct (Nat.ltb_spec j (length f)); auto.
  rewrite nth_map_ with (d' := d) by (len; lia). f_equal.
  rewrite rev_nth by lia. f_equal. lia.
Qed.
Lemma firstn_app_exact {B} (l l' : list B) n : n = length l -> firstn n (l ++ l') = l.
Proof. intros ->. rewrite firstn_app, firstn_all, Nat.sub_diag. simpl. apply app_nil_r. Qed.
Lemma unmirror0_mirror0 s (f : list A) : unmirror0 (mirror0 s f) = f.
Proof.
  destruct f as [|a f']; [reflexivity|]. set (f := a :: f'). assert (1 <= length f)%nat by (simpl; lia).
  unfold unmirror0. rewrite length_mirror0 by auto. unfold mirror0.
  apply firstn_app_exact. destruct (Nat.eqb_spec (length f) 1); lia.
Qed.
Lemma unmirror1_mirror1 s (f : list A) : unmirror1 (mirror1 s f) = f.
Proof. unfold unmirror1. rewrite length_mirror1. unfold mirror1. apply firstn_app_exact. lia. Qed.
Lemma mirror0_unmirror0 s (x : list A) k : length x = (2 * k)%nat -> (1 <= k)%nat ->
  (forall j, (k < j < 2 * k)%nat -> nth j x 0 = s * nth (2 * k - j) x 0) -> mirror0 s (unmirror0 x) = x.
Proof.
  intros L K E. assert (length (unmirror0 x) = (k + 1)%nat) as Lu by (unfold unmirror0; len; lia).
  apply list_eq_nth with (d := 0).
  - rewrite length_mirror0' by lia. lia.
  - rewrite length_mirror0' by lia. intros j Hj. rewrite nth_mirror0 by lia. rewrite Lu.
    unfold unmirror0. rewrite L. replace (2 * k / 2 + 1)%nat with (k + 1)%nat by lia.
    destruct (Nat.ltb_spec j (k + 1)).
    + now rewrite nth_firstn_ by lia.
    + rewrite nth_firstn_ by lia. rewrite (E j) by lia. f_equal. f_equal. lia.
Qed.
Lemma mirror1_unmirror1 s (x : list A) k : length x = (2 * k)%nat ->
  (forall j, (k <= j < 2 * k)%nat -> nth j x 0 = s * nth (2 * k - 1 - j) x 0) -> mirror1 s (unmirror1 x) = x.
Proof.
  intros L E. assert (length (unmirror1 x) = k) as Lu by (unfold unmirror1; len; lia).
  apply list_eq_nth with (d := 0).
  - rewrite length_mirror1. lia.
  - rewrite length_mirror1. intros j Hj. rewrite nth_mirror1 by lia. rewrite Lu.
    unfold unmirror1. rewrite L. replace (2 * k / 2)%nat with k by lia.
    destruct (Nat.ltb_spec j k).
    + now rewrite nth_firstn_ by lia.
    + rewrite nth_firstn_ by lia. now rewrite (E j) by lia.
Qed.

(** _extend / _unextend *)
Lemma length__extend (f : list A) n : length (_extend f n) = (length f + 2 * n)%nat.
Proof. unfold _extend, zeros. len. lia. Qed.
Lemma nth__extend (f : list A) n i : nth i (_extend f n) 0 = if (Nat.leb n i && Nat.ltb i (n + length f))%bool then nth (i - n) f 0 else 0.
Proof.
  unfold _extend, zeros. rewrite nth_app_. len.
  destruct (Nat.ltb_spec i n).
  - rewrite nth_repeat. destruct (Nat.leb_spec n i); [lia|reflexivity].
  - rewrite nth_app_. destruct (Nat.leb_spec n i); [|lia]. simpl.
    destruct (Nat.ltb_spec (i - n) (length f)), (Nat.ltb_spec i (n + length f)); try lia; auto. now rewrite nth_repeat.
Qed.
(** the value of _unextend *)
Lemma _unextend_ok (f : list A) n : (1 <= n)%nat -> (3 * n <= length f)%nat ->
  exists u, _unextend f n = Ok u /\ length u = (length f - 2 * n)%nat /\
  forall i, (i < length f - 2 * n)%nat -> nth i u 0 =
     nth (i + n) f 0 + (if Nat.ltb i n then nth (i + (length f - n)) f 0 else 0)
                     + (if Nat.leb (length f - 3 * n) i then nth (i - (length f - 3 * n)) f 0 else 0).
Proof.
  intros Hn L. unfold _unextend. destruct (Nat.leb_spec (2 * n) (length f)); [|lia]. cbn [negb].
  destruct n as [|n0]; [lia|]. set (n := S n0) in *. 
  change (slice_n_mn f n) with (skipn n (firstn (length f - n) f)).
  change (slice_last f n) with (skipn (length f - n) f).
  set (x := skipn n (firstn (length f - n) f)).
  assert (length x = (length f - 2 * n)%nat) as Lx by (unfold x; len; lia).
  assert (forall i, (i < length f - 2 * n)%nat -> nth i x 0 = nth (i + n) f 0) as Nx.
  { intros i Hi. unfold x. rewrite nth_skipn_, nth_firstn_ by lia. f_equal. lia. }
  unfold iadd_seg at 1. len. rewrite Lx. destruct (Nat.eqb_spec (Init.Nat.min n (length f - 2 * n)) (length f - (length f - n))); [|lia].
  cbn [bind]. set (s := vadd (firstn n x) (skipn (length f - n) f)).
  assert (length s = n) as Ls by (unfold s, vadd; len; lia).
  assert (forall i, (i < n)%nat -> nth i s 0 = nth (i + n) f 0 + nth (i + (length f - n)) f 0) as Ns.
  { intros i Hi. unfold s, vadd. rewrite nth_zipw with (dx := 0) (dy := 0) by (len; lia).
    rewrite nth_firstn_, nth_skipn_ by lia. rewrite Nx by lia. do 2 f_equal. lia. }
  set (y := s ++ skipn n x).
  assert (length y = (length f - 2 * n)%nat) as Ly by (unfold y; len; lia).
  assert (forall i, (i < length f - 2 * n)%nat -> nth i y 0 = nth (i + n) f 0 + (if Nat.ltb i n then nth (i + (length f - n)) f 0 else 0)) as Ny.
  { intros i Hi. unfold y. rewrite nth_app_. rewrite Ls. destruct (Nat.ltb_spec i n).
    - now apply Ns.
    - rewrite nth_skipn_. replace (n + (i - n))%nat with i by lia. rewrite Nx by lia. ring. }
  change (match n with O => O | S _ => (length y - n)%nat end) with (length y - n)%nat. rewrite Ly.
  set (k := (length f - 3 * n)%nat). replace (length f - 2 * n - n)%nat with k by (unfold k; lia).
  unfold iadd_seg. rewrite skipn_length, firstn_length, Ly.
  destruct (Nat.eqb_spec (length f - 2 * n - k) (Init.Nat.min n (length f))); [|unfold k in *; lia].
  cbn [bind]. eexists. split; [reflexivity|]. split.
  - unfold vadd. len. rewrite Ly. unfold k. lia.
  - intros i Hi. rewrite nth_app_. len. rewrite Ly. replace (Init.Nat.min k (length f - 2 * n)) with k by (unfold k; lia).
    destruct (Nat.ltb_spec i k).
    + rewrite nth_firstn_ by lia. rewrite Ny by lia. destruct (Nat.leb_spec k i); [lia|]. ring.
    + unfold vadd. rewrite nth_zipw with (dx := 0) (dy := 0) by (len; unfold k in *; lia).
      rewrite nth_skipn_. replace (k + (i - k))%nat with i by lia. rewrite Ny by lia.
      destruct (Nat.leb_spec k i); [|lia]. rewrite nth_firstn_ by (unfold k in *; lia). reflexivity.
Qed.
Lemma _unextend_extend (f : list A) n : (1 <= n <= length f)%nat -> _unextend (_extend f n) n = Ok f.
Proof.
  intro Hn. destruct (_unextend_ok (_extend f n) n) as (u & -> & Lu & Nu); [lia|rewrite length__extend; lia|].
  f_equal. rewrite length__extend in *. apply list_eq_nth with (d := 0); [lia|]. rewrite Lu. intros i Hi.
  rewrite Nu by lia. rewrite !nth__extend.
  replace (i + n - n)%nat with i by lia.
  destruct (Nat.leb_spec n (i + n)); [|lia]. destruct (Nat.ltb_spec (i + n) (n + length f)); [|lia]. simpl andb. cbv iota.
  repeat match goal with
    | |- context [Nat.ltb ?a ?b] => destruct (Nat.ltb_spec a b)
    | |- context [Nat.leb ?a ?b] => destruct (Nat.leb_spec a b) end; cbn [andb]; try lia; ring.
Qed.
End M.

Local Open Scope R_scope.
Lemma unextend_extend (f : list C) n : (1 <= n <= length f)%nat -> unextend (extend f n) n = Ok f.
Proof.
  intro Hn. assert (INR (length f) <> 0) by (apply INR_neq0; lia).
  assert (INR (length f) + 2 * INR n <> 0).
  { pose proof (pos_INR n). pose proof (lt_0_INR (length f) ltac:(lia)). lra. }
  unfold unextend, extend. set (c := (INR (length f) + 2 * INR n) / INR (length f)).
  destruct (_unextend_ok (map (Cmult (RtoC c)) (_extend f n)) n) as (u & -> & Lu & Nu); [lia|len; rewrite length__extend; lia|].
  cbn [bind]. f_equal. pose proof (_unextend_extend f n Hn) as E.
  destruct (_unextend_ok (_extend f n) n) as (u' & E' & Lu' & Nu'); [lia|len; rewrite length__extend; lia|].
  rewrite E in E'. injection E' as <-. rewrite map_length in *.
  rewrite length__extend in *. apply list_eq_nth with (d := RtoC 0); rewrite map_length; [lia|]. intros i Hi.
  rewrite nth_map_ with (d' := RtoC 0) by lia. rewrite Nu by lia.
  assert (forall k, nth k (map (Cmult (RtoC c)) (_extend f n)) (RtoC 0) = Cmult (RtoC c) (nth k (_extend f n) (RtoC 0))) as Em.
  { intro k. destruct (Nat.ltb_spec k (length (_extend f n))).
    - now rewrite nth_map_ with (d' := RtoC 0) by lia.
    - rewrite !nth_overflow by (len; lia). ring. }
  change (@nzero C NumC) with (RtoC 0) in *.
  rewrite Nu' by lia. rewrite !Em.
  replace (INR (length f + 2 * n)) with (INR (length f) + 2 * INR n) by (rewrite plus_INR, mult_INR; simpl; ring).
  replace (INR (length f) + 2 * INR n - 2 * INR n) with (INR (length f)) by ring.
  assert (Cmult (RtoC (INR (length f) / (INR (length f) + 2 * INR n))) (RtoC c) = RtoC 1) as Ec.
  { rewrite <- RtoC_mult. f_equal. unfold c. field. auto. }
  unfold nadd, NumC.
  assert (forall a b d : C, Cmult (RtoC (INR (length f) / (INR (length f) + 2 * INR n))) (Cplus (Cplus (Cmult (RtoC c) a) b) d) =
     Cplus (Cplus a (Cmult (RtoC (INR (length f) / (INR (length f) + 2 * INR n))) b)) (Cmult (RtoC (INR (length f) / (INR (length f) + 2 * INR n))) d)) as Ed.
  { intros. rewrite !Cmult_plus_distr_l, Cmult_assoc, Ec. ring. }
  rewrite Ed. f_equal; [f_equal|].
  - destruct (Nat.ltb i n); [rewrite Cmult_assoc, Ec; ring|ring].
  - destruct (Nat.leb _ i); [rewrite Cmult_assoc, Ec; ring|ring].
Qed.
Lemma unextend_0 (f : list C) : (2 <= length f)%nat -> unextend f 0 = Err ValueError.
Proof.
  intro L. unfold unextend, _unextend. cbn [Nat.leb negb Nat.mul slice_n_mn slice_last firstn skipn].
  unfold iadd_seg. destruct f as [|a [|b f]]; simpl in L; try lia. reflexivity.
Qed.

(** E_space resamples the trigonometric interpolant *)
Definition tpC (x : list C) (t : R) : C :=
  Cmult (RtoC (/ INR (length x))) (Csum (length x) (fun i => Cmult (nth i (F x) (RtoC 0)) (cis (IZR (fz (length x) i) * t)))).
Lemma tpC_interp x : ctrig_interpolant (length x) (tpC x).
Proof.
  exists (fun i => Cmult (RtoC (/ INR (length x))) (nth i (F x) (RtoC 0))). intro t. unfold tpC. rewrite <- Csum_scal.
  apply Csum_ext. intros. rewrite Cmult_assoc. reflexivity.
Qed.
Lemma tpC_samples x : csamples x (tpC x).
Proof.
  intros j Hj. rewrite <- (Finv_F x) at 1. rewrite nth_Finv by (now rewrite length_F). rewrite length_F. unfold tpC.
  rewrite xg_eq by lia. reflexivity.
Qed.
Lemma ctrig_coeffs x q : (0 < length x)%nat -> ctrig_interpolant (length x) q -> csamples x q -> forall t, q t = tpC x t.
Proof.
  intros L (c & Hc) Hs t. set (N := length x) in *. assert (INR N <> 0) by (now apply INR_neq0).
  assert (RtoC (INR N) <> RtoC 0) as HN by (intro E; apply RtoC_inj in E; auto).
  assert (x = Finv (tab N (fun i => Cmult (RtoC (INR N)) (c i)))) as Ex.
  { apply list_eq_nth with (d := RtoC 0); [rewrite length_Finv, length_tab; reflexivity|]. intros j Hj. fold N in Hj.
    rewrite nth_Finv by (now rewrite length_tab). rewrite length_tab. rewrite (Hs j Hj), Hc. fold N. rewrite <- Csum_scal.
    apply Csum_ext. intros i Hi. rewrite nth_tab by auto. rewrite xg_eq by auto. unfold cis. fold (fz N i).
    rewrite !Cmult_assoc, <- RtoC_mult, Rinv_l, Cmult_1_l by auto. reflexivity. }
  unfold tpC. fold N. rewrite Hc, <- Csum_scal. apply Csum_ext. intros i Hi. rewrite Ex, F_Finv, nth_tab by auto.
  rewrite !Cmult_assoc, <- RtoC_mult, Rinv_l, Cmult_1_l by auto. reflexivity.
Qed.
Lemma length_extend f n : length (extend f n) = (length f + 2 * n)%nat.
Proof. unfold extend. rewrite map_length. apply length__extend. Qed.
Lemma length_E_space n f : length (E_space n f) = (length f + 2 * n)%nat.
Proof. unfold E_space. now rewrite length_Finv, length_extend, length_F. Qed.
Lemma nth_E_space n f j : (0 < length f)%nat -> (j < length f + 2 * n)%nat ->
  nth j (E_space n f) (RtoC 0) = tpC f (xg (length f + 2 * n) j).
Proof.
  intros L Hj. unfold E_space. rewrite nth_Finv by (now rewrite length_extend, length_F). rewrite length_extend, length_F.
  set (N := length f) in *. set (M := (N + 2 * n)%nat). assert (INR N <> 0) by (apply INR_neq0; lia). assert (INR M <> 0) by (apply INR_neq0; unfold M; lia).
  unfold tpC. fold N. rewrite <- !Csum_scal.
  rewrite (Csum_ext M _ (fun i => if (Nat.leb n i && Nat.ltb i (n + N))%bool then 
     Cmult (RtoC (/ INR N)) (Cmult (nth (i - n) (F f) (RtoC 0)) (cis (IZR (fz N (i - n)) * xg M j))) else RtoC 0)).
  2:{ intros i Hi. unfold extend. rewrite length_F. rewrite nth_map_ with (d' := RtoC 0) by (rewrite length__extend, length_F; fold N; unfold M in *; lia).
      pose proof (nth__extend (F f) n i) as Ee. change (@nzero C NumC) with (RtoC 0) in Ee. rewrite Ee. rewrite length_F. fold N.
      destruct (Nat.leb n i && Nat.ltb i (n + N))%bool eqn:E; [|change (@nzero C NumC) with (RtoC 0); ring].
      apply andb_prop in E. destruct E as [E1 E2]. apply Nat.leb_le in E1. apply Nat.ltb_lt in E2.
      replace (fz M i) with (fz N (i - n)) by (unfold fz, M; lia).
      change (@nzero C NumC) with (RtoC 0).
      rewrite !Cmult_assoc, <- RtoC_mult. do 3 f_equal. unfold M. rewrite plus_INR, mult_INR. simpl. field. 
      unfold M in *. rewrite plus_INR, mult_INR in *. simpl in *. split; auto; lra. }
  replace M with (n + (N + n))%nat at 1 by (unfold M; lia). rewrite !Csum_split.
  rewrite Csum_zero_ext.
  2:{ intros i Hi. destruct (Nat.leb_spec n i); [lia|reflexivity]. }
  rewrite (Csum_zero_ext n).
  2:{ intros i Hi. destruct (Nat.ltb_spec (n + (N + i)) (n + N)); [lia|]. now rewrite Bool.andb_false_r. }
  rewrite Cplus_0_l, Cplus_0_r. apply Csum_ext. intros i Hi.
  destruct (Nat.leb_spec n (n + i)); [|lia]. destruct (Nat.ltb_spec (n + i) (n + N)); [|lia]. simpl.
  now replace (n + i - n)%nat with i by lia.
Qed.
Lemma Csum_if_lt n m f : (n <= m)%nat -> Csum m (fun i => if Nat.ltb i n then f i else RtoC 0) = Csum n f.
Proof.
  intro L. replace m with (n + (m - n))%nat by lia. rewrite Csum_split. rewrite (Csum_zero_ext (m - n)).
  2:{ intros i Hi. destruct (Nat.ltb_spec (n + i) n); [lia|reflexivity]. }
  rewrite Cplus_0_r. apply Csum_ext. intros i Hi. destruct (Nat.ltb_spec i n); [reflexivity|lia].
Qed.
Lemma Csum_if_ge k m f : (k <= m)%nat -> Csum m (fun i => if Nat.leb k i then f i else RtoC 0) = Csum (m - k) (fun i => f (k + i)%nat).
Proof.
  intro L. replace m with (k + (m - k))%nat at 1 by lia. rewrite Csum_split. rewrite Csum_zero_ext.
  2:{ intros i Hi. destruct (Nat.leb_spec k i); [lia|reflexivity]. }
  rewrite Cplus_0_l. apply Csum_ext. intros i Hi. destruct (Nat.leb_spec k (k + i)); [reflexivity|lia].
Qed.
Lemma cis_alias M n j : (0 < M)%nat -> cis (IZR (n + Z.of_nat M) * xg M j) = cis (IZR n * xg M j).
Proof.
  intro HM. assert (INR M <> 0) by (apply INR_neq0; lia).
  rewrite <- (cis_period_Z (IZR n * xg M j) (Z.of_nat j)). f_equal. unfold xg, hstep. rewrite plus_IZR, <- !INR_IZR_INZ. field. auto.
Qed.
Lemma E_space_inv_ok n f : (1 <= n)%nat -> (3 * n <= length f)%nat ->
  exists u, E_space_inv n f = Ok u /\ length u = (length f - 2 * n)%nat /\
  forall j, (j < length f - 2 * n)%nat -> nth j u (RtoC 0) = tpC f (xg (length f - 2 * n) j).
Proof.
  intros Hn L. unfold E_space_inv, unextend.
  destruct (_unextend_ok (F f) n) as (u & -> & Lu & Nu); [lia|rewrite length_F; lia|]. cbn [bind].
  rewrite length_F in *. eexists. split; [reflexivity|]. rewrite length_Finv, map_length. split; [exact Lu|].
  intros j Hj. rewrite nth_Finv by (now rewrite map_length, Lu). rewrite map_length, Lu.
  set (N := length f) in *. set (M := (N - 2 * n)%nat) in *.
  assert (INR N <> 0) by (apply INR_neq0; lia). assert (INR M <> 0) by (apply INR_neq0; unfold M; lia).
  unfold tpC. fold N. set (e := fun i => Cmult (nth i (F f) (RtoC 0)) (cis (IZR (fz N i) * xg M j))).
  rewrite (Csum_ext M _ (fun i => Cmult (RtoC (INR M / INR N)) 
     (Cplus (Cplus (e (i + n)%nat) (if Nat.ltb i n then e (i + (N - n))%nat else RtoC 0)) 
            (if Nat.leb (N - 3 * n) i then e (i - (N - 3 * n))%nat else RtoC 0)))).
  2:{ intros i Hi. rewrite nth_map_ with (d' := RtoC 0) by lia. pose proof (Nu i Hi) as Ee. change (@nzero C NumC) with (RtoC 0) in Ee. rewrite Ee.
      replace (INR N - 2 * INR n) with (INR M) by (unfold M; rewrite minus_INR, mult_INR by lia; simpl; ring).
      rewrite <- Cmult_assoc. f_equal. unfold e. change (@nzero C NumC) with (RtoC 0). unfold nadd, NumC.
      assert (fz N (i + n) = fz M i) as -> by (unfold fz, M; lia).
      assert (Nat.ltb i n = true -> cis (IZR (fz N (i + (N - n))) * xg M j) = cis (IZR (fz M i) * xg M j)) as E1.
      { intro T. replace (fz N (i + (N - n))) with (fz M i + Z.of_nat M)%Z by (unfold fz, M; lia). apply cis_alias. unfold M; lia. }
      assert (Nat.leb (N - 3 * n) i = true -> cis (IZR (fz N (i - (N - 3 * n))) * xg M j) = cis (IZR (fz M i) * xg M j)) as E2.
      { intro T. apply Nat.leb_le in T. rewrite <- (cis_alias M (fz N (i - (N - 3 * n))) j) by (unfold M; lia).
        f_equal. f_equal. f_equal. unfold fz, M in *. lia. }
      destruct (Nat.ltb i n); [rewrite E1 by auto|]; (destruct (Nat.leb (N - 3 * n) i); [rewrite E2 by auto|]); ring. }
  rewrite Csum_scal, Cmult_assoc, <- RtoC_mult. replace (/ INR M * (INR M / INR N)) with (/ INR N) by (field; auto). f_equal.
  rewrite !Csum_plus. rewrite (Csum_if_lt n M (fun i => e (i + (N - n))%nat)) by (unfold M; lia).
  rewrite (Csum_if_ge (N - 3 * n) M (fun i => e (i - (N - 3 * n))%nat)) by (unfold M; lia).
  replace (M - (N - 3 * n))%nat with n by (unfold M; lia).
  match goal with |- _ = ?r => change r with (Csum N e) end.
  assert (Csum N e = Csum (n + (M + n)) e) as -> by (f_equal; unfold M; lia).
  rewrite !Csum_split.
  rewrite (Csum_ext n (fun i => e (N - 3 * n + i - (N - 3 * n))%nat) e) by (intros i Hi; f_equal; lia).
  rewrite (Csum_ext M (fun i => e (i + n)%nat) (fun i => e (n + i)%nat)) by (intros i Hi; f_equal; lia).
  rewrite (Csum_ext n (fun i => e (i + (N - n))%nat) (fun i => e (n + (M + i))%nat)) by (intros i Hi; f_equal; unfold M; lia). ring.
Qed.
