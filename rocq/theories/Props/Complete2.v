(** C83: on a product grid every discrete form is the discretisation of exactly one form the grid resolves, the reconstruction
    is this form, and the discrete operators are the continuous operators on the reconstructions. *)
From Coq Require Import ZArith Reals List Lia Lra Arith Bool.
From Coq Require Import ZifyNat FunctionalExtensionality.
From Verif Require Import Model.Sym.
From Coquelicot Require Import Coquelicot.
From Verif Require Import Model.Num Model.Np Model.Spectral Model.Basis Model.Grids1 Model.Regular Model.Chebyshev Model.Common Model.Decform Model.Grid2 Spec.Trig Spec.Poly Spec.Plane Spec.Resolved Spec.Separable
  Proofs.ListLemmas Proofs.Sums Proofs.Fourier Proofs.RIntLemmas Proofs.Trig Proofs.BasisP Proofs.Grids1P Proofs.GridsThm Proofs.PeriodicBasis Proofs.TrigAlg Proofs.Lin Proofs.TableLin Proofs.ChebPoly Proofs.Refine Proofs.Arr2 Proofs.Grid2P Proofs.Grid2Ops Proofs.Stokes2.
From Verif Require Import Props.Shape Props.Decform Props.Refinement Props.Basis2 Proofs.Exact1 Props.Exact1 Props.Refine2 Proofs.Wedge2 Props.Stokes2 Proofs.Exact2 Props.Exact2 Props.Complete1.
Import ListNotations.
Local Open Scope R_scope.
Ltac Zify.zify_post_hook ::= Z.div_mod_to_equations.

(** *** the reconstruction in 1D, as a sum over the basis functions *)
Lemma resolved_zero k n d p : resolved k n d p (fun _ => 0) \/ grid_N k n d p = 0%nat.
Proof.
  destruct (grid_N k n d p) eqn:E; auto. left. destruct k; cbn [resolved]; rewrite E.
  - exists 0%nat. split; [lia|]. apply td_const. - apply cosp_const. - apply poly_const.
Qed.
Lemma basis_sum close g c d p x : default_extent g -> works close (kd g) (sz g) -> cells_of g = Ok c -> (d <= 1)%nat -> inside (kd g) d x ->
  exists b, (forall i, (i < Nd g d p)%nat -> basis_of (kd g) (sz g) d p i x = Some (b i)) /\
    forall u, resolved (kd g) (sz g) d p u -> Rsum (Nd g d p) (fun i => nth i (proj c d p u) 0 * b i) = u x.
Proof.
  intros He Hw E Hd Hx. set (m := Nd g d p).
  assert (forall u, resolved (kd g) (sz g) d p u -> R_form (basis_of (kd g) (sz g)) (grid_N (kd g) (sz g)) d p (proj c d p u) x = Some (u x)) as H.
  { intros u Hu. pose proof (default_cells g c He E) as Hc. destruct g as [k n l h]. cbn [kd sz] in *. destruct k; cbn [basis_of inside grid_N works resolved] in *.
    + subst c. now apply per_R.
    + now apply reg_R.
    + apply cheb_R; tauto. }
  set (B := basis_of (kd g) (sz g) d p) in *.
  assert (forall a, R_form (basis_of (kd g) (sz g)) (grid_N (kd g) (sz g)) d p a x = osum m (fun i => omap (Rmult (nth i a 0)) (B i x))) as RF.
  { intro a. unfold R_form, recon, basis_fn. rewrite map_length, seq_length. unfold osum. fold (Nd g d p). fold m.
    assert (forall s l acc, (forall i, In i l -> (s <= i < m)%nat) -> fold_left (fun acc i => omap2 Rplus acc (omap (Rmult (nth i a 0)) (nth i (map B (seq 0 m)) (fun _ => None) x))) l acc = fold_left (fun acc i => omap2 Rplus acc (omap (Rmult (nth i a 0)) (B i x))) l acc) as F.
    { intros s l. induction l as [|i l IH]; intros acc Hi; cbn [fold_left]; auto. rewrite IH by (intros; apply Hi; now right). f_equal. f_equal. f_equal.
      rewrite (nth_indep _ _ (B 0%nat)) by (rewrite map_length, seq_length; apply Hi; now left). rewrite map_nth, seq_nth by (apply Hi; now left). reflexivity. }
    apply (F 0%nat). intros i Hi. apply in_seq in Hi. lia. }
  assert (forall i, (i < m)%nat -> B i x <> None) as Hb.
  { destruct (resolved_zero (kd g) (sz g) d p) as [Z|Z]; [|unfold m, Nd; rewrite Z; intros; lia]. pose proof (H _ Z) as Hy. rewrite RF in Hy. revert Hy. set (b := fun i => omap _ _). intro Hy.
    assert (forall j acc, fold_left (fun acc i => omap2 Rplus acc (b i)) j acc <> None -> acc <> None /\ forall i, In i j -> b i <> None) as F.
    { induction j as [|i j IH]; intros acc K; cbn in *; [split; auto; intros _ []|]. apply IH in K. destruct K as [K K']. destruct acc as [u|]; cbn in K; [|congruence]. split; [discriminate|]. intros i' [<-|Hi]; auto. destruct (b i); [discriminate|congruence]. }
    intros i Hi. unfold osum in Hy. destruct (F (seq 0 m) (Some 0)) as [_ G]; [rewrite Hy; discriminate|]. specialize (G i ltac:(apply in_seq; lia)). unfold b in G. destruct (B i x); [discriminate|]. now cbn in G. }
  exists (fun i => match B i x with Some y => y | None => 0 end). split.
  - intros i Hi. specialize (Hb i Hi). destruct (B i x); congruence.
  - intros u Hu. pose proof (H u Hu) as Hy. rewrite RF in Hy. erewrite osum_some in Hy; [injection Hy as Hy; exact Hy|]. intros i Hi. cbn beta. specialize (Hb i Hi). destruct (B i x); [reflexivity|congruence].
Qed.

(** *** sums over flattened arrays *)
Lemma Rsum_add m n (f : nat -> R) : Rsum (m + n) f = Rsum m f + Rsum n (fun i => f (m + i)%nat).
Proof. induction n as [|n IH]; [rewrite Nat.add_0_r; cbn; ring|]. rewrite Nat.add_succ_r. cbn [Rsum]. rewrite IH. ring. Qed.
Lemma Rsum_flat r c (F : nat -> nat -> R) : (0 < c)%nat -> Rsum (r * c) (fun k => F (k / c)%nat (k mod c)%nat) = Rsum r (fun i => Rsum c (fun j => F i j)).
Proof.
  intro Hc. induction r as [|r IH]; [reflexivity|]. replace (S r * c)%nat with (r * c + c)%nat by lia. rewrite Rsum_add. cbn [Rsum]. rewrite <- IH. f_equal. apply Rsum_ext. intros j Hj. now rewrite div_add, mod_add.
Qed.
Lemma sum_tn l (A B : (R -> R) -> list R) r c (bx by_ : nat -> R) x y : (forall u v, In (u, v) l -> Rsum c (fun j => nth j (A u) 0 * bx j) = u x /\ Rsum r (fun i => nth i (B v) 0 * by_ i) = v y) ->
  Rsum r (fun i => Rsum c (fun j => tn l A B i j * (bx j * by_ i))) = sum_uv l x y.
Proof.
  induction l as [|[u v] l IH]; intro H; cbn [tn sum_uv].
  - rewrite (Rsum_ext r _ (fun _ => 0)). { clear. induction r; cbn; lra. } intros i _. rewrite (Rsum_ext c _ (fun _ => 0)) by (intros; ring). clear. induction c; cbn; lra.
  - rewrite <- IH by (intros; apply H; now right). destruct (H u v) as [<- <-]; [now left|]. 
    assert (forall n (f g : nat -> R), Rsum n f + Rsum n g = Rsum n (fun i => f i + g i)) as PL by (intros n f g; induction n as [|n I]; cbn; lra).
    assert (forall n (f : nat -> R) k, k * Rsum n f = Rsum n (fun i => k * f i)) as SC by (intros n f k; induction n as [|n I]; cbn; lra).
    rewrite SC, PL. apply Rsum_ext. intros i _. rewrite (Rmult_comm (Rsum c _)), SC, PL. apply Rsum_ext. intros j _. ring.
Qed.
Lemma vsum_pair n (g h : nat -> R) : (0 < n)%nat -> vsum (map (fun i => [g i; h i]) (seq 0 n)) = [Rsum n g; Rsum n h].
Proof.
  destruct n as [|n]; [lia|]. intros _. cbn [seq map vsum].
  assert (forall m s x y, fold_left (zipw Rplus) (map (fun i => [g i; h i]) (seq s m)) [x; y] = [x + Rsum m (fun i => g (s + i)%nat); y + Rsum m (fun i => h (s + i)%nat)]) as F.
  { induction m as [|m IH]; intros s x y; cbn [seq map fold_left]; [cbn; f_equal; [ring|f_equal; ring]|]. cbn [zipw]. rewrite IH.
    rewrite (Rsum_S_l m (fun i => g (s + i)%nat)), (Rsum_S_l m (fun i => h (s + i)%nat)). rewrite Nat.add_0_r, !Rplus_assoc. f_equal; [|f_equal]; do 2 f_equal; apply Rsum_ext; intros i _; f_equal; lia. }
  rewrite F, (Rsum_S_l n g), (Rsum_S_l n h). reflexivity.
Qed.
Lemma all_some_gen {A} n (f : nat -> option A) h : (forall i, (i < n)%nat -> f i = Some (h i)) -> all_some (map f (seq 0 n)) = Some (map h (seq 0 n)).
Proof.
  assert (forall m s, (forall i, (s <= i < s + m)%nat -> f i = Some (h i)) -> all_some (map f (seq s m)) = Some (map h (seq s m))) as K.
  { induction m as [|m IH]; intros s H; cbn; auto. rewrite H by lia. rewrite IH; auto. intros; apply H; lia. }
  intro H. apply K. intros; apply H; lia.
Qed.
Lemma nth_flat r c F k : (k < r * c)%nat -> nth k (flat r c F) 0 = F (k / c)%nat (k mod c)%nat.
Proof. intro H. unfold flat, mk2. cbn [dat]. now rewrite nth_tab. Qed.
Lemma inside_le k d d' x : (d <= d')%nat -> inside k d' x -> inside k d x.
Proof. destruct k; cbn; auto. destruct d, d'; try lra; lia. Qed.

Section R2.
Variable close : C -> C -> bool.
Variable heap : nat -> grid (list (arr R)).
Variables gx gy : grid1.
Variable G : grid2.
Notation refers2 := (refers2 close heap gx gy G).
Section Exact.
Variable r : nat.
Hypotheses (HR : refers2 r) (Dx : default_extent gx) (Dy : default_extent gy) (Wx : works close (kd gx) (sz gx)) (Wy : works close (kd gy) (sz gy)).
Let Gx : good gx := Logic.proj1 (works_good close gx Dx Wx).
Let Gy : good gy := Logic.proj1 (works_good close gy Dy Wy).
Variables sx sy : cells1.
Hypotheses (Ex : cells_of gx = Ok sx) (Ey : cells_of gy = Ok sy).
Notation pjs := (pjs gx gy sx sy).
Lemma R_lists d t ls x y : (d <= 2)%nat -> lists2 gx gy d t ls -> inside (kd gx) d x -> inside (kd gy) d y ->
  form_R heap (MkForm d t r (pjs d t ls)) [x; y] = Ok (Some (map (fun l => sum_uv l x y) ls)).
Proof.
  intros Hd Hl Hx Hy. destruct HR as [EG Eh].
  destruct (product_ok close gx gy Gx Gy) as (sx' & sy' & G' & Ex' & Ey' & E & _ & _ & HN & _ & _ & _ & HB & _). rewrite EG in E. injection E as <-.
  unfold form_R. cbn [gref degree isprimal array]. rewrite Eh. cbn [gN gB grid_of2]. rewrite HN, HB, tget_table6 by auto. cbn [bind].
  rewrite (tget_map (fun _ e i x => match x with [x; y] => match e (Z.of_nat i) with Ok b => b x y | Err _ => None end | _ => None end)), tget_table6 by auto. cbn [bind].
  assert (forall d', (d' <= 1)%nat -> (d' <= d)%nat -> exists b, (forall i, (i < Nd gx d' t)%nat -> basis_of (kd gx) (sz gx) d' t i x = Some (b i)) /\ forall u, resolved (kd gx) (sz gx) d' t u -> Rsum (Nd gx d' t) (fun i => nth i (proj sx d' t u) 0 * b i) = u x) as BX
    by (intros d' H1 H2; apply (basis_sum close); auto; now apply (inside_le (kd gx) d' d)).
  assert (forall d', (d' <= 1)%nat -> (d' <= d)%nat -> exists b, (forall i, (i < Nd gy d' t)%nat -> basis_of (kd gy) (sz gy) d' t i y = Some (b i)) /\ forall u, resolved (kd gy) (sz gy) d' t u -> Rsum (Nd gy d' t) (fun i => nth i (proj sy d' t u) 0 * b i) = u y) as BY
    by (intros d' H1 H2; apply (basis_sum close); auto; now apply (inside_le (kd gy) d' d)).
  destruct d as [|[|[|d]]]; [| | |lia]; cbn [lists2] in Hl.
  - destruct ls as [|l [|]]; try contradiction. cbn [pjs N2 shp2 basis2 map]. unfold pj. rewrite length_flat, Nat.ltb_irrefl.
    destruct (BX 0%nat ltac:(lia) ltac:(lia)) as (bx & Hbx & Sx). destruct (BY 0%nat ltac:(lia) ltac:(lia)) as (by_ & Hby & Sy). pose proof (Nd_pos gx 0 t Gx) as Px.
    rewrite (all_some_gen _ _ (fun i => [tn l (proj sx 0 t) (proj sy 0 t) (i / Nd gx 0 t) (i mod Nd gx 0 t) * (bx (i mod Nd gx 0 t)%nat * by_ (i / Nd gx 0 t)%nat)])).
    + rewrite vsum_map, (Rsum_flat (Nd gy 0 t) (Nd gx 0 t) (fun i j => tn l (proj sx 0 t) (proj sy 0 t) i j * (bx j * by_ i))) by auto. rewrite (sum_tn l (proj sx 0 t) (proj sy 0 t) (Nd gy 0 t) (Nd gx 0 t) bx by_ x y); [reflexivity|]. intros u v K. destruct (Hl u v K). split; auto.
    + intros i Hi. destruct (idx_div _ _ _ Hi) as [H1 H2]. pose proof (idx_eq (Nd gx 0 t) i Px) as Ei. unfold reshapeB1.
      destruct (C41_arange2_single (Nd gy 0 t) (Nd gx 0 t)) as (ar & _ & _ & _ & U). destruct (U _ _ H1 H2) as [_ U']. rewrite Ei in U'. rewrite U'. cbn [bind item nth_error fst snd]. unfold bprod, obin. rewrite Hbx, Hby by auto. rewrite nth_flat by auto. reflexivity.
  - destruct ls as [|l [|m [|]]]; try contradiction. destruct Hl as [Hl Hm]. cbn [pjs N2 shp2 basis2 map]. unfold pj. rewrite app_length, !length_flat, Nat.ltb_irrefl.
    destruct (BX 0%nat ltac:(lia) ltac:(lia)) as (bx0 & Hbx0 & Sx0). destruct (BY 0%nat ltac:(lia) ltac:(lia)) as (by0 & Hby0 & Sy0). destruct (BX 1%nat ltac:(lia) ltac:(lia)) as (bx1 & Hbx1 & Sx1). destruct (BY 1%nat ltac:(lia) ltac:(lia)) as (by1 & Hby1 & Sy1).
    pose proof (Nd_pos gx 0 t Gx) as Px0. pose proof (Nd_pos gx 1 t Gx) as Px1. pose proof (Nd_pos gy 0 t Gy) as Py0. set (n0 := (Nd gy 0 t * Nd gx 1 t)%nat). set (n1 := (Nd gy 1 t * Nd gx 0 t)%nat). assert (0 < n0)%nat as P0 by (unfold n0; nia).
    set (a := flat _ _ _ ++ flat _ _ _).
    set (g := fun i => if (i <? n0)%nat then tn l (proj sx 1 t) (proj sy 0 t) (i / Nd gx 1 t) (i mod Nd gx 1 t) * (bx1 (i mod Nd gx 1 t)%nat * by0 (i / Nd gx 1 t)%nat) else 0).
    set (h := fun i => if (i <? n0)%nat then 0 else let k := (i - n0)%nat in tn m (proj sx 0 t) (proj sy 1 t) (k / Nd gx 0 t) (k mod Nd gx 0 t) * (bx0 (k mod Nd gx 0 t)%nat * by1 (k / Nd gx 0 t)%nat)).
    rewrite (all_some_gen _ _ (fun i => [g i; h i])).
    + rewrite vsum_pair, !Rsum_add by lia.
      rewrite (Rsum_ext n0 g (fun i => (fun i j => tn l (proj sx 1 t) (proj sy 0 t) i j * (bx1 j * by0 i)) (i / Nd gx 1 t)%nat (i mod Nd gx 1 t)%nat)) by (intros i Hi; unfold g; destruct (Nat.ltb_spec i n0); [reflexivity|lia]).
      rewrite (Rsum_ext n1 (fun i => g (n0 + i)%nat) (fun _ => 0)) by (intros i Hi; unfold g; destruct (Nat.ltb_spec (n0 + i) n0); [lia|reflexivity]).
      rewrite (Rsum_ext n0 h (fun _ => 0)) by (intros i Hi; unfold h; destruct (Nat.ltb_spec i n0); [reflexivity|lia]).
      rewrite (Rsum_ext n1 (fun i => h (n0 + i)%nat) (fun i => (fun i j => tn m (proj sx 0 t) (proj sy 1 t) i j * (bx0 j * by1 i)) (i / Nd gx 0 t)%nat (i mod Nd gx 0 t)%nat)) by (intros i Hi; unfold h; destruct (Nat.ltb_spec (n0 + i) n0); [lia|]; replace (n0 + i - n0)%nat with i by lia; reflexivity).
      assert (forall n, Rsum n (fun _ => 0) = 0) as Z by (intro n; induction n; cbn; lra). rewrite !Z. unfold n0, n1. rewrite (Rsum_flat (Nd gy 0 t) (Nd gx 1 t) (fun i j => tn l (proj sx 1 t) (proj sy 0 t) i j * (bx1 j * by0 i))), (Rsum_flat (Nd gy 1 t) (Nd gx 0 t) (fun i j => tn m (proj sx 0 t) (proj sy 1 t) i j * (bx0 j * by1 i))) by auto.
      rewrite (sum_tn l (proj sx 1 t) (proj sy 0 t) _ _ bx1 by0 x y), (sum_tn m (proj sx 0 t) (proj sy 1 t) _ _ bx0 by1 x y).
      * do 2 f_equal. f_equal; [ring|f_equal; ring].
      * intros u v K. destruct (Hm u v K). split; auto.
      * intros u v K. destruct (Hl u v K). split; auto.
    + intros i Hi. set (sh := [(Nd gy 0 t, Nd gx 1 t); (Nd gy 1 t, Nd gx 0 t)]). assert (total sh = Nd gy 0 t * Nd gx 1 t + Nd gy 1 t * Nd gx 0 t)%nat as Tl by (unfold sh, total; cbn; lia).
      unfold reshapeB1. destruct (unravel_in (Z.of_nat i) sh 0 0) as (k & r' & c & s & U & En & Hr & Hc & Ei); [rewrite Tl; fold n0 n1; lia|]. unfold unravel_idx. rewrite U. cbn [Nat.add] in *. cbn [bind fst snd]. apply Nat2Z.inj in Ei.
      destruct k as [|[|k]]; [| |destruct k; discriminate]; injection En as <-; cbn [fst snd] in *; cbn [item nth_error bind]; unfold bprod, obin.
      * change (total (firstn 0 sh)) with 0%nat in Ei. cbn [Nat.add] in Ei. rewrite Hbx1, Hby0 by auto. pose proof (idx_lt _ _ _ _ Hr Hc) as Lt. fold n0 in Lt. unfold g, h. destruct (Nat.ltb_spec i n0); [|lia].
        unfold a. rewrite app_nth1 by (rewrite length_flat; fold n0; lia). rewrite nth_flat by (fold n0; lia). rewrite Ei, div_add, mod_add by auto. cbn [map]. do 2 f_equal. f_equal. ring.
      * assert (total (firstn 1 sh) = n0) as T1 by (unfold sh, total, n0; cbn; lia). rewrite T1 in Ei. rewrite Hbx0, Hby1 by auto. pose proof (idx_lt _ _ _ _ Hr Hc) as Lt. unfold g, h. destruct (Nat.ltb_spec i n0); [lia|].
        unfold a. rewrite app_nth2 by (rewrite length_flat; fold n0; lia). rewrite length_flat. fold n0. replace (i - n0)%nat with (r' * Nd gx 0 t + c)%nat by lia. rewrite nth_flat by (apply idx_lt; auto). cbv zeta. rewrite div_add, mod_add by auto. cbn [map]. do 2 f_equal. ring.
  - destruct ls as [|l [|]]; try contradiction. cbn [pjs N2 shp2 basis2 map]. unfold pj. rewrite length_flat, Nat.ltb_irrefl.
    destruct (BX 1%nat ltac:(lia) ltac:(lia)) as (bx & Hbx & Sx). destruct (BY 1%nat ltac:(lia) ltac:(lia)) as (by_ & Hby & Sy). pose proof (Nd_pos gx 1 t Gx) as Px.
    rewrite (all_some_gen _ _ (fun i => [tn l (proj sx 1 t) (proj sy 1 t) (i / Nd gx 1 t) (i mod Nd gx 1 t) * (bx (i mod Nd gx 1 t)%nat * by_ (i / Nd gx 1 t)%nat)])).
    + rewrite vsum_map, (Rsum_flat (Nd gy 1 t) (Nd gx 1 t) (fun i j => tn l (proj sx 1 t) (proj sy 1 t) i j * (bx j * by_ i))) by auto. rewrite (sum_tn l (proj sx 1 t) (proj sy 1 t) (Nd gy 1 t) (Nd gx 1 t) bx by_ x y); [reflexivity|]. intros u v K. destruct (Hl u v K). split; auto.
    + intros i Hi. destruct (idx_div _ _ _ Hi) as [H1 H2]. pose proof (idx_eq (Nd gx 1 t) i Px) as Ei. unfold reshapeB1.
      destruct (C41_arange2_single (Nd gy 1 t) (Nd gx 1 t)) as (ar & _ & _ & _ & U). destruct (U _ _ H1 H2) as [_ U']. rewrite Ei in U'. rewrite U'. cbn [bind item nth_error fst snd]. unfold bprod, obin. rewrite Hbx, Hby by auto. rewrite nth_flat by auto. reflexivity.
Qed.

(** *** every array is the discretisation of a resolved form *)
Lemma build dx dy t (F : nat -> nat -> R) m : (dx <= 1)%nat -> (dy <= 1)%nat -> complete gx -> complete gy -> (m <= Nd gy dy t)%nat ->
  exists l, in2 gx gy dx dy t l /\ forall i j, (i < Nd gy dy t)%nat -> (j < Nd gx dx t)%nat -> tn l (proj sx dx t) (proj sy dy t) i j = if (i <? m)%nat then F i j else 0.
Proof.
  intros Hdx Hdy Cx Cy. induction m as [|m IH]; intro Hm.
  - exists []. split; [intros ? ? []|]. reflexivity.
  - destruct IH as (l & Hl & El); [lia|]. destruct (resolve close gx sx dx t (tab (Nd gx dx t) (F m)) Dx Wx Cx Ex Hdx (length_tab _ _)) as (u & Hu & Pu).
    destruct (resolve close gy sy dy t (tab (Nd gy dy t) (fun i => if Nat.eqb i m then 1 else 0)) Dy Wy Cy Ey Hdy (length_tab _ _)) as (v & Hv & Pv).
    exists ((u, v) :: l). split. { intros u' v' [K|K]; [injection K as <- <-; auto|now apply Hl]. }
    intros i j Hi Hj. cbn [tn]. rewrite Pu, Pv, !nth_tab, El by auto. destruct (Nat.eqb_spec i m), (Nat.ltb_spec i m), (Nat.ltb_spec i (S m)); try lia; subst; ring.
Qed.
Lemma build_flat dx dy t a : (dx <= 1)%nat -> (dy <= 1)%nat -> complete gx -> complete gy -> length a = (Nd gy dy t * Nd gx dx t)%nat -> exists l, in2 gx gy dx dy t l /\ pj gx gy sx sy l dx dy t = a.
Proof.
  intros Hdx Hdy Cx Cy L. destruct (build dx dy t (ent (Nd gx dx t) a) (Nd gy dy t) Hdx Hdy Cx Cy (Nat.le_refl _)) as (l & Hl & El). exists l. split; auto. rewrite (flat_ent _ _ _ L). unfold pj. apply flat_ext. intros i j Hi Hj. rewrite El by auto. destruct (Nat.ltb_spec i (Nd gy dy t)); [reflexivity|lia].
Qed.
Lemma build_lists d t a : (d <= 2)%nat -> complete gx -> complete gy -> tget (g2N G) (d, t) = Ok (length a) -> exists ls, lists2 gx gy d t ls /\ pjs d t ls = a.
Proof.
  intros Hd Cx Cy EN. destruct HR as [EG _]. destruct (product_ok close gx gy Gx Gy) as (sx' & sy' & G' & Ex' & Ey' & E & _ & _ & HN & _). rewrite EG in E. injection E as <-. rewrite HN, tget_table6 in EN by auto. injection EN as EN.
  destruct d as [|[|[|d]]]; [| | |lia]; cbn [N2] in EN.
  - destruct (build_flat 0 0 t a) as (l & Hl & El); auto. exists [l]. auto.
  - set (n0 := (Nd gy 0 t * Nd gx 1 t)%nat) in *. destruct (build_flat 1 0 t (firstn n0 a)) as (l & Hl & El); auto. { rewrite firstn_length. fold n0. lia. }
    destruct (build_flat 0 1 t (skipn n0 a)) as (m & Hm & Em); auto. { rewrite skipn_length. lia. }
    exists [l; m]. split; [split; auto|]. cbn [pjs]. now rewrite El, Em, firstn_skipn.
  - destruct (build_flat 1 1 t a) as (l & Hl & El); auto. exists [l]. auto.
Qed.
Lemma lists_resolved d t ls : (d <= 2)%nat -> lists2 gx gy d t ls -> resolved2 gx gy d t (map sum_uv ls) /\ repr (map sum_uv ls) ls /\ length (map sum_uv ls) = ncomp d.
Proof.
  intros Hd Hl. destruct d as [|[|[|d]]]; [| | |lia]; cbn [lists2] in Hl.
  - destruct ls as [|l [|]]; try contradiction. split; [exists l; auto|]. split; [|reflexivity]. constructor; [|constructor]. split; auto. now apply (in2_conts gx gy 0 0 t).
  - destruct ls as [|l [|m [|]]]; try contradiction. destruct Hl as [Hl Hm]. split; [split; [exists l|exists m]; auto|]. split; [|reflexivity].
    constructor; [split; auto; now apply (in2_conts gx gy 1 0 t)|]. constructor; [split; auto; now apply (in2_conts gx gy 0 1 t)|constructor].
  - destruct ls as [|l [|]]; try contradiction. split; [exists l; auto|]. split; [|reflexivity]. constructor; [|constructor]. split; auto. now apply (in2_conts gx gy 1 1 t).
Qed.
End Exact.

(** ** the theorems *)
(** w is the reconstruction of the discrete form with array a: [form.R] evaluates to the components of w *)
Definition reconstructs2 (r : nat) (d : nat) (t : bool) (a : list R) (w : list (R -> R -> R)) : Prop :=
  resolved2 gx gy d t w /\ forall x y, inside (kd gx) d x -> inside (kd gy) d y -> form_R heap (MkForm d t r a) [x; y] = Ok (Some (map (fun f => f x y) w)).

(** reconstruction inverts discretisation on the resolved forms *)
Theorem C83_reconstruction_exact r d t w : refers2 r -> default_extent gx -> default_extent gy -> works close (kd gx) (sz gx) -> works close (kd gy) (sz gy) -> (d <= 2)%nat ->
  resolved2 gx gy d t w -> exists a, disc G d t w a /\
  forall x y, inside (kd gx) d x -> inside (kd gy) d y -> form_R heap (MkForm d t r a) [x; y] = Ok (Some (map (fun f => f x y) w)).
Proof.
  intros HR Dx Dy Wx Wy Hd Hw. pose proof (Logic.proj1 (works_good close gx Dx Wx)) as Gx. pose proof (Logic.proj1 (works_good close gy Dy Wy)) as Gy.
  destruct (good_cells gx Gx) as (sx & Ex & _). destruct (good_cells gy Gy) as (sy & Ey & _). destruct (resolved_repr gx gy d t w Hd Hw) as (ls & Hr & Hl & L).
  exists (pjs gx gy sx sy d t ls). split; [apply (disc_val close gx gy G (Logic.proj1 HR) Gx Gy sx sy Ex Ey d t w ls); auto|]. intros x y Hx Hy. rewrite (R_lists r HR Dx Dy Wx Wy sx sy Ex Ey d t ls x y Hd Hl Hx Hy). do 2 f_equal.
  clear - Hr. induction Hr as [|f l w ls [_ H] _ IH]; cbn; auto. now rewrite H, IH.
Qed.

(** closure of the resolved functions under linear combinations *)
Lemma resolved_lin k n d p c f g : resolved k n d p f -> resolved k n d p g -> resolved k n d p (fun x => f x * c + g x).
Proof.
  destruct k; cbn [resolved]; intros Hf Hg.
  - destruct Hf as (K & HK & Hf), Hg as (L & HL & Hg). exists (Nat.max K L). split; [lia|]. apply (td_ext _ _ (fun x => c * f x + g x)); [intro; ring|]. apply td_plus; [apply td_scal, (td_mono K); auto; lia|apply (td_mono L); auto; lia].
  - apply (cosp_ext _ _ (fun x => c * f x + g x)); [intro; ring|]. apply cosp_plus; [now apply cosp_scal|exact Hg].
  - apply (poly_ext _ _ (fun x => c * f x + g x)); [intro; ring|]. apply poly_plus; [now apply poly_scal|exact Hg].
Qed.
Lemma slice_x dx dy t f y : good gx -> res2 gx gy dx dy t f -> resolved (kd gx) (sz gx) dx t (fun x => f x y).
Proof.
  intros Gg (l & Hl & E). replace (fun x => f x y) with (fun x => sum_uv l x y) by (apply functional_extensionality; intro; now rewrite E). clear E f. induction l as [|[u v] l IH]; cbn [sum_uv].
  - destruct (resolved_zero (kd gx) (sz gx) dx t); auto. pose proof (Nd_pos gx dx t Gg). unfold Nd in *. lia.
  - apply resolved_lin; [apply (Hl u v); now left|apply IH; intros; apply Hl; now right].
Qed.
Lemma slice_y dx dy t f x : good gy -> res2 gx gy dx dy t f -> resolved (kd gy) (sz gy) dy t (fun y => f x y).
Proof.
  intros Gg (l & Hl & E). replace (fun y => f x y) with (fun y => sum_uv l x y) by (apply functional_extensionality; intro; now rewrite E). clear E f. induction l as [|[u v] l IH]; cbn [sum_uv].
  - destruct (resolved_zero (kd gy) (sz gy) dy t); auto. pose proof (Nd_pos gy dy t Gg). unfold Nd in *. lia.
  - replace (fun y => u x * v y + sum_uv l x y) with (fun y => v y * u x + sum_uv l x y) by (apply functional_extensionality; intro; ring). apply resolved_lin; [apply (Hl u v); now left|apply IH; intros; apply Hl; now right].
Qed.
Lemma res2_unique dx dy t d f f' : good gx -> good gy -> res2 gx gy dx dy t f -> res2 gx gy dx dy t f' -> (forall x y, inside (kd gx) d x -> inside (kd gy) d y -> f x y = f' x y) -> f = f'.
Proof.
  intros Gx Gy Hf Hf' H. apply functional_extensionality. intro x. apply functional_extensionality. intro y.
  apply (resolved_unique (kd gy) (sz gy) dy t d (f x) (f' x)); [now apply (slice_y dx dy t)|now apply (slice_y dx dy t)|]. intros y' Hy'.
  apply (resolved_unique (kd gx) (sz gx) dx t d (fun x => f x y') (fun x => f' x y')); [now apply (slice_x dx dy t)|now apply (slice_x dx dy t)|]. auto.
Qed.
Lemma resolved2_unique d t w w' : good gx -> good gy -> resolved2 gx gy d t w -> resolved2 gx gy d t w' -> (forall x y, inside (kd gx) d x -> inside (kd gy) d y -> map (fun f => f x y) w = map (fun f => f x y) w') -> w = w'.
Proof.
  intros Gx Gy Hw Hw' H. destruct d as [|[|[|d]]]; cbn [resolved2] in *; try contradiction.
  - destruct w as [|f [|]], w' as [|f' [|]]; try contradiction. f_equal. apply (res2_unique 0 0 t 0); auto. intros x y Hx Hy. specialize (H x y Hx Hy). now injection H.
  - destruct w as [|f [|g [|]]], w' as [|f' [|g' [|]]]; try contradiction. f_equal; [|f_equal]; [apply (res2_unique 1 0 t 1)|apply (res2_unique 0 1 t 1)]; try tauto; intros x y Hx Hy; specialize (H x y Hx Hy); now injection H.
  - destruct w as [|f [|]], w' as [|f' [|]]; try contradiction. f_equal. apply (res2_unique 1 1 t 2); auto. intros x y Hx Hy. specialize (H x y Hx Hy). now injection H.
Qed.

(** C83: discretisation is a bijection between resolved forms and arrays, with reconstruction as inverse *)
Theorem C83_bijection r d t a : refers2 r -> default_extent gx -> default_extent gy -> works close (kd gx) (sz gx) -> works close (kd gy) (sz gy) -> complete gx -> complete gy -> (d <= 2)%nat ->
  tget (g2N G) (d, t) = Ok (length a) ->
  exists w, reconstructs2 r d t a w /\ disc G d t w a /\
    (forall w', resolved2 gx gy d t w' -> disc G d t w' a -> w' = w) /\ (forall w', reconstructs2 r d t a w' -> w' = w).
Proof.
  intros HR Dx Dy Wx Wy Cx Cy Hd EN. pose proof (Logic.proj1 (works_good close gx Dx Wx)) as Gx. pose proof (Logic.proj1 (works_good close gy Dy Wy)) as Gy.
  destruct (good_cells gx Gx) as (sx & Ex & _). destruct (good_cells gy Gy) as (sy & Ey & _).
  assert (forall w', resolved2 gx gy d t w' -> disc G d t w' a -> reconstructs2 r d t a w') as RR.
  { intros w' H' D'. split; auto. destruct (C83_reconstruction_exact r d t w' HR Dx Dy Wx Wy Hd H') as (a' & Da' & E). now rewrite <- (disc_fun G _ _ _ _ _ D' Da') in E. }
  destruct (build_lists r HR Dx Dy Wx Wy sx sy Ex Ey d t a Hd Cx Cy EN) as (ls & Hl & El). destruct (lists_resolved d t ls Hd Hl) as (Hw & Hr & L).
  exists (map sum_uv ls). assert (disc G d t (map sum_uv ls) a) as Dw by (rewrite <- El; apply (disc_val close gx gy G (Logic.proj1 HR) Gx Gy sx sy Ex Ey); auto).
  assert (forall w', reconstructs2 r d t a w' -> w' = map sum_uv ls) as U.
  { intros w' [H' E']. apply (resolved2_unique d t); auto. intros x y Hx Hy. pose proof (proj2 (RR _ Hw Dw) x y Hx Hy) as E. rewrite E' in E by auto. now injection E. }
  split; [now apply RR|]. split; auto.
Qed.
Lemma reconstructs2_disc r d t a w : refers2 r -> default_extent gx -> default_extent gy -> works close (kd gx) (sz gx) -> works close (kd gy) (sz gy) -> complete gx -> complete gy -> (d <= 2)%nat ->
  tget (g2N G) (d, t) = Ok (length a) -> reconstructs2 r d t a w -> disc G d t w a.
Proof. intros HR Dx Dy Wx Wy Cx Cy Hd EN H. destruct (C83_bijection r d t a HR Dx Dy Wx Wy Cx Cy Hd EN) as (w0 & _ & D0 & _ & U). now rewrite (U w H). Qed.
(** the Hodge star of every discrete form is the star of its reconstruction, discretised *)
Theorem C83_hodge r d t a w : refers2 r -> default_extent gx -> default_extent gy -> works close (kd gx) (sz gx) -> works close (kd gy) (sz gy) -> complete gx -> complete gy -> (d <= 2)%nat ->
  tget (g2N G) (d, t) = Ok (length a) -> reconstructs2 r d t a w ->
  exists b, form_H heap (MkForm d t r a) = Ok (MkForm (2 - d) (negb t) r b) /\ disc G (2 - d) (negb t) (star w) b /\ reconstructs2 r (2 - d) (negb t) b (star w).
Proof.
  intros HR Dx Dy Wx Wy Cx Cy Hd EN H. pose proof (reconstructs2_disc r d t a w HR Dx Dy Wx Wy Cx Cy Hd EN H) as D. destruct H as [H _].
  destruct (C80_hodge_exact close heap gx gy G r d t w HR Dx Dy Wx Wy Hd H) as (a' & b & Da & Db & E). rewrite <- (disc_fun G _ _ _ _ _ D Da) in E. exists b. split; auto. split; auto.
  assert (resolved2 gx gy (2 - d) (negb t) (star w)) as Hs.
  { assert (forall dx dy f, (dx <= 1)%nat -> (dy <= 1)%nat -> res2 gx gy dx dy t f -> res2 gx gy (1 - dx) (1 - dy) (negb t) f) as K.
    { intros dx dy f Hx Hy. assert (forall g d, (d <= 1)%nat -> grid_N (kd g) (sz g) d t = grid_N (kd g) (sz g) (1 - d) (negb t)) as EG by (intros g d' H'; destruct d' as [|[|]], (kd g), t; try reflexivity; lia).
      apply sep_mono; intros u Hu; unfold resolved in *; rewrite <- EG; auto. }
    destruct d as [|[|[|d]]]; [| | |lia]; cbn [resolved2] in H.
    - destruct w as [|f [|]]; try contradiction. apply (K 0%nat 0%nat); auto.
    - destruct w as [|f [|g [|]]]; try contradiction. destruct H as [Hf Hg]. split; [|apply (K 1%nat 0%nat); auto]. apply (K 0%nat 1%nat) in Hg; auto. destruct Hg as (l & Hl & El). exists (negl l). split.
      + intros u v I. apply in_map_iff in I as ([u' v'] & I & I'). cbn [fst snd] in I. injection I as <- <-. destruct (Hl _ _ I') as [A B]. split; auto.
        replace (fun x => - u' x) with (fun x => u' x * (- 2) + u' x) by (apply functional_extensionality; intro; ring). now apply resolved_lin.
      + intros x y. now rewrite sum_negl, El.
    - destruct w as [|f [|]]; try contradiction. apply (K 1%nat 1%nat); auto. }
  split; auto. destruct (C83_reconstruction_exact r (2 - d) (negb t) (star w) HR Dx Dy Wx Wy ltac:(lia) Hs) as (b' & Db' & E'). now rewrite <- (disc_fun G _ _ _ _ _ Db Db') in E'.
Qed.
(** wedge product and contraction multiply the reconstructions *)
Theorem C83_wedge r t d0 p0 a w0 d1 p1 b w1 : refers2 r -> default_extent gx -> default_extent gy -> usable close (kd gx) (sz gx) -> usable close (kd gy) (sz gy) -> complete gx -> complete gy -> (d0 + d1 <= 2)%nat ->
  tget (g2N G) (d0, p0) = Ok (length a) -> tget (g2N G) (d1, p1) = Ok (length b) -> reconstructs2 r d0 p0 a w0 -> reconstructs2 r d1 p1 b w1 -> fine2 gx gy (d0 + d1) (wedgef w0 w1) ->
  exists c, form_W heap t (MkForm d0 p0 r a) (MkForm d1 p1 r b) = Ok (MkForm (d0 + d1) t r c) /\ disc G (d0 + d1) t (wedgef w0 w1) c.
Proof.
  intros HR Dx Dy Ux Uy Cx Cy Hd Ea Eb H0 H1 Hf. assert (forall g, usable close (kd g) (sz g) -> works close (kd g) (sz g)) as UW by (intros g K; destruct (kd g); cbn in *; tauto).
  pose proof (reconstructs2_disc r d0 p0 a w0 HR Dx Dy (UW _ Ux) (UW _ Uy) Cx Cy ltac:(lia) Ea H0) as A. pose proof (reconstructs2_disc r d1 p1 b w1 HR Dx Dy (UW _ Ux) (UW _ Uy) Cx Cy ltac:(lia) Eb H1) as B.
  destruct (C80_wedge_exact close heap gx gy G r t d0 p0 w0 d1 p1 w1 HR Dx Dy Ux Uy Hd (Logic.proj1 H0) (Logic.proj1 H1) Hf) as (a' & b' & c & Da & Db & Dc & E).
  rewrite <- (disc_fun G _ _ _ _ _ A Da), <- (disc_fun G _ _ _ _ _ B Db) in E. exists c. auto.
Qed.
Theorem C83_contraction r t p0 a X d p b w : refers2 r -> default_extent gx -> default_extent gy -> usable close (kd gx) (sz gx) -> usable close (kd gy) (sz gy) -> complete gx -> complete gy -> (1 <= d <= 2)%nat ->
  tget (g2N G) (1%nat, p0) = Ok (length a) -> tget (g2N G) (d, p) = Ok (length b) -> reconstructs2 r 1 p0 a X -> reconstructs2 r d p b w -> fine2 gx gy (d - 1) (contractf X w) ->
  exists c, form_C heap t (MkForm 1 p0 r a) (MkForm d p r b) = Ok (MkForm (d - 1) t r c) /\ disc G (d - 1) t (contractf X w) c.
Proof.
  intros HR Dx Dy Ux Uy Cx Cy Hd Ea Eb H0 H1 Hf. assert (forall g, usable close (kd g) (sz g) -> works close (kd g) (sz g)) as UW by (intros g K; destruct (kd g); cbn in *; tauto).
  pose proof (reconstructs2_disc r 1 p0 a X HR Dx Dy (UW _ Ux) (UW _ Uy) Cx Cy ltac:(lia) Ea H0) as A. pose proof (reconstructs2_disc r d p b w HR Dx Dy (UW _ Ux) (UW _ Uy) Cx Cy ltac:(lia) Eb H1) as B.
  destruct (C80_contraction_exact close heap gx gy G r t p0 X d p w HR Dx Dy Ux Uy Hd (Logic.proj1 H0) (Logic.proj1 H1) Hf) as (a' & b' & c & Da & Db & Dc & E).
  rewrite <- (disc_fun G _ _ _ _ _ A Da), <- (disc_fun G _ _ _ _ _ B Db) in E. exists c. auto.
Qed.

(** the exterior derivative of the plane: d f = f_x dx + f_y dy, d (f dx + g dy) = (g_x - f_y) dx^dy *)
Definition exterior (w w' : list (R -> R -> R)) : Prop :=
  match w, w' with
  | [f], [fx; fy] => partial_x f fx /\ partial_y f fy
  | [f; g], [h] => exists gdx fdy, partial_x g gdx /\ partial_y f fdy /\ h = (fun x y => gdx x y - fdy x y)
  | _, _ => False
  end.
(** reconstruction commutes with the exterior derivative *)
Theorem C83_derivative r d a w : refers2 r -> default_extent gx -> default_extent gy -> works close (kd gx) (sz gx) -> works close (kd gy) (sz gy) -> complete gx -> complete gy ->
  kd gx <> Regular -> kd gy <> Regular -> (d <= 1)%nat -> tget (g2N G) (d, true) = Ok (length a) -> reconstructs2 r d true a w ->
  exists w' b, exterior w w' /\ form_D heap (MkForm d true r a) = Ok (ZForm (MkForm (d + 1) true r b)) /\ reconstructs2 r (d + 1) true b w'.
Proof.
  intros HR Dx Dy Wx Wy Cx Cy Kx Ky Hd EN H. pose proof (reconstructs2_disc r d true a w HR Dx Dy Wx Wy Cx Cy ltac:(lia) EN H) as D. destruct H as [H _]. pose proof HR as [EG Eh].
  pose proof (Logic.proj1 (works_good close gx Dx Wx)) as Gx. pose proof (Logic.proj1 (works_good close gy Dy Wy)) as Gy.
  pose proof (fun u => res_deriv (kd gx) (sz gx) u Kx) as Rdx. pose proof (fun u => res_deriv (kd gy) (sz gy) u Ky) as Rdy.
  assert (forall u, resolved (kd gx) (sz gx) 1 true u -> resolved (kd gx) (sz gx) 0 true u) as W0x by (intros u K; now apply res_weaken). assert (forall u, resolved (kd gy) (sz gy) 1 true u -> resolved (kd gy) (sz gy) 0 true u) as W0y by (intros u K; now apply res_weaken).
  assert (forall dx dy t g, res2 gx gy dx dy t g -> cont2 g) as CC by (intros dx dy t g; apply sep_cont; intros u Hu z; apply (res_cont _ _ _ _ _ _ Hu)).
  assert (forall d' w' b, (d' <= 2)%nat -> resolved2 gx gy d' true w' -> disc G d' true w' b -> reconstructs2 r d' true b w') as RR.
  { intros d' w' b Hd' H' D'. split; auto. destruct (C83_reconstruction_exact r d' true w' HR Dx Dy Wx Wy Hd' H') as (b' & Db' & E). now rewrite <- (disc_fun G _ _ _ _ _ D' Db') in E. }
  destruct d as [|[|d]]; [| |lia]; cbn [resolved2] in H.
  - destruct w as [|f [|]]; try contradiction. destruct (sep_dx _ _ _ f Rdx H) as (fx & Hfx & Sfx). destruct (sep_dy _ _ _ f Rdy H) as (fy & Hfy & Sfy).
    pose proof (sep_periodic_x gx gy 0 0 true f Dx H) as Pfx. pose proof (sep_periodic_y gx gy 0 0 true f Dy H) as Pfy.
    assert (C1_with f fx fy) as C1 by (split; [assumption|split; [assumption|split; eapply CC; eassumption]]).
    destruct (C45_stokes0_primal close gx gy G f fx fy Gx Gy EG C1 (periodic_wraps_x _ _ Pfx) (periodic_wraps_y _ _ Pfy)) as (P0 & P1 & D0 & u & v & E0 & E1 & ED0 & F0 & F1 & FD0).
    pose proof (disc_fun G 0 true _ u a (disc_get G 0 true _ P0 E0 u F0) D) as ->. exists [fx; fy], v. split; [split; auto|]. split; [now apply (form_D2 close heap gx gy G r 0 true D0)|]. apply RR; [lia|split; auto|]. now apply (disc_get G 1 true _ P1).
  - destruct w as [|f [|g [|]]]; try contradiction. destruct H as [Hf Hg].
    assert (res2 gx gy 0 0 true f) as Hf0 by (revert Hf; apply sep_mono; auto). assert (res2 gx gy 0 0 true g) as Hg0 by (revert Hg; apply sep_mono; auto).
    destruct (sep_dx _ _ _ f Rdx Hf0) as (fx & Hfx & Sfx). destruct (sep_dy _ _ _ f Rdy Hf) as (fy & Hfy & Sfy). destruct (sep_dx _ _ _ g Rdx Hg) as (gdx & Hgx & Sgx). destruct (sep_dy _ _ _ g Rdy Hg0) as (gdy & Hgy & Sgy).
    assert (C1_with f fx fy) as C1 by (split; [assumption|split; [assumption|split; eapply CC; eassumption]]). assert (C1_with g gdx gdy) as C2 by (split; [assumption|split; [assumption|split; eapply CC; eassumption]]).
    destruct (C45_stokes1_primal close gx gy G f fx fy g gdx gdy Gx Gy EG C1 C2 (periodic_wraps_y _ _ (sep_periodic_y gx gy 1 0 true f Dy Hf)) (periodic_wraps_x _ _ (sep_periodic_x gx gy 0 1 true g Dx Hg))) as (P0 & P1 & D0 & u & v & E0 & E1 & ED0 & F0 & F1 & FD0).
    pose proof (disc_fun G 1 true _ u a (disc_get G 1 true _ P0 E0 u F0) D) as ->. exists [fun x y => gdx x y - fy x y], v. split; [exists gdx, fy; auto|]. split; [now apply (form_D2 close heap gx gy G r 1 true D0)|].
    apply RR; [lia| |now apply (disc_get G 2 true _ P1)]. cbn [resolved2]. apply (sep_ext _ _ (fun x y => gdx x y + -1 * fy x y)); [intros; ring|]. apply sep_lin; auto. intros u' Hu'. destruct (kd gx); cbn [resolved] in *; [|congruence|].
    + destruct Hu' as (K & HK & Hu'). exists K. split; auto. now apply td_scal.
    + now apply poly_scal.
Qed.
End R2.

(** ** an arbitrary array on the product of the periodic and the Chebyshev grid with 3 points *)
Example C83_instance : exists G, product never per3 che3 = Ok G /\ let heap := fun _ : nat => grid_of2 G in let a := map INR (seq 1 9) in
  exists w w' b h, reconstructs2 heap per3 che3 0 0 true a w /\ disc G 0 true w a /\ exterior w w' /\ form_D heap (MkForm 0 true 0 a) = Ok (ZForm (MkForm 1 true 0 b)) /\ reconstructs2 heap per3 che3 0 1 true b w' /\
    form_H heap (MkForm 0 true 0 a) = Ok (MkForm 2 false 0 h) /\ reconstructs2 heap per3 che3 0 2 false h (star w).
Proof.
  destruct che3_ok as (E & W & K), per3_ok as (E' & W' & K').
  destruct (Props.Grid2.C46_product_exists never per3 che3 (Logic.proj1 (works_good never per3 E' W')) (Logic.proj1 (works_good never che3 E W))) as (G & EG). exists G. split; auto. cbv zeta. set (a := map INR (seq 1 9)).
  assert (refers2 never (fun _ => grid_of2 G) per3 che3 G 0) as HR by (split; auto).
  assert (tget (g2N G) (0%nat, true) = Ok (length a)) as EN.
  { destruct (product_ok never per3 che3 (Logic.proj1 (works_good never per3 E' W')) (Logic.proj1 (works_good never che3 E W))) as (sx' & sy' & G' & Ex' & Ey' & EE & _ & _ & HN & _). rewrite EG in EE. injection EE as <-. rewrite HN, tget_table6 by auto. reflexivity. }
  destruct (C83_bijection never _ per3 che3 G 0 0 true a HR E' E W' W K' K ltac:(lia) EN) as (w & Hw & Dw & _).
  destruct (C83_derivative never _ per3 che3 G 0 0 a w HR E' E W' W K' K ltac:(discriminate) ltac:(discriminate) ltac:(lia) EN Hw) as (w' & b & H1 & H2 & H3).
  destruct (C83_hodge never _ per3 che3 G 0 0 true a w HR E' E W' W K' K ltac:(lia) EN Hw) as (h & H4 & _ & H5). exists w, w', b, h. auto 12.
Qed.
