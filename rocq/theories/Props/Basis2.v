(** C50: the basis forms of a product grid are cardinal. *)
From Coq Require Import ZArith Reals List Lia Lra Arith Bool.
From Coq Require Import ZifyNat ZifyBool.
From Verif Require Import Model.Sym.
From Coquelicot Require Import Coquelicot.
From Verif Require Import Model.Num Model.Np Model.Spectral Model.Basis Model.Grids1 Model.Regular Model.Chebyshev Model.Common Model.Decform Model.Grid2 Spec.Tiling Spec.Plane Spec.Poly
  Proofs.ListLemmas Proofs.RIntLemmas Proofs.RingSums Proofs.Ops Proofs.BasisP Proofs.Grids1P Proofs.GridsThm Proofs.RegularBasis Proofs.ChebPoly Proofs.Cheb2 Proofs.ChebBasis
  Proofs.Lin Proofs.TableLin Proofs.Arr2 Proofs.Grid2P Proofs.Grid2Ops Proofs.Fubini Proofs.Stokes2 Props.Periodic Props.Regular Props.ChebCardinal Props.Grid2 Props.Shape.
Import ListNotations.
Local Open Scope nat_scope.
Ltac Zify.zify_post_hook ::= Z.div_mod_to_equations.

Definition delta_ (i j : nat) : R := if Nat.eqb i j then 1%R else 0%R.
(** the 1D basis functions of a grid are cardinal: 0-forms take the values 0 and 1 on the vertices, the
    integrals of 1-forms over the edges are 0 and 1 *)
Definition cardinal1 (g : grid1) : Prop := forall c, cells_of g = Ok c -> forall t i j,
  (i < grid_N (kd g) (sz g) 0 t -> j < grid_N (kd g) (sz g) 0 t -> basis_of (kd g) (sz g) 0 t i (nth j (v1 c t) 0%R) = Some (delta_ i j)) /\
  (i < grid_N (kd g) (sz g) 1 t -> j < grid_N (kd g) (sz g) 1 t ->
    is_RInt (tot (basis_of (kd g) (sz g) 1 t i)) (nth j (fst (e1 c t)) 0%R) (nth j (snd (e1 c t)) 0%R) (delta_ i j)).

(** the grids with the default extent are cardinal *)
Definition default_extent (g : grid1) : Prop :=
  match kd g with Periodic => lo g = 0%R /\ hi g = (2 * PI)%R | Regular => lo g = 0%R /\ hi g = PI | Chebyshev => lo g = (-1)%R /\ hi g = 1%R end.
Lemma is_RInt_of (f : R -> R) a b v : ex_RInt f a b -> RInt f a b = v -> is_RInt f a b v.
Proof. intros E <-. now apply (RInt_correct f). Qed.
Lemma ex_RInt_tot_open (F : R -> option R) d P a b : polynomial d P -> (forall x, (-1 < x < 1)%R -> F x = Some (P x)) -> (-1 <= a <= 1)%R -> (-1 <= b <= 1)%R -> ex_RInt (tot F) a b.
Proof.
  intros HP H Ha Hb. apply (ex_RInt_ext P).
  - intros x Hx. unfold tot. rewrite H; auto. unfold Rmin, Rmax in Hx. destruct (Rle_dec a b); lra.
  - apply ex_RInt_cont_all. intro. now apply (poly_cont d).
Qed.
Lemma cont_shift N a x : continuous (fun x => betaS N (x - a)) x.
Proof. apply (continuous_comp (fun x => (x - a)%R) (betaS N)); [|apply betaS_cont]. apply continuous_derivable. auto_derive. auto. Qed.
Lemma cont_shift' N a x : continuous (fun x => betaS N (x + a)) x.
Proof. apply (continuous_comp (fun x => (x + a)%R) (betaS N)); [|apply betaS_cont]. apply continuous_derivable. auto_derive. auto. Qed.
Theorem C50_default_grids_cardinal g : big_enough (kd g) (sz g) -> default_extent g -> cardinal1 g.
Proof.
  intros Hb He c Ec t i j. unfold cells_of, default_extent, delta_ in *. destruct g as [k n l h]. cbn [kd sz lo hi] in *. destruct k; cbn [big_enough] in Hb; destruct He as [-> ->]; cbn [make_cells basis_of grid_N] in *.
  - destruct n as [|n']; [lia|]. set (n := S n') in *. injection Ec as <-. split; intros Hi Hj.
    + change (sizes_periodic n 0 t) with n in *. destruct (C15_alpha_cardinal n i j Hi Hj) as [A B]. destruct t; [exact A|exact B].
    + change (sizes_periodic n 1 t) with n in *. destruct (C16_beta_histopolates n i j Hi Hj) as [A B]. destruct t; (apply is_RInt_of; [|assumption]); apply ex_RInt_cont_all; intro x; apply (C16_beta_continuous n i x Hi).
  - assert (2 <= n) as Hn by lia. destruct (C23_regular_cardinal n i j Hn) as (c' & E' & A & B & K & D). unfold regular_default in E'. rewrite Ec in E'. injection E' as <-.
    split; intros Hi Hj; destruct t; cbn [sizes_interval] in *; auto.
    + apply is_RInt_of; [|exact (K Hi Hj)]. apply ex_RInt_cont_all. intro x. unfold tot, B_regular, somef.
      eapply continuous_ext; [intro; symmetry; apply (kappa1s_val n Hn)|]. apply (continuous_plus (V := R_NormedModule)); [apply cont_shift|apply cont_shift'].
    + apply is_RInt_of; [|exact (D Hi Hj)]. apply ex_RInt_cont_all. intro x. unfold tot, B_regular, somef.
      eapply continuous_ext; [intro; symmetry; apply (kappad1s_val n Hn)|]. apply (continuous_plus (V := R_NormedModule)); [apply cont_shift|apply cont_shift'].
  - assert (2 <= n) as Hn by lia. destruct (C29_chebyshev_cardinal n i j Hn) as (c' & E' & A & B & K & D). unfold chebyshev_default in E'. rewrite Ec in E'. injection E' as <-.
    destruct (cd_cells n Hn) as (c' & E' & Ev & Ee & Evd & Eed). unfold chebyshev_default in E'. rewrite Ec in E'. injection E' as <-.
    split; intros Hi Hj; destruct t; cbn [sizes_interval] in *; auto.
    + apply is_RInt_of; [|exact (K Hi Hj)]. cbn [e1]. rewrite Ee. cbn [fst snd]. rewrite !nth_tab by auto. destruct (psi1_poly n i Hn Hi) as (P & PP & HP & _). apply (ex_RInt_tot_open _ _ P _ _ PP); auto using cos_range.
    + apply is_RInt_of; [|exact (D Hi Hj)]. cbn [e1]. rewrite Eed. cbn [fst snd]. rewrite !nth_tab by auto. destruct (psid1_poly n i Hn Hi) as (P & PP & HP & _). apply (ex_RInt_tot_open _ _ P _ _ PP); auto using cos_range.
Qed.

(** component k of a basis form; where a basis function is undefined (0/0, isolated points) it counts as 0 *)
Definition comp (b : R -> R -> option (list R)) (k : nat) (x y : R) : R := match b x y with Some l => nth k l 0%R | None => 0%R end.
Definition unit_vector (n i : nat) : list R := map (fun k => if Nat.eqb k i then 1%R else 0%R) (seq 0 n).

Lemma comp_prod bx by_ w j i k x y : (forall v, nth k (w v) 0%R = v) -> comp (bprod bx by_ w j i) k x y = (tot (bx i) x * tot (by_ j) y)%R.
Proof. intro H. unfold comp, bprod, obin, tot. destruct (bx i x), (by_ j y); rewrite ?H; ring. Qed.
Lemma comp_zero bx by_ w j i k x y : (forall v, nth k (w v) 0%R = 0%R) -> comp (bprod bx by_ w j i) k x y = 0%R.
Proof. intro H. unfold comp, bprod. destruct (obin _ _ _); auto. Qed.
Lemma is_RInt_scal_r (f : R -> R) a b (v k : R) : is_RInt f a b v -> is_RInt (V := R_NormedModule) (fun x => (f x * k)%R) a b (v * k)%R.
Proof. intro H. apply (is_RInt_ext (fun x => scal k (f x))); [intros; apply Rmult_comm|]. replace (v * k)%R with (scal k v : R) by apply Rmult_comm. exact (is_RInt_scal f a b k v H). Qed.
Lemma is_RInt_scal_l (f : R -> R) a b (v k : R) : is_RInt f a b v -> is_RInt (V := R_NormedModule) (fun x => (k * f x)%R) a b (k * v)%R.
Proof. intro H. exact (is_RInt_scal f a b k v H). Qed.
Lemma RInt_zero a b : RInt (fun _ => 0%R) a b = 0%R.
Proof. rewrite RInt_const. apply Rmult_0_r. Qed.
Lemma delta_flat r c I J k : I < r -> J < c -> k < r * c -> (delta_ J (k mod c) * delta_ I (k / c))%R = if Nat.eqb k (I * c + J) then 1%R else 0%R.
Proof.
  intros HI HJ Hk. destruct (idx_div r c k Hk) as [H1 H2]. pose proof (idx_eq c k ltac:(lia)) as E. unfold delta_.
  destruct (Nat.eqb_spec k (I * c + J)) as [->|N].
  - rewrite mod_add, div_add by auto. rewrite !Nat.eqb_refl. ring.
  - destruct (Nat.eqb_spec J (k mod c)), (Nat.eqb_spec I (k / c)); try ring. exfalso. apply N. subst. lia.
Qed.
Lemma unit_tab n i : unit_vector n i = tab n (fun k => if Nat.eqb k i then 1%R else 0%R).
Proof. reflexivity. Qed.
Lemma unit_app a b i : tab (a + b) (fun k => if Nat.eqb k i then 1%R else 0%R) = tab a (fun k => if Nat.eqb k i then 1%R else 0%R) ++ tab b (fun k => if Nat.eqb (a + k) i then 1%R else 0%R).
Proof.
  apply (list_eq_nth 0%R); [now rewrite app_length, !length_tab|]. rewrite length_tab. intros k Hk. rewrite nth_tab by auto.
  destruct (Nat.ltb_spec k a).
  - rewrite app_nth1 by (rewrite length_tab; auto). now rewrite nth_tab by auto.
  - rewrite app_nth2 by (rewrite length_tab; auto). rewrite length_tab, nth_tab by lia. now replace (a + (k - a)) with k by lia.
Qed.

Section B.
Variables (gx gy : grid1) (sx sy : cells1).
Hypothesis Gx : good gx. Hypothesis Gy : good gy.
Hypothesis Ex : cells_of gx = Ok sx. Hypothesis Ey : cells_of gy = Ok sy.
Hypothesis Cx : cardinal1 gx. Hypothesis Cy : cardinal1 gy.
Notation Bx := (basis_of (kd gx) (sz gx)). Notation By := (basis_of (kd gy) (sz gy)).
Lemma cx0 t i j : i < Nd gx 0 t -> j < Nd gx 0 t -> tot (Bx 0 t i) (vt sx t j) = delta_ i j.
Proof. intros. unfold tot, vt. now rewrite (Logic.proj1 (Cx sx Ex t i j)). Qed.
Lemma cy0 t i j : i < Nd gy 0 t -> j < Nd gy 0 t -> tot (By 0 t i) (vt sy t j) = delta_ i j.
Proof. intros. unfold tot, vt. now rewrite (Logic.proj1 (Cy sy Ey t i j)). Qed.
Lemma cx1 t i j : i < Nd gx 1 t -> j < Nd gx 1 t -> is_RInt (tot (Bx 1 t i)) (el sx t j) (er sx t j) (delta_ i j).
Proof. intros. unfold el, er. now apply (proj2 (Cx sx Ex t i j)). Qed.
Lemma cy1 t i j : i < Nd gy 1 t -> j < Nd gy 1 t -> is_RInt (tot (By 1 t i)) (el sy t j) (er sy t j) (delta_ i j).
Proof. intros. unfold el, er. now apply (proj2 (Cy sy Ey t i j)). Qed.
Lemma Pn2_flat t f : exists o, tget (reshapeU (numprojection (product_cells sx sy))) (2, t) = Ok o /\
  o [f] = Ok (flat (Nd gy 1 t) (Nd gx 1 t) (fun i j => Iyx f (el sx t j) (el sy t i) (er sx t j) (er sy t i))).
Proof.
  unfold reshapeU, numprojection. rewrite (tget_map (fun _ e f => bind (e f) (fun b => bind (unshape b) (fun r => Ok (fst r))))), tget_table6 by lia. eexists. split; [reflexivity|]. cbn [one_comp bind fst snd].
  destruct (good_cells gx Gx) as (c' & E' & H). rewrite Ex in E'. injection E' as <-. destruct (H t) as (A & A1 & A2).
  destruct (good_cells gy Gy) as (c' & E' & H'). rewrite Ey in E'. injection E' as <-. destruct (H' t) as (B & B1 & B2).
  unfold product_cells, meshgrid. cbn [c2 fst snd]. rewrite A1, A2, B1, B2, !map4a_mk2. cbn [bind]. rewrite unshape_mk2. reflexivity.
Qed.
Lemma Pn01 d t : d <= 1 -> exists o o', tget (reshapeU (symprojection (product_cells sx sy))) (d, t) = Ok o /\ tget (reshapeU (numprojection (product_cells sx sy))) (d, t) = Ok o' /\ forall s, o s = o' s.
Proof.
  intro Hd. unfold reshapeU, symprojection, numprojection. rewrite !(tget_map (fun _ e f => bind (e f) (fun b => bind (unshape b) (fun r => Ok (fst r))))), !tget_table6 by lia.
  eexists _, _. split; [reflexivity|]. split; [reflexivity|]. intro s. destruct d as [|[|]]; [reflexivity|reflexivity|lia].
Qed.
End B.

(** projecting the basis form number i, symbolically or numerically, gives the i-th unit vector; numbers out
    of range raise ValueError *)
Theorem C50_basis_cardinal close gx gy G d t n : good gx -> good gy -> cardinal1 gx -> cardinal1 gy -> product close gx gy = Ok G -> d <= 2 -> tget (g2N G) (d, t) = Ok n ->
  exists B P Pn, tget (g2B G) (d, t) = Ok B /\ tget (g2P G) (d, t) = Ok P /\ tget (g2Pn G) (d, t) = Ok Pn /\
  (forall i, i < n -> exists b, B (Z.of_nat i) = Ok b /\
     let form := if Nat.eqb d 1 then [comp b 0; comp b 1] else [comp b 0] in
     P form = Ok (unit_vector n i) /\ Pn form = Ok (unit_vector n i)) /\
  (forall i, ~ (0 <= i < Z.of_nat n)%Z -> B i = Err ValueError).
Proof.
  intros Gx Gy Cx Cy EG Hd EN. destruct (product_ok close gx gy Gx Gy) as (sx & sy & G' & Ex & Ey & E & _ & _ & HN & HP & HPn & _ & HB & _). rewrite EG in E. injection E as <-.
  rewrite HN, tget_table6 in EN by auto. injection EN as <-. rewrite HP, HPn, HB, tget_table6 by auto.
  destruct d as [|[|[|]]]; [| | |lia]; clear Hd; cbn [N2 Nat.eqb shp2 basis2].
  - destruct (Pn01 sx sy 0 t ltac:(lia)) as (o & o' & Eo & Eo' & Hoo). eexists _, o, o'. split; [reflexivity|]. split; [exact Eo|]. split; [exact Eo'|]. split.
    + intros i Hi. unfold reshapeB1. destruct (idx_div _ _ _ Hi) as [H1 H2]. pose proof (idx_eq (Nd gx 0 t) i ltac:(lia)) as Ei.
      destruct (C41_arange2_single (Nd gy 0 t) (Nd gx 0 t)) as (ar & _ & _ & _ & U). destruct (U _ _ H1 H2) as [_ U']. rewrite Ei in U'. rewrite U'. cbn [bind item nth_error fst snd]. eexists. split; [reflexivity|]. cbv zeta. rewrite <- Hoo.
      set (b := bprod _ _ _ _ _). destruct (P0_flat gx gy sx sy Gx Gy Ex Ey t (comp b 0)) as (p & Ep & Hp). rewrite Eo in Ep. injection Ep as <-. rewrite Hp.
      assert (forall x : list R, x = unit_vector (Nd gy 0 t * Nd gx 0 t) i -> @Ok (list R) x = Ok (unit_vector (Nd gy 0 t * Nd gx 0 t) i) /\ Ok x = Ok (unit_vector (Nd gy 0 t * Nd gx 0 t) i)) as K by (intros x ->; auto). apply K.
      rewrite unit_tab. unfold flat, mk2. cbn [dat]. apply tab_ext. intros k Hk. destruct (idx_div _ _ _ Hk). unfold b. rewrite comp_prod by reflexivity.
      rewrite (cx0 gx sx Ex Cx), (cy0 gy sy Ey Cy) by auto. rewrite (delta_flat (Nd gy 0 t)) by auto. now rewrite Ei.
    + intros i Hi. unfold reshapeB1, unravel_index. cbn [fst snd]. destruct ((0 <=? i) && _)%Z%bool eqn:Q; [lia|reflexivity].
  - destruct (Pn01 sx sy 1 t ltac:(lia)) as (o & o' & Eo & Eo' & Hoo). eexists _, o, o'. split; [reflexivity|]. split; [exact Eo|]. split; [exact Eo'|].
    set (l := [(Nd gy 0 t, Nd gx 1 t); (Nd gy 1 t, Nd gx 0 t)]). assert (total l = Nd gy 0 t * Nd gx 1 t + Nd gy 1 t * Nd gx 0 t) as Tl by (unfold l, total; cbn; lia). split.
    + intros i Hi. unfold reshapeB1. destruct (unravel_in (Z.of_nat i) l 0 0) as (k & r & c & s & U & En & Hr & Hc & Ei); [rewrite Tl; lia|].
      unfold unravel_idx. rewrite U. cbn [Nat.add] in *. cbn [bind fst snd]. apply Nat2Z.inj in Ei.
      assert (forall x : list R, x = unit_vector (Nd gy 0 t * Nd gx 1 t + Nd gy 1 t * Nd gx 0 t) i -> @Ok (list R) x = Ok (unit_vector (Nd gy 0 t * Nd gx 1 t + Nd gy 1 t * Nd gx 0 t) i) /\ Ok x = Ok (unit_vector (Nd gy 0 t * Nd gx 1 t + Nd gy 1 t * Nd gx 0 t) i)) as K by (intros x ->; auto).
      destruct k as [|[|k]]; [| |destruct k; discriminate]; injection En as <-; cbn [fst snd] in *; cbn [item nth_error bind]; (eexists; split; [reflexivity|]); cbv zeta; rewrite <- Hoo; set (b := bprod _ _ _ _ _);
        destruct (P1_flat gx gy sx sy Gx Gy Ex Ey t (comp b 0) (comp b 1)) as (p & Ep & Hp); rewrite Eo in Ep; injection Ep as <-; rewrite Hp; apply K; rewrite unit_tab, unit_app; f_equal; unfold flat, mk2; cbn [dat]; apply tab_ext; intros k Hk; destruct (idx_div _ _ _ Hk).
      * change (total (firstn 0 l)) with 0 in Ei. cbn [Nat.add] in Ei. unfold Ix. rewrite (is_RInt_unique _ _ _ (delta_ c (k mod Nd gx 1 t) * delta_ r (k / Nd gx 1 t))%R); [rewrite (delta_flat (Nd gy 0 t)) by auto; now rewrite Ei|].
        apply (is_RInt_ext (fun x => tot (basis_of (kd gx) (sz gx) 1 t c) x * delta_ r (k / Nd gx 1 t))%R); [intros x _; unfold b; rewrite comp_prod by reflexivity; now rewrite (cy0 gy sy Ey Cy) by auto|]. apply is_RInt_scal_r. now apply (cx1 gx sx).
      * change (total (firstn 0 l)) with 0 in Ei. cbn [Nat.add] in Ei. pose proof (idx_lt _ _ _ _ Hr Hc). destruct (Nat.eqb_spec (Nd gy 0 t * Nd gx 1 t + k) i); [lia|]. unfold Iy. rewrite <- (RInt_zero (el sy t (k / Nd gx 0 t)) (er sy t (k / Nd gx 0 t))). apply RInt_ext. intros y _. unfold b. now rewrite comp_zero by reflexivity.
      * assert (total (firstn 1 l) = Nd gy 0 t * Nd gx 1 t) as T1 by (unfold l, total; cbn; lia). rewrite T1 in Ei.
        destruct (Nat.eqb_spec k i); [lia|]. unfold Ix. rewrite <- (RInt_zero (el sx t (k mod Nd gx 1 t)) (er sx t (k mod Nd gx 1 t))). apply RInt_ext. intros x _. unfold b. now rewrite comp_zero by reflexivity.
      * assert (total (firstn 1 l) = Nd gy 0 t * Nd gx 1 t) as T1 by (unfold l, total; cbn; lia). rewrite T1 in Ei.
        unfold Iy. rewrite (is_RInt_unique _ _ _ (delta_ c (k mod Nd gx 0 t) * delta_ r (k / Nd gx 0 t))%R).
        -- rewrite (delta_flat (Nd gy 1 t)) by auto. destruct (Nat.eqb_spec k (r * Nd gx 0 t + c)), (Nat.eqb_spec (Nd gy 0 t * Nd gx 1 t + k) i); auto; lia.
        -- apply (is_RInt_ext (fun y => delta_ c (k mod Nd gx 0 t) * tot (basis_of (kd gy) (sz gy) 1 t r) y)%R); [intros y _; unfold b; rewrite comp_prod by reflexivity; now rewrite (cx0 gx sx Ex Cx) by auto|]. apply is_RInt_scal_l. now apply (cy1 gy sy).
    + intros i Hi. unfold reshapeB1, unravel_idx. rewrite unravel_range; [reflexivity|]. cbn [Nat.add]. fold l. rewrite Tl. lia.
  - destruct (Pn2_flat gx gy sx sy Gx Gy Ex Ey t (fun _ _ => 0%R)) as (o' & Eo' & _). destruct (P2_flat gx gy sx sy Gx Gy Ex Ey t (fun _ _ => 0%R)) as (o & Eo & _).
    eexists _, o, o'. split; [reflexivity|]. split; [exact Eo|]. split; [exact Eo'|]. split.
    + intros i Hi. unfold reshapeB1. destruct (idx_div _ _ _ Hi) as [H1 H2]. pose proof (idx_eq (Nd gx 1 t) i ltac:(lia)) as Ei.
      destruct (C41_arange2_single (Nd gy 1 t) (Nd gx 1 t)) as (ar & _ & _ & _ & U). destruct (U _ _ H1 H2) as [_ U']. rewrite Ei in U'. rewrite U'. cbn [bind item nth_error fst snd]. eexists. split; [reflexivity|]. cbv zeta.
      set (b := bprod _ _ _ _ _). destruct (P2_flat gx gy sx sy Gx Gy Ex Ey t (comp b 0)) as (p & Ep & Hp). rewrite Eo in Ep. injection Ep as <-. rewrite Hp.
      destruct (Pn2_flat gx gy sx sy Gx Gy Ex Ey t (comp b 0)) as (p & Ep & Hp'). rewrite Eo' in Ep. injection Ep as <-. rewrite Hp'.
      assert (forall x y : list R, x = unit_vector (Nd gy 1 t * Nd gx 1 t) i -> y = unit_vector (Nd gy 1 t * Nd gx 1 t) i -> @Ok (list R) x = Ok (unit_vector (Nd gy 1 t * Nd gx 1 t) i) /\ @Ok (list R) y = Ok (unit_vector (Nd gy 1 t * Nd gx 1 t) i)) as K by (intros x y -> ->; auto).
      apply K; rewrite unit_tab; unfold flat, mk2; cbn [dat]; apply tab_ext; intros k Hk; destruct (idx_div _ _ _ Hk) as [K1 K2].
      * unfold Ixy. rewrite (is_RInt_unique _ _ _ (delta_ (i mod Nd gx 1 t) (k mod Nd gx 1 t) * delta_ (i / Nd gx 1 t) (k / Nd gx 1 t))%R); [rewrite (delta_flat (Nd gy 1 t)) by auto; now rewrite Ei|].
        eapply is_RInt_ext; [|apply is_RInt_scal_r, (cx1 gx sx Ex Cx); eauto]. intros x _. cbn beta. symmetry. apply is_RInt_unique.
        eapply is_RInt_ext; [|apply is_RInt_scal_l, (cy1 gy sy Ey Cy); eauto]. intros y _. unfold b. now rewrite comp_prod by reflexivity.
      * unfold Iyx. rewrite (is_RInt_unique _ _ _ (delta_ (i mod Nd gx 1 t) (k mod Nd gx 1 t) * delta_ (i / Nd gx 1 t) (k / Nd gx 1 t))%R); [rewrite (delta_flat (Nd gy 1 t)) by auto; now rewrite Ei|].
        eapply is_RInt_ext; [|apply is_RInt_scal_l, (cy1 gy sy Ey Cy); eauto]. intros y _. cbn beta. symmetry. apply is_RInt_unique.
        eapply is_RInt_ext; [|apply is_RInt_scal_r, (cx1 gx sx Ex Cx); eauto]. intros x _. unfold b. now rewrite comp_prod by reflexivity.
    + intros i Hi. unfold reshapeB1, unravel_index. cbn [fst snd]. destruct ((0 <=? i) && _)%Z%bool eqn:Q; [lia|reflexivity].
Qed.

(** a Chebyshev x periodic grid *)
Example C50_instance : let gx := MkGrid1 Chebyshev 4 (-1) 1 in let gy := MkGrid1 Periodic 3 0 (2 * PI) in
  exists G B P Pn, product np_isclose gx gy = Ok G /\ tget (g2B G) (1, true) = Ok B /\ tget (g2P G) (1, true) = Ok P /\ tget (g2Pn G) (1, true) = Ok Pn /\
  (exists b, B 20%Z = Ok b /\ P [comp b 0; comp b 1] = Ok (unit_vector 21 20)) /\ B 21%Z = Err ValueError.
Proof.
  cbv zeta. set (gx := MkGrid1 Chebyshev 4 (-1) 1). set (gy := MkGrid1 Periodic 3 0 (2 * PI)).
  assert (good gx /\ good gy) as [Gx Gy]. { pose proof PI_RGT_0. unfold good, gx, gy; cbn; repeat split; lia || lra. }
  assert (cardinal1 gx) as Cx by (apply C50_default_grids_cardinal; [cbn; lia|split; reflexivity]). assert (cardinal1 gy) as Cy by (apply C50_default_grids_cardinal; [cbn; lia|split; reflexivity]).
  destruct (product_ok np_isclose gx gy Gx Gy) as (sx & sy & G & _ & _ & E & _ & _ & HN & _).
  destruct (C50_basis_cardinal np_isclose gx gy G 1 true 21 Gx Gy Cx Cy E) as (B & P & Pn & H1 & H2 & H3 & H4 & H5); [lia|rewrite HN; reflexivity|].
  exists G, B, P, Pn. do 4 (split; [assumption|]). split; [|apply H5; lia]. destruct (H4 20) as (b & Eb & Hb & _); [lia|]. now exists b.
Qed.
