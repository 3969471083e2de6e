(** Masked updates and the integrals over axis-parallel edges and rectangles, for Props/Project2.v *)
From Coq Require Import ZArith Reals List Lia Lra Arith Bool.
From Coq Require Import ZifyNat ZifyBool.
From Verif Require Import Model.Sym.
From Coquelicot Require Import Coquelicot.
From Verif Require Import Model.Num Model.Np Model.Spectral Model.Basis Model.Grids1 Model.Regular Model.Chebyshev Model.Common Model.Decform Model.Grid2 Model.Integrate Model.Project2 Spec.Tiling Spec.Plane
  Proofs.ListLemmas Proofs.RIntLemmas Proofs.RingSums Proofs.Grids1P Proofs.GridsThm Proofs.Lin Proofs.TableLin Proofs.Arr2 Proofs.Grid2P Proofs.Grid2Ops Proofs.Fubini Proofs.Stokes2 Proofs.Triangle Props.Simplex.
Import ListNotations.
Local Open Scope R_scope.
Ltac Zify.zify_post_hook ::= Z.div_mod_to_equations.

(** ** masks *)
Section Mask.
Context {K : Type}.
Lemma select_map {A} (m : K -> bool) (x : K -> A) L : select (map m L) (map x L) = map x (filter m L).
Proof. unfold select. induction L as [|k L IH]; [reflexivity|]. cbn. destruct (m k); cbn; now rewrite IH. Qed.
Lemma zipw_map_same {A B D} (f : A -> B -> D) (x : K -> A) (y : K -> B) L : zipw f (map x L) (map y L) = map (fun k => f (x k) (y k)) L.
Proof. induction L as [|k L IH]; [reflexivity|]. cbn. now rewrite IH. Qed.
Lemma combine_map_same {A B} (x : K -> A) (y : K -> B) L : combine (map x L) (map y L) = map (fun k => (x k, y k)) L.
Proof. induction L as [|k L IH]; [reflexivity|]. cbn. now rewrite IH. Qed.
Lemma update_map op (m : K -> bool) (v b : K -> R) L : update op (map m L) (map v (filter m L)) (map b L) = map (fun k => if m k then op (b k) (v k) else b k) L.
Proof. induction L as [|k L IH]; [reflexivity|]. cbn. destruct (m k); cbn; now rewrite IH. Qed.
Lemma eqm_map (x : K -> R) v L : eqm (map x L) v = map (fun k => Reqb (x k) v) L.
Proof. unfold eqm. now rewrite map_map. Qed.
Lemma vals_map f m (x y : K -> R) L : vals f (map m L) (map x L, map y L) = map (fun k => f (x k) (y k)) (filter m L).
Proof. unfold vals. cbn [fst snd]. now rewrite !select_map, zipw_map_same. Qed.
Lemma zeros_map (L : list K) : zeros (length L) = map (fun _ => 0) L.
Proof. unfold zeros. induction L as [|k L IH]; [reflexivity|]. cbn [length repeat map]. f_equal. exact IH. Qed.
Lemma vec_1form_map (x0 y0 x1 y1 : K -> R) L f : vec_1form (map x0 L, map y0 L) (map x1 L, map y1 L) f =
  match L with [] => Err ValueError | _ => Ok (map (fun k => integrate_1form ((x0 k, y0 k), (x1 k, y1 k)) f) L) end.
Proof.
  unfold vec_1form, points_of. cbn [fst snd]. rewrite !combine_map_same, zipw_map_same. destruct L; reflexivity.
Qed.
Lemma vec_tri_map (x0 y0 x1 y1 x2 y2 : K -> R) L f : vec_tri (map x0 L, map y0 L) (map x1 L, map y1 L) (map x2 L, map y2 L) f =
  match L with [] => Err ValueError | _ => Ok (map (fun k => tri_integral ((x0 k, y0 k), (x1 k, y1 k), (x2 k, y2 k)) f) L) end.
Proof.
  unfold vec_tri, points_of. cbn [fst snd]. rewrite !combine_map_same, zipw_map_same. destruct L; reflexivity.
Qed.
Lemma boundary_0_map (x0 y0 x1 y1 : K -> R) L xmin xmax ymin ymax f :
  boundary_0 ((map x0 L, map y0 L), (map x1 L, map y1 L)) xmin xmax ymin ymax f =
  map (fun k => 0 - when (Reqb (x0 k) xmin) (f (x0 k) (y0 k)) + when (Reqb (x1 k) xmax) (f (x1 k) (y1 k)) - when (Reqb (y0 k) ymin) (f (x0 k) (y0 k)) + when (Reqb (y1 k) ymax) (f (x1 k) (y1 k))) L.
Proof.
  unfold boundary_0. cbn [fst snd]. rewrite !eqm_map, !vals_map, map_length, zeros_map, !update_map.
  apply map_ext. intro k. unfold when. destruct (Reqb (x0 k) xmin), (Reqb (x1 k) xmax), (Reqb (y0 k) ymin), (Reqb (y1 k) ymax); ring.
Qed.
Lemma boundary_1_map (x0 y0 x1 y1 x2 y2 x3 y3 : K -> R) L xmin xmax ymin ymax f :
  let ms := [fun k => Reqb (y0 k) ymin; fun k => Reqb (x1 k) xmax; fun k => Reqb (y2 k) ymax; fun k => Reqb (x3 k) xmin] in
  let B := boundary_1 ((map x0 L, map y0 L), (map x1 L, map y1 L), (map x2 L, map y2 L), (map x3 L, map y3 L)) xmin xmax ymin ymax f in
  ((forall m, In m ms -> filter m L <> []) -> B = Ok (map (fun k => 0 + when (Reqb (y0 k) ymin) (integrate_1form ((x0 k, y0 k), (x1 k, y1 k)) f) + when (Reqb (x1 k) xmax) (integrate_1form ((x1 k, y1 k), (x2 k, y2 k)) f)
     + when (Reqb (y2 k) ymax) (integrate_1form ((x2 k, y2 k), (x3 k, y3 k)) f) + when (Reqb (x3 k) xmin) (integrate_1form ((x3 k, y3 k), (x0 k, y0 k)) f)) L)) /\
  ((exists m, In m ms /\ filter m L = []) -> B = Err ValueError).
Proof.
  intros ms B. unfold ms, B, boundary_1, selectp. cbn [fst snd]. rewrite !eqm_map, !select_map, !vec_1form_map, map_length, zeros_map.
  split.
  - intro H. pose proof (H _ (or_introl eq_refl)) as H0. pose proof (H _ (or_intror (or_introl eq_refl))) as H1.
    pose proof (H _ (or_intror (or_intror (or_introl eq_refl)))) as H2. pose proof (H _ (or_intror (or_intror (or_intror (or_introl eq_refl))))) as H3. cbv beta in *.
    destruct (filter (fun k => Reqb (y0 k) ymin) L) as [|a0 l0] eqn:E0; [congruence|]. rewrite <- E0. cbn [bind]. rewrite update_map. clear E0 a0 l0 H0.
    destruct (filter (fun k => Reqb (x1 k) xmax) L) as [|a0 l0] eqn:E0; [congruence|]. rewrite <- E0. cbn [bind]. rewrite update_map. clear E0 a0 l0 H1.
    destruct (filter (fun k => Reqb (y2 k) ymax) L) as [|a0 l0] eqn:E0; [congruence|]. rewrite <- E0. cbn [bind]. rewrite update_map. clear E0 a0 l0 H2.
    destruct (filter (fun k => Reqb (x3 k) xmin) L) as [|a0 l0] eqn:E0; [congruence|]. rewrite <- E0. cbn [bind]. rewrite update_map. clear E0 a0 l0 H3.
    apply f_equal, map_ext. intro k. unfold when. destruct (Reqb (y0 k) ymin), (Reqb (x1 k) xmax), (Reqb (y2 k) ymax), (Reqb (x3 k) xmin); ring.
  - intros (m & Hm & E).
    destruct Hm as [<-|[<-|[<-|[<-|[]]]]]; rewrite E;
      repeat match goal with |- context [match filter ?m L with [] => _ | _ :: _ => _ end] => destruct (filter m L) end; reflexivity.
Qed.
End Mask.

(** ** axis-parallel edges *)
Lemma RInt_affine (g : R -> R) a d : (forall x, continuous g x) -> RInt (fun t => g (a + t * d) * d) 0 1 = RInt g a (a + d).
Proof.
  intro Hc. pose proof (RInt_comp_lin g d a 0 1) as E. rewrite Rmult_0_r, Rplus_0_l, Rmult_1_r, (Rplus_comm d a) in E.
  rewrite <- E by (apply ex_RInt_cont_all; auto). apply RInt_ext. intros t _. req. unfold scal. cbn. unfold mult. cbn. replace (d * t + a) with (a + t * d) by ring. ring.
Qed.
Lemma edge_x f x0 x1 y : cont2 (fun x y => fst (f x y)) -> integrate_1form ((x0, y), (x1, y)) f = Ix (fun x y => fst (f x y)) x0 x1 y.
Proof.
  intro Hc. unfold integrate_1form, Ix.
  assert (forall x, continuous (fun x => fst (f x y)) x) as Hx by (intro x; exact (cont2_x (fun x y => fst (f x y)) y x Hc)).
  pose proof (RInt_affine (fun x => fst (f x y)) x0 (x1 - x0) Hx) as E. replace (x0 + (x1 - x0)) with x1 in E by ring. rewrite <- E. apply RInt_ext. intros t _. cbv zeta. req. replace (y + t * (y - y)) with y by ring. ring.
Qed.
Lemma edge_y f x y0 y1 : cont2 (fun x y => snd (f x y)) -> integrate_1form ((x, y0), (x, y1)) f = Iy (fun x y => snd (f x y)) x y0 y1.
Proof.
  intro Hc. unfold integrate_1form, Iy.
  assert (forall y, continuous (fun y => snd (f x y)) y) as Hx by (intro y; exact (cont2_y (fun x y => snd (f x y)) x y Hc)).
  pose proof (RInt_affine (fun y => snd (f x y)) y0 (y1 - y0) Hx) as E. replace (y0 + (y1 - y0)) with y1 in E by ring. rewrite <- E. apply RInt_ext. intros t _. cbv zeta. req. replace (x + t * (x - x)) with x by ring. ring.
Qed.

(** ** rectangles: the two triangles (0, 1, 2), (0, 2, 3) of a rectangle *)
Lemma sub11 (u : R) : 1 - (1 - u) = u. Proof. ring. Qed.
Lemma pml (a b : R) : b = a + b - a. Proof. ring. Qed.
Lemma pms (a b : R) : a + (b - a) = b. Proof. ring. Qed.
Lemma lower g : cont2 g -> tri (fun s t => g (s + t) t) 1 = RInt (fun s => inn g s s) 0 1.
Proof.
  intro H. assert (cont2 (fun s t => g (1 - s) t)) as H1 by (apply (cont2_comp g (fun s _ => 1 - s) (fun _ t => t)); c2).
  assert (cont2 (fun s t => g (1 - t) s)) as H2 by (apply (cont2_comp g (fun _ t => 1 - t) (fun s _ => s)); c2).
  assert (cont2 (fun s t => g (s + t) t)) as H3 by (apply (cont2_comp g (fun s t => s + t) (fun _ t => t)); c2).
  rewrite <- (tri_fubini (fun s t => g (s + t) t) 1 H3).
  rewrite (tri_ext _ (fun s t => g (1 - (1 - s - t)) s)) by (intros s t; f_equal; ring).
  rewrite (tri_reflect (fun s t => g (1 - t) s) H2).
  rewrite (tri_fubini (fun s t => g (1 - s) t) 1 H1). unfold tri.
  assert (forall s, continuous (fun s => inn g s s) s) as Hc.
  { intro s. apply (continuous_ext (fun s => inn (fun s t => g (1 - s) t) (1 - s) (1 - (1 - s)))).
    - intro u. unfold inn. rewrite (sub11 u). reflexivity.
    - apply (continuous_comp (fun s => 1 - s) (fun s => inn (fun s t => g (1 - s) t) s (1 - s))).
      + apply (continuous_minus (V := R_NormedModule) (fun _ => 1) (fun s => s)); [apply continuous_const|apply continuous_id].
      + apply inn_cont. exact H1. }
  rewrite <- (RInt_reflect (fun s => inn g s s) 1 Hc). reflexivity.
Qed.
Lemma upper g : cont2 g -> tri (fun s t => g s (s + t)) 1 = RInt (fun s => RInt (fun t => g s t) s 1) 0 1.
Proof.
  intro H. assert (cont2 (fun s t => g s (1 - t))) as H1 by (apply (cont2_comp g (fun s _ => s) (fun _ t => 1 - t)); c2).
  rewrite (tri_ext _ (fun s t => g s (1 - (1 - s - t)))) by (intros s t; f_equal; ring).
  rewrite (tri_reflect (fun s t => g s (1 - t)) H1). unfold tri. apply RInt_ext. intros s _. unfold inn.
  pose proof (RInt_comp_lin (fun t => g s t) (-1) 1 0 (1 - s)) as E.
  replace (-1 * 0 + 1) with 1 in E by ring. replace (-1 * (1 - s) + 1) with s in E by ring.
  assert (ex_RInt (fun t => g s t) 1 s) as Ex by (apply ex_RInt_cont_all; intro t; now apply cont2_y).
  specialize (E Ex). rewrite <- (opp_RInt_swap (fun t => g s t) 1 s Ex). rewrite <- E.
  rewrite <- (RInt_opp (V := R_CompleteNormedModule)).
  - apply RInt_ext. intros t _. unfold scal, opp. cbn. unfold mult. cbn. replace (-1 * t + 1) with (1 - t) by ring. req. ring.
  - apply ex_RInt_cont_all. intro t. apply (continuous_scal_r (V := R_NormedModule) (-1)). apply (continuous_comp (fun t => -1 * t + 1) (fun t => g s t)).
    + apply (continuous_plus (V := R_NormedModule) (fun t => -1 * t) (fun _ => 1)); [|apply continuous_const]. apply (continuous_scal_r (V := R_NormedModule) (-1) (fun t => t)), continuous_id.
    + now apply cont2_y.
Qed.
Lemma square g : cont2 g -> tri (fun s t => g (s + t) t) 1 + tri (fun s t => g s (s + t)) 1 = RInt (fun s => RInt (fun t => g s t) 0 1) 0 1.
Proof.
  intro H. rewrite lower, upper by auto.
  assert (forall s, continuous (fun s => inn g s s) s) as Hc.
  { intro s. assert (cont2 (fun s t => g (1 - s) t)) as H1 by (apply (cont2_comp g (fun s _ => 1 - s) (fun _ t => t)); c2).
    apply (continuous_ext (fun s => inn (fun s t => g (1 - s) t) (1 - s) (1 - (1 - s)))).
    - intro u. unfold inn. rewrite (sub11 u). reflexivity.
    - apply (continuous_comp (fun s => 1 - s) (fun s => inn (fun s t => g (1 - s) t) s (1 - s))).
      + apply (continuous_minus (V := R_NormedModule) (fun _ => 1) (fun s => s)); [apply continuous_const|apply continuous_id].
      + apply inn_cont. exact H1. }
  assert (forall s, RInt (fun t => g s t) 0 1 = inn g s s + RInt (fun t => g s t) s 1) as Ch.
  { intro s. symmetry. unfold inn. apply (RInt_Chasles (V := R_CompleteNormedModule)); apply ex_RInt_cont_all; intro t; now apply cont2_y. }
  assert (forall s, continuous (fun s => RInt (fun t => g s t) 0 1) s) as Cf by (intro s; apply (RInt_param_cont (fun x y => g y x)); now apply cont2_swap).
  assert (RInt (fun s => RInt (fun t => g s t) s 1) 0 1 = RInt (fun s => RInt (fun t => g s t) 0 1) 0 1 - RInt (fun s => inn g s s) 0 1) as ->.
  { rewrite <- RInt_minus_R by (apply ex_RInt_cont_all; auto). apply RInt_ext. intros s _. rewrite (Ch s). exact (pml _ _). }
  exact (pms _ _).
Qed.
Lemma rectangle f x0 y0 x1 y1 : cont2 f ->
  tri_integral ((x0, y0), (x1, y0), (x1, y1)) f + tri_integral ((x0, y0), (x1, y1), (x0, y1)) f = Ixy f x0 y0 x1 y1.
Proof.
  intro H. rewrite !tri_integral_tri by auto. unfold pull.
  pose (g := fun s t => f (x0 + s * (x1 - x0)) (y0 + t * (y1 - y0))).
  assert (cont2 g) as Hg by (unfold g; apply (cont2_comp f (fun s _ => x0 + s * (x1 - x0)) (fun _ t => y0 + t * (y1 - y0))); c2).
  rewrite (tri_ext _ (fun s t => g (s + t) t)) by (intros s t; unfold g; f_equal; ring).
  match goal with |- _ * _ + _ * tri ?h 1 = _ => rewrite (tri_ext h (fun s t => g s (s + t))) by (intros s t; unfold g; f_equal; ring) end.
  replace ((x1 - x0) * (y1 - y0) - (y0 - y0) * (x1 - x0)) with ((x1 - x0) * (y1 - y0)) by ring.
  match goal with |- ?a * _ + ?b * _ = _ => replace b with ((x1 - x0) * (y1 - y0)) by ring; replace a with ((x1 - x0) * (y1 - y0)) by ring end.
  rewrite <- Rmult_plus_distr_l, square by auto. unfold Ixy.
  pose proof (RInt_affine (fun x => RInt (fun y => f x y) y0 y1) x0 (x1 - x0)) as Ea. replace (x0 + (x1 - x0)) with x1 in Ea by ring.
  rewrite <- Ea by (intro x; apply (RInt_param_cont (fun x y => f y x)); now apply cont2_swap).
  assert (forall s, continuous (fun s => RInt (fun t => g s t) 0 1) s) as Cf by (intro s; apply (RInt_param_cont (fun x y => g y x)); now apply cont2_swap).
  rewrite <- (RInt_scal (V := R_CompleteNormedModule) (fun s => RInt (fun t => g s t) 0 1) 0 1) by (apply ex_RInt_cont_all; auto).
  apply RInt_ext. intros s _. change ((x1 - x0) * (y1 - y0) * RInt (fun t => g s t) 0 1 = RInt (fun y => f (x0 + s * (x1 - x0)) y) y0 y1 * (x1 - x0)).
  assert (RInt (fun y => f (x0 + s * (x1 - x0)) y) y0 y1 = RInt (fun t => g s t * (y1 - y0)) 0 1) as ->.
  { pose proof (RInt_affine (fun y => f (x0 + s * (x1 - x0)) y) y0 (y1 - y0)) as Eb. replace (y0 + (y1 - y0)) with y1 in Eb by ring. rewrite <- Eb by (intro y; now apply cont2_y). reflexivity. }
  assert (RInt (fun t => g s t * (y1 - y0)) 0 1 = (y1 - y0) * RInt (fun t => g s t) 0 1) as ->.
  { rewrite <- (RInt_scal (V := R_CompleteNormedModule) (fun t => g s t) 0 1) by (apply ex_RInt_cont_all; intro t; now apply cont2_y). apply RInt_ext. intros t _. change (g s t * (y1 - y0) = (y1 - y0) * g s t). apply Rmult_comm. }
  generalize (RInt (fun t => g s t) 0 1 : R). intro r. req. ring.
Qed.

(** ** dual vertices lie strictly inside the interval *)
Lemma vt_inside g c j : good g -> cells_of g = Ok c -> (j < Nd g 0 false)%nat -> lo g < vt c false j < hi g.
Proof.
  intros [Hb Hl] Ec Hj. assert (kd g = Periodic \/ kd g <> Periodic) as [Hk|Hk] by (destruct (kd g); auto; right; discriminate).
  - unfold cells_of in Ec. unfold Nd in Hj. rewrite Hk in *. cbn [big_enough make_cells] in *. change (grid_N Periodic (sz g) 0 false) with (sz g) in Hj.
    destruct (sz g) as [|n] eqn:En; [lia|]. injection Ec as <-. rewrite periodic_cells_tab by (lra || lia). cbv zeta. unfold vt. cbn [v1 verts_dual]. rewrite nth_tab by auto.
    unfold pp. assert (0 < (hi g - lo g) / INR (S n)) as Hh by (apply Rdiv_lt_0_compat; [lra|apply lt_0_INR; lia]).
    pose proof (pp_step (S n) (lo g) (hi g) j) as St. pose proof (pp_0 (S n) (lo g) (hi g)) as Z0. pose proof (pp_n (S n) (lo g) (hi g) ltac:(lia)) as Zn.
    change (lo g < pp (S n) (lo g) (hi g) j + / 2 * ((hi g - lo g) / INR (S n)) < hi g).
    assert (forall k, lo g <= pp (S n) (lo g) (hi g) k) as Lo by (intro k; induction k as [|k IH]; [lra|pose proof (pp_step (S n) (lo g) (hi g) k); lra]).
    assert (forall k, (k <= S n)%nat -> (pp (S n) (lo g) (hi g) (S n - k) <= hi g)%R) as Up.
    { intros k. induction k as [|k IH]; intro Hk'; [rewrite Nat.sub_0_r; lra|]. specialize (IH ltac:(lia)). pose proof (pp_step (S n) (lo g) (hi g) (S n - S k)) as Sk. replace (S (S n - S k)) with (S n - k)%nat in Sk by lia. lra. }
    pose proof (Lo j). specialize (Up (S n - S j)%nat ltac:(lia)). replace (S n - (S n - S j))%nat with (S j) in Up by lia. lra.
  - assert (2 <= sz g)%nat as Hn by (destruct (kd g); cbn in Hb; congruence || lia).
    destruct (interval_cells_tab (kd g) (sz g) (lo g) (hi g) Hk Hn Hl) as (v & m & c' & E & V0 & Vn & Hm & Ec'). unfold cells_of in Ec. rewrite Ec in E. injection E as <-. cbv zeta in Ec'.
    assert (Nd g 0 false = sz g - 1)%nat as EN by (unfold Nd; destruct (kd g); [congruence|reflexivity|reflexivity]). rewrite EN in *.
    assert (forall j, (j < sz g)%nat -> (lo g <= v j <= hi g)%R) as Bv by (apply (mono_in (sz g) v (lo g) (hi g) V0 Vn); intros i Hi; pose proof (Hm i Hi); lra).
    subst c. unfold vt. cbn [v1 verts_dual]. rewrite nth_tab by lia. pose proof (Hm j ltac:(lia)). pose proof (Bv j ltac:(lia)). pose proof (Bv (S j) ltac:(lia)). lra.
Qed.
