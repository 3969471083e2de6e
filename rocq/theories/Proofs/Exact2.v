(** Row and column operators on arrays that are sums of products. *)
From Coq Require Import ZArith Reals List Lia Lra Arith Bool.
From Coq Require Import ZifyNat.
From Verif Require Import Model.Sym.
From Coquelicot Require Import Coquelicot.
From Verif Require Import Model.Num Model.Np Model.Spectral Model.Basis Model.Grids1 Model.Regular Model.Chebyshev Model.Common Model.Decform Model.Grid2 Spec.Trig Spec.Poly Spec.Plane Spec.Resolved Spec.Separable
  Proofs.ListLemmas Proofs.Sums Proofs.Lin Proofs.TableLin Proofs.Arr2 Proofs.Grid2P Proofs.Grid2Ops Proofs.Stokes2 Proofs.RIntLemmas.
From Verif Require Import Props.Refinement Props.Refine2 Proofs.Wedge2.
Import ListNotations.
Local Open Scope R_scope.
Ltac Zify.zify_post_hook ::= Z.div_mod_to_equations.

Definition uvs := list ((R -> R) * (R -> R)).
Fixpoint tn (l : uvs) (A B : (R -> R) -> list R) (i j : nat) : R :=
  match l with [] => 0 | (u, v) :: l' => nth j (A u) 0 * nth i (B v) 0 + tn l' A B i j end.

Lemma onrows_zero m n g i j : lin m n g -> (j < n)%nat -> onrows m g (fun _ _ => 0) i j = 0.
Proof.
  intros L Hj. pose proof (onrows_lin m n g 1 (fun _ _ => 0) (fun _ _ => 0) (fun _ _ => 0) i j L Hj) as H. rewrite Rmult_1_l in H. specialize (H ltac:(intros; ring)). lra.
Qed.
Lemma oncols_zero m n g i j : lin m n g -> (i < n)%nat -> oncols m g (fun _ _ => 0) i j = 0.
Proof.
  intros L Hj. pose proof (oncols_lin m n g 1 (fun _ _ => 0) (fun _ _ => 0) (fun _ _ => 0) i j L Hj) as H. rewrite Rmult_1_l in H. specialize (H ltac:(intros; ring)). lra.
Qed.
Lemma tab_self (x : list R) m : length x = m -> tab m (fun k => nth k x 0) = x.
Proof. intro L. apply (list_eq_nth 0); [now rewrite length_tab|]. rewrite length_tab. intros i Hi. now rewrite nth_tab by lia. Qed.
Lemma onrows_tn m n g l A A' B i j : lin m n g -> (forall u v, In (u, v) l -> length (A u) = m /\ g (A u) = A' u) -> (j < n)%nat ->
  onrows m g (tn l A B) i j = tn l A' B i j.
Proof.
  intros L H Hj. induction l as [|[u v] l IH]; [now apply (onrows_zero m n)|].
  rewrite (onrows_lin m n g (nth i (B v) 0) (fun _ k => nth k (A u) 0) (tn l A B) (tn ((u, v) :: l) A B) i j L Hj) by (intros k Hk; cbn [tn]; ring).
  rewrite IH by (intros; apply (H u0 v0); cbn; auto). cbn [tn]. destruct (H u v ltac:(cbn; auto)) as [Lu E]. unfold onrows. rewrite tab_self by auto. rewrite E. ring.
Qed.
Lemma oncols_tn m n g l A B B' i j : lin m n g -> (forall u v, In (u, v) l -> length (B v) = m /\ g (B v) = B' v) -> (i < n)%nat ->
  oncols m g (tn l A B) i j = tn l A B' i j.
Proof.
  intros L H Hj. induction l as [|[u v] l IH]; [now apply (oncols_zero m n)|].
  rewrite (oncols_lin m n g (nth j (A u) 0) (fun k _ => nth k (B v) 0) (tn l A B) (tn ((u, v) :: l) A B) i j L Hj) by (intros k Hk; cbn [tn]; ring).
  rewrite IH by (intros; apply (H u0 v0); cbn; auto). cbn [tn]. destruct (H u v ltac:(cbn; auto)) as [Lu E]. unfold oncols. rewrite tab_self by auto. rewrite E. ring.
Qed.
Lemma along1_tn o r m n l A A' B : (0 < r)%nat -> rlin m n o -> (forall u v, In (u, v) l -> length (A u) = m /\ o (A u) = Ok (A' u)) ->
  along1 o (mk2 r m (tn l A B)) = Ok (mk2 r n (tn l A' B)).
Proof.
  intros Hr (g & L & E) H. rewrite (along1_flat o g r m n) by auto. apply f_equal, mk2_ext. intros i j Hi Hj. apply (onrows_tn m n); auto.
  intros u v Hin. destruct (H u v Hin) as [Lu Eo]. split; auto. rewrite E in Eo by auto. now injection Eo.
Qed.
Lemma along0_tn o c m n l A B B' : (0 < c)%nat -> rlin m n o -> (forall u v, In (u, v) l -> length (B v) = m /\ o (B v) = Ok (B' v)) ->
  along0 o (mk2 m c (tn l A B)) = Ok (mk2 n c (tn l A B')).
Proof.
  intros Hr (g & L & E) H. rewrite (along0_flat o g c m n) by auto. apply f_equal, mk2_ext. intros i j Hi Hj. apply (oncols_tn m n); auto.
  intros u v Hin. destruct (H u v Hin) as [Lu Eo]. split; auto. rewrite E in Eo by auto. now injection Eo.
Qed.

(** projections of sums of products *)
Lemma nth_proj0 c t u j : (j < length (v1 c t))%nat -> nth j (proj c 0 t u) 0 = u (vt c t j).
Proof. intro H. unfold vt. destruct t; cbn [proj v1] in *; unfold P0, P0d, proj0; rewrite (nth_indep _ 0 (u 0)) by (rewrite map_length; auto); apply map_nth. Qed.
Lemma nth_proj1 c t u j : (j < length (fst (e1 c t)))%nat -> length (fst (e1 c t)) = length (snd (e1 c t)) -> nth j (proj c 1 t u) 0 = RInt u (el c t j) (er c t j).
Proof. intros H L. unfold el, er. destruct t; cbn [proj e1] in *; unfold P1, P1d; apply nth_P1; auto. Qed.
Definition conts (l : uvs) : Prop := forall u v, In (u, v) l -> (forall x, continuous u x) /\ (forall y, continuous v y).
Lemma conts_cons u v l : conts ((u, v) :: l) -> (forall x, continuous u x) /\ (forall y, continuous v y) /\ conts l.
Proof. intro H. destruct (H u v); [cbn; auto|]. split; auto. split; auto. intros u' v' K. apply H. cbn. auto. Qed.
Lemma cont_sum_x l y : conts l -> forall x, continuous (fun x => sum_uv l x y) x.
Proof.
  induction l as [|[u v] l IH]; intros H x; cbn [sum_uv]; [apply continuous_const|]. apply conts_cons in H as (Hu & Hv & H).
  apply (continuous_plus (fun x => u x * v y)); [|now apply IH]. apply (continuous_mult u); [auto|apply continuous_const].
Qed.
Lemma cont_sum_y l x : conts l -> forall y, continuous (fun y => sum_uv l x y) y.
Proof.
  induction l as [|[u v] l IH]; intros H y; cbn [sum_uv]; [apply continuous_const|]. apply conts_cons in H as (Hu & Hv & H).
  apply (continuous_plus (fun y => u x * v y)); [|now apply IH]. apply (continuous_mult (fun _ => u x)); [apply continuous_const|auto].
Qed.
Lemma ex_RInt_cont (f : R -> R) a b : (forall x, continuous f x) -> ex_RInt f a b.
Proof. intro H. apply (ex_RInt_continuous (V := R_CompleteNormedModule)). auto. Qed.
Lemma RInt_lin2 (f g : R -> R) c a b : (forall x, continuous f x) -> (forall x, continuous g x) -> RInt (fun x => f x * c + g x) a b = RInt f a b * c + RInt g a b.
Proof.
  intros Hf Hg. rewrite (RInt_ext _ (fun x => plus (scal c (f x)) (g x))) by (intros; cbn; ring).
  rewrite (RInt_plus (V := R_CompleteNormedModule)). 2: { apply (ex_RInt_scal (V := R_NormedModule)), ex_RInt_cont; auto. } 2: { apply ex_RInt_cont; auto. }
  rewrite (RInt_scal (V := R_CompleteNormedModule)) by (apply ex_RInt_cont; auto). cbn. ring.
Qed.
Lemma Ix_sum l x0 x1 y : conts l -> Ix (sum_uv l) x0 x1 y = sum_uv (map (fun p => (fun _ => RInt (fst p) x0 x1, snd p)) l) 0 y.
Proof.
  intro H. unfold Ix. induction l as [|[u v] l IH]; cbn [sum_uv map fst snd].
  - rewrite (RInt_const (V := R_CompleteNormedModule)). cbn. ring.
  - apply conts_cons in H as (Hu & Hv & H). rewrite <- IH by auto. apply RInt_lin2; auto. intro. now apply cont_sum_x.
Qed.
Lemma Iy_sum l x y0 y1 : conts l -> Iy (sum_uv l) x y0 y1 = sum_uv (map (fun p => (fst p, fun _ => RInt (snd p) y0 y1)) l) x 0.
Proof.
  intro H. unfold Iy. induction l as [|[u v] l IH]; cbn [sum_uv map fst snd].
  - rewrite (RInt_const (V := R_CompleteNormedModule)). cbn. ring.
  - apply conts_cons in H as (Hu & Hv & H). rewrite <- IH by auto. rewrite (RInt_ext _ (fun y => v y * u x + sum_uv l x y)) by (intros; cbn; ring).
    rewrite RInt_lin2; auto; [|intro; now apply cont_sum_y]. apply f_equal2; [|reflexivity]. apply Rmult_comm.
Qed.
Lemma Ixy_sum l x0 y0 x1 y1 : conts l -> Ixy (sum_uv l) x0 y0 x1 y1 = sum_uv (map (fun p => (fun _ => RInt (fst p) x0 x1, fun _ => RInt (snd p) y0 y1)) l) 0 0.
Proof.
  intro H. unfold Ixy. rewrite (RInt_ext _ (fun x => sum_uv (map (fun p => (fst p, fun _ => RInt (snd p) y0 y1)) l) x 0)).
  2: { intros x _. exact (Iy_sum l x y0 y1 H). }
  assert (conts (map (fun p => (fst p, fun _ => RInt (snd p) y0 y1)) l)) as H'.
  { intros u v K. apply in_map_iff in K as ([u' v'] & E & K). injection E as <- <-. split; [apply (H _ _ K)|intro; apply continuous_const]. }
  pose proof (Ix_sum _ x0 x1 0 H') as E. unfold Ix in E. rewrite E. f_equal. now rewrite map_map.
Qed.

Section P.
Variables (gx gy : grid1) (sx sy : cells1).
Hypotheses (Ex : cells_of gx = Ok sx) (Ey : cells_of gy = Ok sy) (Gx : good gx) (Gy : good gy).
Lemma lens g c t : good g -> cells_of g = Ok c -> length (v1 c t) = Nd g 0 t /\ length (fst (e1 c t)) = Nd g 1 t /\ length (snd (e1 c t)) = Nd g 1 t.
Proof. intros H E. destruct (good_cells g H) as (c' & E' & K). rewrite E in E'. injection E' as <-. apply K. Qed.
Definition pj (l : uvs) (dx dy : nat) (t : bool) : list R := flat (Nd gy dy t) (Nd gx dx t) (tn l (proj sx dx t) (proj sy dy t)).
Lemma P_sep0 t l f : conts l -> (forall x y, f x y = sum_uv l x y) ->
  flat (Nd gy 0 t) (Nd gx 0 t) (fun i j => f (vt sx t j) (vt sy t i)) = pj l 0 0 t.
Proof.
  intros H E. apply flat_ext. intros i j Hi Hj. rewrite E. destruct (lens gx sx t Gx Ex) as (Lx & _). destruct (lens gy sy t Gy Ey) as (Ly & _).
  clear H E. induction l as [|[u v] l IH]; cbn [sum_uv tn]; [reflexivity|]. rewrite IH, !nth_proj0 by lia. reflexivity.
Qed.
Lemma P_sep1 t l f : conts l -> (forall x y, f x y = sum_uv l x y) ->
  flat (Nd gy 0 t) (Nd gx 1 t) (fun i j => Ix f (el sx t j) (er sx t j) (vt sy t i)) = pj l 1 0 t.
Proof.
  intros H E. apply flat_ext. intros i j Hi Hj. destruct (lens gx sx t Gx Ex) as (_ & Lx & Lx'). destruct (lens gy sy t Gy Ey) as (Ly & _).
  transitivity (Ix (sum_uv l) (el sx t j) (er sx t j) (vt sy t i)); [unfold Ix; apply RInt_ext; intros; apply E|]. rewrite Ix_sum by auto.
  clear H E. induction l as [|[u v] l IH]; cbn [sum_uv map tn fst snd]; [reflexivity|]. rewrite IH, nth_proj0, nth_proj1 by lia. reflexivity.
Qed.
Lemma P_sep1' t l f : conts l -> (forall x y, f x y = sum_uv l x y) ->
  flat (Nd gy 1 t) (Nd gx 0 t) (fun i j => Iy f (vt sx t j) (el sy t i) (er sy t i)) = pj l 0 1 t.
Proof.
  intros H E. apply flat_ext. intros i j Hi Hj. destruct (lens gx sx t Gx Ex) as (Lx & _). destruct (lens gy sy t Gy Ey) as (_ & Ly & Ly').
  transitivity (Iy (sum_uv l) (vt sx t j) (el sy t i) (er sy t i)); [unfold Iy; apply RInt_ext; intros; apply E|]. rewrite Iy_sum by auto.
  clear H E. induction l as [|[u v] l IH]; cbn [sum_uv map tn fst snd]; [reflexivity|]. rewrite IH, nth_proj0, nth_proj1 by lia. reflexivity.
Qed.
Lemma P_sep2 t l f : conts l -> (forall x y, f x y = sum_uv l x y) ->
  flat (Nd gy 1 t) (Nd gx 1 t) (fun i j => Ixy f (el sx t j) (el sy t i) (er sx t j) (er sy t i)) = pj l 1 1 t.
Proof.
  intros H E. apply flat_ext. intros i j Hi Hj. destruct (lens gx sx t Gx Ex) as (_ & Lx & Lx'). destruct (lens gy sy t Gy Ey) as (_ & Ly & Ly').
  transitivity (Ixy (sum_uv l) (el sx t j) (el sy t i) (er sx t j) (er sy t i)); [unfold Ixy; apply RInt_ext; intros; apply RInt_ext; intros; apply E|]. rewrite Ixy_sum by auto.
  clear H E. induction l as [|[u v] l IH]; cbn [sum_uv map tn fst snd]; [reflexivity|]. rewrite IH, !nth_proj1 by lia. reflexivity.
Qed.
End P.
