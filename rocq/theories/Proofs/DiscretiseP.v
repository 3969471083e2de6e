(** Expressions as functions; discretisation of symbolic forms. *)
From Coq Require Import ZArith Reals List Lia Lra Arith Bool.
From Coq Require Import ZifyNat.
From Verif Require Import Model.Sym.
From Coquelicot Require Import Coquelicot.
From Verif Require Import Model.Num Model.Np Model.Grids1 Model.Common Model.Decform Model.Grid2 Model.Discretise Spec.Ext Spec.Sympy Spec.Tiling Spec.Plane
  Proofs.ListLemmas Proofs.RIntLemmas Proofs.GridsThm Proofs.Stokes2 Props.Symbolic Props.Refinement Props.Exact1.
Import ListNotations.
Local Open Scope R_scope.
Notation expr := Model.Sym.expr.

(** ** Names *)
Lemma orb_f a b : a || b = false -> a = false /\ b = false. Proof. destruct a, b; now split. Qed.
Lemma in_app_l {A} (v : A) a b : In v a -> In v (a ++ b). Proof. intro; apply in_or_app; auto. Qed.
Lemma in_app_r {A} (v : A) a b : In v b -> In v (a ++ b). Proof. intro; apply in_or_app; auto. Qed.
Lemma eval_agree r r' e : undefined e = false -> (forall v, In v (free e) -> sval r v = sval r' v) -> eval r e = eval r' e.
Proof.
  induction e as [c|w|f i j|a IHa b IHb|a IHa b IHb|a IHa|a IHa|a IHa n|a IHa|a IHa|a IHa|a IHa]; cbn [undefined free eval]; intros U F; try reflexivity; try discriminate.
  - apply F. now left.
  - apply orb_f in U as [Ua Ub]. rewrite IHa, IHb; auto using in_app_l, in_app_r.
  - apply orb_f in U as [Ua Ub]. rewrite IHa, IHb; auto using in_app_l, in_app_r.
  - now rewrite IHa.
  - now rewrite IHa.
  - now rewrite IHa.
  - now rewrite IHa.
  - now rewrite IHa.
  - now rewrite IHa.
  - now rewrite IHa.
Qed.
Lemma eval_subs r x w e : undefined e = false -> eval r (subs x w e) = eval (upd r x (sval r w)) e.
Proof.
  induction e as [c|v|f i j|a IHa b IHb|a IHa b IHb|a IHa|a IHa|a IHa n|a IHa|a IHa|a IHa|a IHa]; cbn [undefined eval subs]; intros U; try reflexivity; try discriminate;
    try (apply orb_f in U as [Ua Ub]; now rewrite IHa, IHb); try (now rewrite IHa).
  cbn [upd sval]. destruct (Nat.eqb v x); reflexivity.
Qed.
Lemma free_subs x w e v : In v (free (subs x w e)) -> v = w \/ (In v (free e) /\ v <> x).
Proof.
  induction e as [c|u|f i j|a IHa b IHb|a IHa b IHb|a IHa|a IHa|a IHa n|a IHa|a IHa|a IHa|a IHa]; cbn [free subs]; auto.
  - destruct (Nat.eqb_spec u x); cbn [free In]; intros [<-|[]]; auto.
  - intro H. apply in_app_or in H. destruct H as [H|H]; [apply IHa in H|apply IHb in H]; destruct H as [H|[H K]]; auto using in_app_l, in_app_r.
  - intro H. apply in_app_or in H. destruct H as [H|H]; [apply IHa in H|apply IHb in H]; destruct H as [H|[H K]]; auto using in_app_l, in_app_r.
Qed.
Lemma undef_subs x w e : undefined (subs x w e) = undefined e.
Proof. induction e as [c|u|f i j|a IHa b IHb|a IHa b IHb|a IHa|a IHa|a IHa n|a IHa|a IHa|a IHa|a IHa]; cbn [undefined subs]; auto; try (now rewrite IHa, IHb). now destruct (Nat.eqb u x). Qed.
Lemma only_spec args e : only args e = true <-> undefined e = false /\ forall v, In v (free e) -> In v args.
Proof.
  unfold only. rewrite andb_true_iff, negb_true_iff, forallb_forall. split; intros [U F]; split; auto; intros v Hv.
  - apply F in Hv. apply existsb_exists in Hv as (u & Hu & E). apply Nat.eqb_eq in E. now subst.
  - apply existsb_exists. exists v. split; auto. apply Nat.eqb_refl.
Qed.
Lemma undef_sdiff e v : undefined e = false -> undefined (sdiff e v) = false.
Proof.
  induction e as [c|u|f i j|a IHa b IHb|a IHa b IHb|a IHa|a IHa|a IHa n|a IHa|a IHa|a IHa|a IHa]; cbn [undefined sdiff]; intro U; auto; try discriminate;
    try (apply orb_f in U as [Ua Ub]; rewrite ?IHa, ?IHb, ?Ua, ?Ub; auto); try (rewrite ?IHa, ?U; auto).
  - now destruct (Nat.eqb v u).
  - destruct n as [|n]; cbn [undefined]; auto. now rewrite IHa, U.
Qed.
Lemma free_sdiff e v w : In w (free (sdiff e v)) -> In w (free e).
Proof.
  induction e as [c|u|f i j|a IHa b IHb|a IHa b IHb|a IHa|a IHa|a IHa n|a IHa|a IHa|a IHa|a IHa]; cbn [free sdiff]; auto;
    try (intro H; repeat (apply in_app_or in H; destruct H as [H|H]); auto using in_app_l, in_app_r; fail).
  - destruct (Nat.eqb v u); intros [].
  - destruct (Nat.eqb v 0), (Nat.eqb v 1); intros [].
  - destruct n as [|n]; cbn [free]; [intros []|]. intro H; repeat (apply in_app_or in H; destruct H as [H|H]); auto. destruct H.
  - intro H; repeat (apply in_app_or in H; destruct H as [H|H]); auto; cbn in H; auto; destruct H.
Qed.
Lemma only_sdiff args e v : only args e = true -> only args (sdiff e v) = true.
Proof. rewrite !only_spec. intros [U F]. split; [now apply undef_sdiff|]. intros w Hw. apply F. eapply free_sdiff; eauto. Qed.

(** ** Smoothness *)
Lemma smooth_sdiff r e v : smooth_at r e -> smooth_at r (sdiff e v).
Proof.
  induction e as [c|u|f i j|a IHa b IHb|a IHa b IHb|a IHa|a IHa|a IHa n|a IHa|a IHa|a IHa|a IHa]; cbn [smooth_at sdiff]; intro H; auto; try (destruct H as [Ha Hb]); try (cbn [smooth_at eval]; auto; fail).
  - destruct (Nat.eqb v u); exact I.
  - destruct (Nat.eqb v 0), (Nat.eqb v 1); exact I.
  - cbn [smooth_at]. auto 6.
  - destruct n as [|n]; cbn [smooth_at]; auto.
  - cbn [smooth_at eval]. repeat split; auto. assert (0 < sqrt (eval r a)) by (apply sqrt_lt_R0; auto). lra.
Qed.
Lemma smooth_agree r r' e : undefined e = false -> (forall v, In v (free e) -> sval r v = sval r' v) -> smooth_at r e -> smooth_at r' e.
Proof.
  induction e as [c|w|f i j|a IHa b IHb|a IHa b IHb|a IHa|a IHa|a IHa n|a IHa|a IHa|a IHa|a IHa]; cbn [undefined free smooth_at]; intros U F; auto; try discriminate.
  - apply orb_f in U as [Ua Ub]. intros [Ha Hb]. split; auto using in_app_l, in_app_r.
  - apply orb_f in U as [Ua Ub]. intros [Ha Hb]. split; auto using in_app_l, in_app_r.
  - intros [Ha Hb]. rewrite <- (eval_agree r r') by auto. auto.
  - intros [Ha Hb]. rewrite <- (eval_agree r r') by auto. auto.
Qed.
Lemma coherent_env args vals : coherent (env_of args vals).
Proof. intros f i j x y. cbn. split; apply (is_derive_const 0). Qed.
Lemma fn1_upd r x e t : only [x] e = true -> eval (upd r x t) e = fn1 x e t.
Proof.
  intro H. apply only_spec in H as [U F]. apply eval_agree; auto. intros v Hv. apply F in Hv. destruct Hv as [<-|[]]. cbn. now rewrite Nat.eqb_refl.
Qed.
(** no division by zero and no root of a number that is not positive, at the coordinate s *)
Definition defined1 (x : nat) (e : expr) (s : R) : Prop := smooth_at (env_of [x] [s]) e.
Lemma fn1_derive x e s : only [x] e = true -> defined1 x e s -> is_derive (fn1 x e) s (fn1 x (sdiff e x) s).
Proof.
  intros Ho Hs. pose proof (C57_diff_is_derivative (env_of [x] [s]) e x (coherent_env _ _) Hs) as H.
  cbn [env_of sval assign] in H. rewrite Nat.eqb_refl in H. eapply is_derive_ext; [|exact H]. intro t. now apply fn1_upd.
Qed.
Lemma fn1_cont x e s : only [x] e = true -> defined1 x e s -> continuous (fn1 x e) s.
Proof. intros Ho Hs. apply continuous_derivable. eexists. now apply fn1_derive. Qed.
Lemma defined1_sdiff x e v s : defined1 x e s -> defined1 x (sdiff e v) s.
Proof. apply smooth_sdiff. Qed.

(** in two variables *)
Definition defined2 (e : expr) (x y : R) : Prop := smooth_at (env_of [0%nat; 1%nat] [x; y]) e.
Lemma fn2_cont e : undefined e = false -> (forall x y, defined2 e x y) -> cont2 (fn2 e).
Proof.
  unfold cont2, defined2, fn2. set (E := env_of [0%nat; 1%nat]).
  induction e as [c|w|f i j|a IHa b IHb|a IHa b IHb|a IHa|a IHa|a IHa n|a IHa|a IHa|a IHa|a IHa]; cbn [undefined eval smooth_at]; intros U H x y; try discriminate.
  - apply continuity_2d_pt_const.
  - unfold E, env_of. cbn [sval assign]. destruct (Nat.eqb w 0); [apply continuity_2d_pt_id1|]. destruct (Nat.eqb w 1); [apply continuity_2d_pt_id2|apply continuity_2d_pt_const].
  - apply orb_f in U as [Ua Ub]. apply continuity_2d_pt_plus; [apply IHa|apply IHb]; auto; intros; apply H.
  - apply orb_f in U as [Ua Ub]. apply continuity_2d_pt_mult; [apply IHa|apply IHb]; auto; intros; apply H.
  - apply continuity_2d_pt_opp. auto.
  - apply continuity_2d_pt_inv; [|apply H]. apply IHa; auto. intros; apply H.
  - apply (continuity_1d_2d_pt_comp (fun u => u ^ n)); [|auto]. apply derivable_continuous_pt, derivable_pt_pow.
  - apply (continuity_1d_2d_pt_comp sin); [|auto]. apply continuity_sin.
  - apply (continuity_1d_2d_pt_comp cos); [|auto]. apply continuity_cos.
  - apply (continuity_1d_2d_pt_comp exp); [|auto]. apply derivable_continuous_pt, derivable_pt_exp.
  - apply (continuity_1d_2d_pt_comp sqrt); [|apply IHa; auto; intros; apply H]. apply continuity_pt_sqrt. left. apply H.
Qed.
Lemma fn2_upd_x e x y t : only [0; 1]%nat e = true -> eval (upd (env_of [0; 1]%nat [x; y]) 0 t) e = fn2 e t y.
Proof. intro H. apply only_spec in H as [U F]. apply eval_agree; auto. intros v Hv. apply F in Hv. destruct Hv as [<-|[<-|[]]]; reflexivity. Qed.
Lemma fn2_upd_y e x y t : only [0; 1]%nat e = true -> eval (upd (env_of [0; 1]%nat [x; y]) 1 t) e = fn2 e x t.
Proof. intro H. apply only_spec in H as [U F]. apply eval_agree; auto. intros v Hv. apply F in Hv. destruct Hv as [<-|[<-|[]]]; reflexivity. Qed.
Lemma fn2_C1 e : only [0; 1]%nat e = true -> (forall x y, defined2 e x y) -> C1_with (fn2 e) (fn2 (sdiff e 0)) (fn2 (sdiff e 1)).
Proof.
  intros Ho H. pose proof (Logic.proj1 (only_spec _ _) Ho) as [U _]. split; [|split; [|split]].
  - intros x y. eapply is_derive_ext; [|exact (C57_diff_is_derivative (env_of [0; 1]%nat [x; y]) e 0 (coherent_env _ _) (H x y))]. intro t. now apply fn2_upd_x.
  - intros x y. eapply is_derive_ext; [|exact (C57_diff_is_derivative (env_of [0; 1]%nat [x; y]) e 1 (coherent_env _ _) (H x y))]. intro t. now apply fn2_upd_y.
  - apply fn2_cont; [now apply undef_sdiff|]. intros x y. apply smooth_sdiff, H.
  - apply fn2_cont; [now apply undef_sdiff|]. intros x y. apply smooth_sdiff, H.
Qed.

(** ** One-dimensional discretisation *)
Lemma cell_neq x i : cell x i <> x. Proof. unfold cell. lia. Qed.
Lemma cell_01 x : cell x 0 <> cell x 1. Proof. unfold cell. lia. Qed.
Definition nonconstant (d : nat) (f : R -> R) : Prop :=
  match d with
  | 0%nat => exists a b, f a <> f b
  | _ => exists a b, (forall s, Rmin a b <= s <= Rmax a b -> continuous f s) /\ RInt f a b <> 0
  end.
Definition continuous_on_cells (c : cells1) (d : nat) (t : bool) (f : R -> R) : Prop :=
  match d with
  | 0%nat => True
  | _ => forall a b s, In (a, b) (combine (fst (e1 c t)) (snd (e1 c t))) -> Rmin a b <= s <= Rmax a b -> continuous f s
  end.

Section One.
Variable auto : expr -> expr.
Variable closed : expr -> nat -> nat -> nat -> option expr.
Hypothesis Sa : sound_auto auto.
Hypothesis Sc : sound_closed closed.
Lemma only_auto args e : only args e = true -> only args (auto e) = true.
Proof.
  rewrite !only_spec. intros [U F]. destruct (Sa e) as (_ & A & B). split; auto. destruct (undefined (auto e)); auto. now rewrite B in U.
Qed.
Lemma only_subs x w e : only [x] e = true -> only [w] (subs x w e) = true.
Proof. rewrite !only_spec, undef_subs. intros [U F]. split; auto. intros v Hv. apply free_subs in Hv as [->|[Hv N]]; [now left|]. apply F in Hv. destruct Hv as [<-|[]]. congruence. Qed.
Lemma subs_val x e t : only [x] e = true -> eval (env_of [cell x 0] [t]) (auto (subs x (cell x 0) e)) = fn1 x e t.
Proof.
  intro Ho. destruct (Sa (subs x (cell x 0) e)) as (-> & _). pose proof (Logic.proj1 (only_spec _ _) Ho) as [U _]. rewrite eval_subs by auto. rewrite fn1_upd by auto. cbn [env_of sval assign]. now rewrite Nat.eqb_refl.
Qed.
Lemma closed_only x e e' : only [x] e = true -> closed e x (cell x 0) (cell x 1) = Some e' -> only [cell x 0; cell x 1] e' = true.
Proof.
  rewrite !only_spec. intros [U F] E. destruct (Sc _ _ _ _ _ E) as (A & B & _). split; [destruct (undefined e'); auto; now rewrite B in U|].
  intros v Hv. apply A in Hv. destruct Hv as [->|[->|[Hv N]]]; [now left|right; now left|]. apply F in Hv. destruct Hv as [<-|[]]. congruence.
Qed.
Lemma closed_val x e e' a b : only [x] e = true -> closed e x (cell x 0) (cell x 1) = Some e' -> (forall s, Rmin a b <= s <= Rmax a b -> continuous (fn1 x e) s) ->
  eval (env_of [cell x 0; cell x 1] [a; b]) e' = RInt (fn1 x e) a b.
Proof.
  intros Ho E Hc. destruct (Sc _ _ _ _ _ E) as (_ & _ & V). set (r := env_of _ _) in *.
  assert (sval r (cell x 0) = a) as Ea by (cbn; now rewrite Nat.eqb_refl).
  assert (sval r (cell x 1) = b) as Eb by (cbn [r env_of sval assign]; pose proof (cell_01 x); destruct (Nat.eqb_spec (cell x 1) (cell x 0)); [congruence|now rewrite Nat.eqb_refl]).
  rewrite (V r); rewrite Ea, Eb.
  - apply RInt_ext. intros s _. now apply fn1_upd.
  - intros s Hs. eapply continuous_ext; [|now apply Hc]. intro t. symmetry. now apply fn1_upd.
Qed.
Lemma free_nil_const e : undefined e = false -> free e = [] -> forall r r', eval r e = eval r' e.
Proof. intros U F r r'. apply eval_agree; auto. rewrite F. intros v []. Qed.
Lemma lambdify_arr args e n arrays : only args e = true -> free e <> [] -> lambdify args e n arrays = Ok (Arr (tab n (fun i => eval (env_of args (map (fun a => nth i a 0) arrays)) e))).
Proof. intros Ho Hf. unfold lambdify. rewrite Ho. destruct (free e); congruence. Qed.
Lemma proj_is c d t f : proj c d t f = match d with 0%nat => map f (v1 c t) | _ => zipw (fun a b => RInt f a b) (fst (e1 c t)) (snd (e1 c t)) end.
Proof. destruct d, t; reflexivity. Qed.
Lemma zipw_combine {A B D} (f : A -> B -> D) (x : list A) (y : list B) : zipw f x y = map (fun p => f (fst p) (snd p)) (combine x y).
Proof. revert y. induction x as [|a x IH]; intros [|b y]; cbn; auto. now rewrite IH. Qed.

Lemma discretise1 id x e r c d t : (d <= 1)%nat -> only [x] e = true -> length (fst (e1 c t)) = length (snd (e1 c t)) ->
  (d = 1%nat -> closed e x (cell x 0) (cell x 1) <> None) -> continuous_on_cells c d t (fn1 x e) -> nonconstant d (fn1 x e) ->
  to_discrete1 auto closed (MkSform d (MkChart id [x]) [e]) r c t = Ok (dform_of (form r c d t (fn1 x e))).
Proof.
  intros Hd Ho L Hc Hk Hn. unfold to_discrete1, cell_coords. cbn [sdeg sgrid scomps dimension coords length Nat.eqb]. unfold dform_of, form. cbn [degree isprimal gref array]. rewrite proj_is.
  pose proof (Logic.proj1 (only_spec _ _) Ho) as [U F]. destruct d as [|[|d]]; [| |lia]; cbn [integration_1d bind single].
  - cbn [Nat.leb]. cbn [bind]. change (enumerate_coords [x] 0) with [cell x 0]. rewrite lambdify_arr.
    + cbn [bind map hd]. do 2 f_equal. f_equal. change (if t then verts c else verts_dual c) with (v1 c t). rewrite <- (tab_map (fn1 x e) (v1 c t) (length (v1 c t))) by reflexivity. apply tab_ext. intros i Hi. now apply subs_val.
    + now apply only_auto, only_subs.
    + intro Ef. destruct Hn as (a & b & Hab). apply Hab. rewrite <- !subs_val by auto. apply free_nil_const; auto. apply (Logic.proj1 (only_spec [cell x 0] _)). now apply only_auto, only_subs.
  - destruct (closed e x (cell x 0) (cell x 1)) as [e'|] eqn:E; [|now specialize (Hc eq_refl)]. cbn [process bind Nat.leb]. change (enumerate_coords [x] 1) with [cell x 0; cell x 1].
    pose proof (closed_only x e e' Ho E) as Ho'. rewrite lambdify_arr; auto.
    + cbn [bind map hd]. do 2 f_equal. f_equal. change (if t then edges c else edges_dual c) with (e1 c t). destruct (e1 c t) as [l u] eqn:Ee. cbn [fst snd] in *.
      rewrite zipw_combine. set (m := length l) in *. assert (combine l u = tab m (fun i => (nth i l 0, nth i u 0))) as Ecb.
      { apply (nth_ext _ _ (0, 0) (0, 0)); [rewrite combine_length, length_tab; unfold m in *; lia|]. intros i Hi. rewrite combine_length in Hi. rewrite nth_tab by (unfold m in *; lia). now rewrite combine_nth by (unfold m in *; lia). }
      rewrite Ecb, map_tab. apply tab_ext. intros i Hi. cbn [fst snd]. apply closed_val; auto.
      intros s Hs. apply (Hk (nth i l 0) (nth i u 0)); auto. rewrite Ee. cbn [fst snd]. rewrite Ecb. apply in_map_iff. exists i. split; auto. apply in_seq. lia.
    + intro Ef. destruct Hn as (a & b & Hab & Hne). apply Hne. rewrite <- (closed_val x e e' a b) by auto.
      rewrite (free_nil_const e' ltac:(apply (only_spec [cell x 0; cell x 1]); auto) Ef _ (env_of [cell x 0; cell x 1] [a; a])).
      rewrite (closed_val x e e' a a); auto; [apply (RInt_point (V := R_CompleteNormedModule))|]. intros s Hs. apply Hab. rewrite Rmin_left, Rmax_left in Hs by lra. assert (s = a) as -> by lra. split; [apply Rmin_l|apply Rmax_l].
Qed.
End One.

(** ** cells lie within the grid *)
Lemma tiles_range lo hi l r a b : tiles lo hi l r -> In (a, b) (combine l r) -> lo <= a /\ a < b /\ b <= hi.
Proof.
  intros (L & Hp & H0 & H1 & Hs & Hi) Hin. apply (In_nth _ _ (0, 0)) in Hin as (j & Hj & E). rewrite combine_length in Hj. rewrite combine_nth in E by auto. injection E as <- <-.
  assert (forall k, (k < length l)%nat -> lo <= nth k l 0) as A.
  { induction k as [|k IH]; intro Hk; [lra|]. specialize (IH ltac:(lia)). specialize (Hi k ltac:(lia)). rewrite Hs in Hi by lia. replace (S k) with (k + 1)%nat by lia. lra. }
  assert (forall k, (k < length l)%nat -> nth (length l - 1 - k) r 0 <= hi) as B.
  { induction k as [|k IH]; intro Hk; [rewrite L, Nat.sub_0_r; lra|]. specialize (IH ltac:(lia)). rewrite Hs by lia. specialize (Hi (length l - 1 - S k + 1)%nat ltac:(lia)). replace (length l - 1 - S k + 1)%nat with (length l - 1 - k)%nat in * by lia. lra. }
  split; [apply A; lia|]. split; [apply Hi; lia|]. specialize (B (length l - 1 - j)%nat ltac:(lia)). replace (length l - 1 - (length l - 1 - j))%nat with j in B by lia. exact B.
Qed.
