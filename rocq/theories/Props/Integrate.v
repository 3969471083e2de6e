(** C67, C68, C71: the quadrature rules and the integrals of forms of dec/integrate.py. *)
From Coq Require Import Reals List Lia Lra.
From Coquelicot Require Import Coquelicot.
From Verif Require Import Model.Num Model.Np Model.Integrate Spec.Poly Proofs.ListLemmas Proofs.RIntLemmas.
Import ListNotations.
Local Open Scope R_scope.

Lemma is_RInt_pow n a b : is_RInt (fun x => x ^ n) a b ((b ^ S n - a ^ S n) / INR (S n)).
Proof.
  replace ((b ^ S n - a ^ S n) / INR (S n)) with (b ^ S n / INR (S n) - a ^ S n / INR (S n)) by (field; apply not_0_INR; lia).
  apply (is_RInt_der (fun x => x ^ S n / INR (S n)) (fun x => x ^ n)).
  - intro x. auto_derive; auto. change (match n with O => 1 | S _ => INR n + 1 end) with (INR (S n)). cbn [pred]. field. apply not_0_INR; lia.
  - intro x. apply (ex_derive_continuous (fun x => x ^ n)). auto_derive; auto.
Qed.
Lemma RInt_poly d p c a b : (forall x, p x = Rsum (S d) (fun i => c i * x ^ i)) -> RInt p a b = Rsum (S d) (fun i => c i * ((b ^ S i - a ^ S i) / INR (S i))).
Proof.
  intro E. apply is_RInt_unique. apply (is_RInt_ext_all (fun x => Rsum (S d) (fun i => c i * x ^ i))); [intro; now rewrite E|].
  apply is_RInt_Rsum. intros i _. apply is_RInt_scal_R, is_RInt_pow.
Qed.

(** ** C67 *)
Theorem C67_simpson_exact a b p : polynomial 3 p -> integrate_simpson a b p = RInt p a b.
Proof. intros [c E]. rewrite (RInt_poly 3 p c a b E). unfold integrate_simpson. rewrite !E. cbn [Rsum pow INR]. field. Qed.
Theorem C67_boole_exact a b p : polynomial 5 p -> integrate_boole a b p = RInt p a b.
Proof. intros [c E]. rewrite (RInt_poly 5 p c a b E). unfold integrate_boole. rewrite !E. cbn [Rsum pow INR]. field. Qed.
(** the order is not higher: the error on the next monomial, which is not zero unless a = b *)
Theorem C67_order a b :
  integrate_simpson a b (fun x => x ^ 4) - RInt (fun x => x ^ 4) a b = (b - a) ^ 5 / 120 /\
  integrate_boole a b (fun x => x ^ 6) - RInt (fun x => x ^ 6) a b = (b - a) ^ 7 / 2688 /\
  (a <> b -> integrate_simpson a b (fun x => x ^ 4) <> RInt (fun x => x ^ 4) a b /\ integrate_boole a b (fun x => x ^ 6) <> RInt (fun x => x ^ 6) a b).
Proof.
  assert (integrate_simpson a b (fun x => x ^ 4) - RInt (fun x => x ^ 4) a b = (b - a) ^ 5 / 120) as S1.
  { rewrite (is_RInt_unique _ _ _ _ (is_RInt_pow 4 a b)). unfold integrate_simpson. cbn [pow INR]. field. }
  assert (integrate_boole a b (fun x => x ^ 6) - RInt (fun x => x ^ 6) a b = (b - a) ^ 7 / 2688) as S2.
  { rewrite (is_RInt_unique _ _ _ _ (is_RInt_pow 6 a b)). unfold integrate_boole. cbn [pow INR]. field. }
  split; auto. split; auto. intro H. assert (forall n, (b - a) ^ n <> 0) as P by (intro; apply pow_nonzero; lra).
  split; intro E.
  - rewrite E, Rminus_diag_eq in S1 by reflexivity. apply (P 5%nat). lra.
  - rewrite E, Rminus_diag_eq in S2 by reflexivity. apply (P 7%nat). lra.
Qed.
Theorem C67_linear_antisymmetric a b r (f g : R -> R) :
  integrate_simpson a b (fun x => r * f x + g x) = r * integrate_simpson a b f + integrate_simpson a b g /\
  integrate_boole a b (fun x => r * f x + g x) = r * integrate_boole a b f + integrate_boole a b g /\
  integrate_simpson b a f = - integrate_simpson a b f /\ integrate_boole b a f = - integrate_boole a b f.
Proof.
  unfold integrate_simpson, integrate_boole. split; [field|]. split; [field|]. split.
  - replace ((b + a) / 2) with ((a + b) / 2) by field. field.
  - replace (b + (a - b) / 4) with (a + 3 * ((b - a) / 4)) by field. replace (b + 2 * ((a - b) / 4)) with (a + 2 * ((b - a) / 4)) by field. replace (b + 3 * ((a - b) / 4)) with (a + (b - a) / 4) by field. field.
Qed.
(** integrate_boole1: one entry per pair of consecutive nodes *)
Theorem C67_boole1 x p i : polynomial 5 p -> (i + 1 < length x)%nat -> length (integrate_boole1 x p) = (length x - 1)%nat /\ nth i (integrate_boole1 x p) 0 = RInt p (nth i x 0) (nth (i + 1) x 0).
Proof.
  intros P Hi. unfold integrate_boole1, init. split.
  - rewrite length_zipw, length_removelast, length_tl. lia.
  - rewrite (nth_zipw _ _ _ _ 0 0) by (rewrite ?length_removelast, ?length_tl; lia). rewrite nth_removelast, nth_tl by lia. rewrite Nat.add_1_r. now apply C67_boole_exact.
Qed.
(** the rule along a segment of the plane: the integral with respect to arc length *)
Theorem C67_boole2 x1 x5 f : let len := sqrt ((fst x5 - fst x1) ^ 2 + (snd x5 - snd x1) ^ 2) in
  polynomial 5 (fun t => f (fst x1 + t * (fst x5 - fst x1)) (snd x1 + t * (snd x5 - snd x1))) ->
  integrate_boole2 x1 x5 f = len * RInt (fun t => f (fst x1 + t * (fst x5 - fst x1)) (snd x1 + t * (snd x5 - snd x1))) 0 1.
Proof.
  intros len P. rewrite <- (C67_boole_exact 0 1 _ P). unfold integrate_boole2, integrate_boole. cbn [fst snd].
  set (a := fst x5 - fst x1) in *. set (b := snd x5 - snd x1) in *.
  replace ((a / 4) ^ 2 + (b / 4) ^ 2) with ((/ 4) ^ 2 * (a ^ 2 + b ^ 2)) by field. rewrite sqrt_mult_alt by (apply pow2_ge_0). rewrite sqrt_pow2 by lra. fold len.
  replace (0 + (1 - 0) / 4) with (1 * / 4) by field. replace (0 + 2 * ((1 - 0) / 4)) with (2 * / 4) by field. replace (0 + 3 * ((1 - 0) / 4)) with (3 * / 4) by field.
  assert (forall k x t, x + k * (t / 4) = x + (k * / 4) * t) as K by (intros; field). rewrite !K.
  replace (fst x5) with (fst x1 + 1 * a) by (unfold a; ring). replace (snd x5) with (snd x1 + 1 * b) by (unfold b; ring).
  replace (0 * / 4) with 0 by ring. field.
Qed.
Example C67_instance : polynomial 3 (fun x => x ^ 3 - x) /\ integrate_simpson (-1) 3 (fun x => x ^ 3 - x) = 16.
Proof.
  split; [|unfold integrate_simpson; field]. exists (fun i => match i with 1%nat => -1 | 3%nat => 1 | _ => 0 end). intro x. cbn [Rsum]. ring.
Qed.

(** ** C68 *)
Lemma cont_line (g : R -> R -> R) x0 y0 dx dy t : continuity_2d_pt g (x0 + t * dx) (y0 + t * dy) -> continuous (fun t => g (x0 + t * dx) (y0 + t * dy)) t.
Proof.
  intros Hg P [e He]. destruct (Hg e) as [d Hd].
    assert (forall m : R, locally t (fun u => Rabs ((u - t) * m) < d)) as L.
    { intro m. assert (0 < d / (Rabs m + 1)) as Hp. { apply Rdiv_lt_0_compat; [apply cond_pos|]. pose proof (Rabs_pos m). lra. }
      exists (mkposreal _ Hp). intros u Hu. change (Rabs (u - t) < d / (Rabs m + 1)) in Hu. rewrite Rabs_mult. pose proof (Rabs_pos m). pose proof (Rabs_pos (u - t)).
      apply Rle_lt_trans with (Rabs (u - t) * (Rabs m + 1)); [apply Rmult_le_compat_l; lra|]. apply Rlt_le_trans with (d / (Rabs m + 1) * (Rabs m + 1)); [apply Rmult_lt_compat_r; lra|]. right. field. lra. }
    unfold filtermap. eapply filter_imp; [|exact (filter_and _ _ (L dx) (L dy))]. intros u [H1 H2]. apply He. apply Hd; [replace (x0 + u * dx - (x0 + t * dx)) with ((u - t) * dx) by ring|replace (y0 + u * dy - (y0 + t * dy)) with ((u - t) * dy) by ring]; assumption.
Qed.
Definition rev_edge (e : point * point) := (snd e, fst e).
(** a C1 potential: F has the continuous partial derivatives fst f, snd f *)
Theorem C68_exact_form e F f : (forall x y, differentiable_pt_lim F x y (fst (f x y)) (snd (f x y))) ->
  (forall x y, continuity_2d_pt (fun x y => fst (f x y)) x y) -> (forall x y, continuity_2d_pt (fun x y => snd (f x y)) x y) ->
  integrate_1form e f = F (fst (snd e)) (snd (snd e)) - F (fst (fst e)) (snd (fst e)).
Proof.
  intros D C1 C2. destruct e as [[x0 y0] [x1 y1]]. unfold integrate_1form. cbn [fst snd]. set (dx := x1 - x0). set (dy := y1 - y0).
  set (G := fun t => F (x0 + t * dx) (y0 + t * dy)).
  replace (F x1 y1) with (G 1) by (unfold G, dx, dy; f_equal; ring). replace (F x0 y0) with (G 0) by (unfold G; f_equal; ring).
  apply is_RInt_unique. apply (is_RInt_der G).
  - intro t. unfold G. apply is_derive_Reals. 
    pose proof (derivable_pt_lim_comp_2d F (fun t => x0 + t * dx) (fun t => y0 + t * dy) t (fst (f (x0 + t * dx) (y0 + t * dy))) (snd (f (x0 + t * dx) (y0 + t * dy))) dx dy (D _ _)) as K.
    apply K; apply is_derive_Reals; auto_derive; auto; ring.
  - intro t. apply (continuous_plus (fun t => fst (f (x0 + t * dx) (y0 + t * dy)) * dx) (fun t => snd (f (x0 + t * dx) (y0 + t * dy)) * dy)).
    + apply (continuous_mult (fun t => fst (f (x0 + t * dx) (y0 + t * dy))) (fun _ => dx)); [apply (cont_line (fun x y => fst (f x y))), C1|apply continuous_const].
    + apply (continuous_mult (fun t => snd (f (x0 + t * dx) (y0 + t * dy))) (fun _ => dy)); [apply (cont_line (fun x y => snd (f x y))), C2|apply continuous_const].
Qed.

Definition continuous_form (f : R -> R -> point) : Prop := forall x y, continuity_2d_pt (fun x y => fst (f x y)) x y /\ continuity_2d_pt (fun x y => snd (f x y)) x y.
Lemma cont_integrand f x0 y0 dx dy t : continuous_form f -> continuous (fun t => fst (f (x0 + t * dx) (y0 + t * dy)) * dx + snd (f (x0 + t * dx) (y0 + t * dy)) * dy) t.
Proof.
  intro C. apply (continuous_plus (fun t => fst (f (x0 + t * dx) (y0 + t * dy)) * dx) (fun t => snd (f (x0 + t * dx) (y0 + t * dy)) * dy)).
  - apply (continuous_mult (fun t => fst (f (x0 + t * dx) (y0 + t * dy))) (fun _ => dx)); [apply (cont_line (fun x y => fst (f x y))), C|apply continuous_const].
  - apply (continuous_mult (fun t => snd (f (x0 + t * dx) (y0 + t * dy))) (fun _ => dy)); [apply (cont_line (fun x y => snd (f x y))), C|apply continuous_const].
Qed.
Theorem C68_reverse e f : continuous_form f -> integrate_1form (rev_edge e) f = - integrate_1form e f.
Proof.
  intro C. destruct e as [[x0 y0] [x1 y1]]. unfold rev_edge, integrate_1form. cbn [fst snd].
  set (g := fun t => fst (f (x0 + t * (x1 - x0)) (y0 + t * (y1 - y0))) * (x1 - x0) + snd (f (x0 + t * (x1 - x0)) (y0 + t * (y1 - y0))) * (y1 - y0)).
  assert (forall a b, ex_RInt g a b) as Ex by (intros; apply ex_RInt_cont_all; intro; now apply cont_integrand).
  rewrite (RInt_ext _ (fun t => scal (-1) (g (-1 * t + 1)))).
  - etransitivity; [exact (RInt_comp_lin g (-1) 1 0 1 (Ex _ _))|]. replace (-1 * 0 + 1) with 1 by ring. replace (-1 * 1 + 1) with 0 by ring. rewrite <- (opp_RInt_swap g 0 1) by apply Ex. reflexivity.
  - intros t _. unfold scal; cbn; unfold mult; cbn. unfold g. replace (x0 + (-1 * t + 1) * (x1 - x0)) with (x1 + t * (x0 - x1)) by ring. replace (y0 + (-1 * t + 1) * (y1 - y0)) with (y1 + t * (y0 - y1)) by ring. ring.
Qed.

(** the area of a polygon by the shoelace formula *)
Definition cross (p q : point) : R := fst p * snd q - fst q * snd p.
Fixpoint chain (l : list point) : R := match l with p :: ((q :: _) as l') => cross p q + chain l' | _ => 0 end.
Definition shoelace (l : list point) : R := match l with [] => 0 | a :: _ => / 2 * chain (l ++ [a]) end.
Lemma tri_const a b c k : tri_integral (a, b, c) (fun _ _ => k) = k * (/ 2 * (cross b c + cross c a + cross a b)).
Proof.
  destruct a as [x0 y0], b as [x1 y1], c as [x2 y2]. unfold tri_integral, cross. cbn [fst snd]. set (A := (x1 - x0) * (y2 - y0) - (y1 - y0) * (x2 - x0)).
  rewrite (RInt_ext _ (fun v => (k * A) * (1 - v))).
  - apply is_RInt_unique. match goal with |- is_RInt _ _ _ ?v => replace v with (k * A * (1 - 1 ^ 2 / 2) - k * A * (0 - 0 ^ 2 / 2)) by (unfold A; field) end.
    apply (is_RInt_der (fun v => k * A * (v - v ^ 2 / 2)) (fun v => k * A * (1 - v))).
    + intro v. auto_derive; auto. field.
    + intro v. apply (ex_derive_continuous (fun v => k * A * (1 - v))). auto_derive; auto.
  - intros v _. rewrite RInt_const. unfold scal; cbn; unfold mult; cbn. ring.
Qed.
Lemma fold_plus l a : fold_left Rplus l a = a + fold_left Rplus l 0.
Proof. revert a. induction l as [|x l IH]; intro a; cbn; [ring|]. rewrite IH, (IH (0 + x)). ring. Qed.
Lemma fan a k b l : fold_left Rplus (zipw (fun b c => tri_integral (a, b, c) (fun _ _ => k)) (removelast (b :: l)) l) 0 = k * (/ 2 * (chain (b :: l) + cross (last (b :: l) b) a + cross a b)).
Proof.
  revert b. induction l as [|c l IH]; intro b.
  - cbn. unfold cross. field.
  - change (removelast (b :: c :: l)) with (b :: removelast (c :: l)). cbn [zipw fold_left]. rewrite fold_plus, IH, tri_const.
    change (chain (b :: c :: l)) with (cross b c + chain (c :: l)). replace (last (b :: c :: l) b) with (last (c :: l) c).
    + unfold cross. field.
    + clear. revert b c. induction l as [|d l IH]; intros; [reflexivity|]. change (last (c :: d :: l) c) with (last (d :: l) c). rewrite (IH c c) || idtac. change (last (b :: c :: d :: l) b) with (last (d :: l) b). clear. revert d. induction l as [|e l IH]; intro d; [reflexivity|]. exact (IH e).
Qed.
Lemma chain_snoc l b a : chain (b :: l ++ [a]) = chain (b :: l) + cross (last (b :: l) b) a.
Proof.
  revert b. induction l as [|c l IH]; intro b; [cbn; ring|].
  change (chain (b :: (c :: l) ++ [a])) with (cross b c + chain (c :: l ++ [a])). rewrite IH. change (chain (b :: c :: l)) with (cross b c + chain (c :: l)).
  assert (last (b :: c :: l) b = last (c :: l) c) as ->; [|ring]. change (last (b :: c :: l) b) with (last (c :: l) b). clear. revert c. induction l as [|e l IH]; intro d; [reflexivity|]. 
  change (last (e :: l) b = last (e :: l) d). clear. revert e. induction l as [|f l IH]; intro e; [reflexivity|]. exact (IH f).
Qed.
Theorem C68_polygon_area l k : l <> [] -> integrate_2form l (fun _ _ => k) = Ok (k * shoelace l).
Proof.
  destruct l as [|a l]; [congruence|]. intros _. unfold integrate_2form. apply f_equal. destruct l as [|b l].
  - cbn. unfold cross. field.
  - change (inner (a :: b :: l)) with (removelast (b :: l)). change (skipn 2 (a :: b :: l)) with l. rewrite fan. unfold shoelace.
    change (chain ((a :: b :: l) ++ [a])) with (cross a b + chain (b :: l ++ [a])). rewrite chain_snoc. field.
Qed.
(** it does not depend on the vertex the polygon starts at, and changes sign with the orientation *)
Theorem C68_rotate a l k : l <> [] -> integrate_2form (l ++ [a]) (fun _ _ => k) = integrate_2form (a :: l) (fun _ _ => k).
Proof.
  intro H. rewrite !C68_polygon_area; [|congruence|now destruct l]. do 2 f_equal. destruct l as [|b l]; [congruence|]. unfold shoelace. apply f_equal. cbn [app].
  change (chain (a :: b :: l ++ [a])) with (cross a b + chain (b :: l ++ [a])). rewrite <- app_assoc. cbn [app].
  replace (chain (b :: l ++ [a; b])) with (chain (b :: (l ++ [a]) ++ [b])) by now rewrite <- app_assoc. rewrite chain_snoc. change (b :: l ++ [a]) with ((b :: l) ++ [a]). rewrite last_last. ring.
Qed.
Lemma chain_app l p q : chain (l ++ [p; q]) = chain (l ++ [p]) + cross p q.
Proof. induction l as [|a [|b l] IH]; cbn in *; [ring|ring|]. rewrite IH. ring. Qed.
Lemma chain_rev l : chain (rev l) = - chain l.
Proof.
  induction l as [|a [|b l] IH]; [cbn; ring|cbn; ring|]. change (rev (a :: b :: l)) with ((rev l ++ [b]) ++ [a]). rewrite <- app_assoc. cbn [app]. rewrite chain_app. change (rev l ++ [b]) with (rev (b :: l)). rewrite IH.
  change (chain (a :: b :: l)) with (cross a b + chain (b :: l)). unfold cross. ring.
Qed.
Theorem C68_orientation a l k v : integrate_2form (a :: l) (fun _ _ => k) = Ok v -> integrate_2form (a :: rev l) (fun _ _ => k) = Ok (- v).
Proof.
  intro E. rewrite C68_polygon_area in * by discriminate. assert (v = k * shoelace (a :: l)) as -> by congruence. clear E. apply f_equal. change (shoelace (a :: l)) with (/ 2 * chain ((a :: l) ++ [a])). change (shoelace (a :: rev l)) with (/ 2 * chain ((a :: rev l) ++ [a])).
  replace ((a :: rev l) ++ [a]) with (rev ((a :: l) ++ [a])); [rewrite chain_rev; field|]. cbn [app rev]. rewrite rev_app_distr. cbn [rev app]. reflexivity.
Qed.
Example C68_instance : integrate_2form [(0, 0); (1, 0); (1, 1); (0, 1)] (fun _ _ => 5) = Ok 5 /\ integrate_1form ((0, 0), (2, 3)) (fun x y => (y, x)) = 6 /\ (forall x y, differentiable_pt_lim (fun x y => x * y) x y y x).
Proof.
  assert (forall x y, differentiable_pt_lim (fun x y => x * y) x y y x) as D.
  { intros x y e. exists e. intros u v Hu Hv. replace (u * v - x * y - (y * (u - x) + x * (v - y))) with ((u - x) * (v - y)) by ring. rewrite Rabs_mult.
    assert (Rabs (u - x) <= Rmax (Rabs (u - x)) (Rabs (v - y))) as M1 by apply Rmax_l. pose proof (Rabs_pos (v - y)). pose proof (Rabs_pos (u - x)). rewrite Rmult_comm. apply Rmult_le_compat; lra. }
  split; [|split; auto].
  - rewrite C68_polygon_area by discriminate. apply f_equal. unfold shoelace. cbn [app chain]. unfold cross. cbn [fst snd]. field.
  - rewrite (C68_exact_form _ (fun x y => x * y)); [cbn; ring|exact D| |]; intros x y; cbn [fst snd]; apply continuity_2d_pt_id2 || apply continuity_2d_pt_id1.
Qed.
