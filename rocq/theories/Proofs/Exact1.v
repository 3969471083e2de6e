(** Projections of resolved functions: reconstruction and Hodge star are exact. *)
From Coq Require Import ZArith Reals List Lia Lra Arith Bool.
From Coq Require Import ZifyNat.
From Verif Require Import Model.Sym.
From Coquelicot Require Import Coquelicot.
From Verif Require Import Model.Num Model.Np Model.Spectral Model.Basis Model.Grids1 Model.Regular Model.Chebyshev Model.Common Spec.Trig Spec.Poly Spec.Resolved
  Proofs.ListLemmas Proofs.Sums Proofs.Fourier Proofs.RIntLemmas Proofs.Kernels Proofs.Trig Proofs.Ops Proofs.Exact Proofs.BasisP Proofs.Grids1P Proofs.GridsThm Proofs.Mirror Proofs.PeriodicBasis
  Proofs.RegularP Proofs.RegularBasis Proofs.TrigAlg Proofs.Lin Proofs.TableLin Proofs.Refine Proofs.Leibniz Proofs.Cheb1 Proofs.ChebGuard Proofs.ChebPoly Proofs.Cheb2 Proofs.Cheb3 Proofs.ChebBasis Proofs.ChebRefine
  Props.Refinement.
Import ListNotations.
Local Open Scope R_scope.
Ltac Zify.zify_post_hook ::= Z.div_mod_to_equations.

(** ** regular *)
Section Reg.
Variable n : nat.
Hypothesis Hn : (2 <= n)%nat.
Variable c : cells1.
Hypothesis Ec : regular_default n = Ok c.
Let N := (2 * (n - 1))%nat.
Lemma HN : (0 < N)%nat. Proof. unfold N. lia. Qed.
Lemma rc : verts c = tab n (xg N) /\ edges c = (tab (n - 1) (xg N), tab (n - 1) (fun i => xg N (S i))) /\
  verts_dual c = tab (n - 1) (fun i => xg N i + hstep N / 2) /\ edges_dual c = (tab n (tdual n), tab n (fun i => tdual n (S i))).
Proof. destruct (rd_cells n Hn) as (c' & E & H). rewrite Ec in E. injection E as <-. exact H. Qed.
Lemma reg_len d p f : (d <= 1)%nat -> length (proj c d p f) = sizes_interval n d p.
Proof.
  intro Hd. destruct rc as (Ev & Ee & Evd & Eed).
  destruct d as [|[|d]]; [| |lia]; destruct p; cbn [proj sizes_interval]; unfold P0, P0d, P1, P1d, proj0, Grids1.proj1; rewrite ?Ev, ?Evd, ?Ee, ?Eed; cbn [fst snd]; rewrite ?map_length, ?length_zipw, ?length_tab; lia.
Qed.
Lemma reg_interp0 f t : cosp (n - 1) f -> interp (mirror0 1 (P0 c f)) t = f t.
Proof.
  intro Hf. destruct (cosp_poly _ _ Hf) as (P & HP & E). rewrite E. symmetry. apply (poly_g0 n Hn); auto; [apply (reg_len 0 true); lia|].
  intros j Hj. rewrite <- E. unfold P0, proj0. destruct rc as (-> & _). now rewrite map_tab, nth_tab.
Qed.
Lemma reg_interp0d f t : cosp (n - 2) f -> interp (mirror1 1 (P0d c f)) (t - hstep N / 2) = f t.
Proof.
  intro Hf. destruct (cosp_poly _ _ Hf) as (P & HP & E). rewrite E. symmetry. apply (poly_g1 n Hn); auto; [now replace (n - 1 - 1)%nat with (n - 2)%nat by lia|apply (reg_len 0 false); lia|].
  intros j Hj. rewrite <- E. unfold P0d, proj0. destruct rc as (_ & _ & -> & _). now rewrite map_tab, nth_tab.
Qed.
Lemma cosp_ref K f t : cosp K f -> f (2 * PI - t) = f t.
Proof. intro H. rewrite <- (cosp_even K f t H), <- (cosp_period K f (- t) H). f_equal. ring. Qed.
Lemma reg_histo1 f t : cosp (n - 2) f -> histo (mirror1 1 (P1 c f)) (t - hstep N / 2) = f t.
Proof.
  intro Hf. assert (forall x, continuous f x) as Cf by (intro; now apply (cosp_cont (n - 2))).
  assert (length (P1 c f) = (n - 1)%nat) as L by (apply (reg_len 1 true); lia).
  rewrite (histo_of N HN (mirror1 1 (P1 c f)) (fun t => f (t + hstep N / 2))).
  - f_equal. ring.
  - now apply (len_m1 n).
  - apply (trig_degree_interpolant N (n - 2)); [unfold N; lia|]. apply td_shift. now apply cosp_degree.
  - intros j Hj. rewrite nth_mirror1 by (rewrite L; unfold N in Hj; lia). rewrite L. destruct rc as (_ & Ee & _).
    assert (forall i, (i < n - 1)%nat -> nth i (P1 c f) 0 = RInt f (xg N i) (xg N i + hstep N)) as V.
    { intros i Hi. unfold P1, Grids1.proj1. rewrite Ee. cbn [fst snd]. rewrite zipw_tab, nth_tab by auto. now rewrite xg_S. }
    rewrite RInt_shift by auto. transitivity (RInt f (xg N j) (xg N j + hstep N)); [|apply RInt_Rplus0; field].
    destruct (Nat.ltb_spec j (n - 1)); [now apply V|]. change (1 * nth (2 * (n - 1) - 1 - j) (P1 c f) 0 = RInt f (xg N j) (xg N j + hstep N)). rewrite Rmult_1_l. rewrite V by (unfold N in Hj; lia).
    replace (2 * (n - 1) - 1 - j)%nat with (N - S j)%nat by (unfold N; lia). rewrite (xg_ref n Hn) by exact Hj. fold N. rewrite xg_S.
    rewrite (RInt_ext f (fun t => f (2 * PI - t)) (2 * PI - (xg N j + hstep N))) by (intros; symmetry; now apply (cosp_ref (n - 2))).
    refine (eq_trans (RInt_flip f PI _ _ Cf) _). apply RInt_Rplus0; ring.
Qed.
Lemma reg_histo1d f t : cosp (n - 1) f -> histo (mirror0 1 (divA n (P1d c f))) t = f t.
Proof.
  intro Hf. assert (forall x, continuous f x) as Cf by (intro; now apply (cosp_cont (n - 1))).
  assert (length (P1d c f) = n) as L by (apply (reg_len 1 false); lia).
  apply (histo_of N HN); [now apply (len_m0 n Hn), len_divA|now apply (cosp_interpolant N (n - 1)); [unfold N; lia|]|].
  intros j Hj. rewrite nth_mirror0 by (rewrite len_divA; unfold N in Hj; lia). rewrite len_divA. destruct rc as (_ & _ & _ & Eed).
  assert (forall i, (i < n)%nat -> nth i (divA n (P1d c f)) 0 = RInt f (xg N i - hstep N / 2) (xg N i + hstep N / 2)) as V.
  { intros i Hi. unfold divA. rewrite nth_tab by auto. unfold P1d, Grids1.proj1. rewrite Eed. cbn [fst snd]. rewrite zipw_tab, nth_tab by auto.
    rewrite (RInt_dual n Hn f i Hi Cf (fun x => cosp_even (n - 1) f x Hf) (fun x => cosp_period (n - 1) f x Hf)). fold N. 
    field. apply Aw_neq0. }
  destruct (Nat.ltb_spec j n); [now apply V|]. cbn [nmul NumR]. rewrite Rmult_1_l. rewrite V by (unfold N in Hj; lia).
  replace (2 * n - 2 - j)%nat with (N - j)%nat by (unfold N; lia). rewrite (xg_ref n Hn) by (fold N; lia). fold N.
  rewrite (RInt_ext f (fun t => f (2 * PI - t)) (2 * PI - xg N j - hstep N / 2)) by (intros; symmetry; now apply (cosp_ref (n - 1))).
  refine (eq_trans (RInt_flip f PI _ _ Cf) _). apply RInt_Rplus0; ring.
Qed.
Lemma reg_R d p f x : (d <= 1)%nat -> resolved_regular (sizes_interval n d p) f -> 0 <= x <= PI ->
  R_form (B_regular n) (sizes_interval n) d p (proj c d p f) x = Some (f x).
Proof.
  intros Hd Hf Hx. unfold resolved_regular in Hf. fold (R_regular n). destruct d as [|[|d]]; [| |lia]; destruct p; cbn [proj sizes_interval] in *;
    try replace (n - 1 - 1)%nat with (n - 2)%nat in Hf by lia.
  - rewrite (Rr0 n Hn) by (auto; apply (reg_len 0 true); lia). now rewrite reg_interp0.
  - rewrite (Rr0d n Hn) by (auto; apply (reg_len 0 false); lia). f_equal. now apply reg_interp0d.
  - rewrite (Rr1 n Hn) by (auto; apply (reg_len 1 true); lia). f_equal. now apply reg_histo1.
  - rewrite (Rr1d n Hn) by (auto; apply (reg_len 1 false); lia). f_equal. now apply reg_histo1d.
Qed.
End Reg.

(** ** Chebyshev *)
Section Cheb.
Variable n : nat.
Hypothesis Hn : (2 <= n)%nat.
Variable c : cells1.
Hypothesis Ec : chebyshev_default n = Ok c.
Let N := (2 * (n - 1))%nat.
Lemma cheb_len d p f : (d <= 1)%nat -> length (proj c d p f) = sizes_interval n d p.
Proof.
  intro Hd. destruct (c_cells n Hn c Ec) as (Ev & Ee & Evd & Eed).
  destruct d as [|[|d]]; [| |lia]; destruct p; cbn [proj sizes_interval]; unfold P0, P0d, P1, P1d, proj0, Grids1.proj1; rewrite ?Ev, ?Evd, ?Ee, ?Eed; cbn [fst snd]; rewrite ?map_length, ?length_zipw, ?length_tab; lia.
Qed.
Lemma cheb_g0 f t : polynomial (n - 1) f -> g0 (P0 c f) t = f (- cos t).
Proof.
  intro Hf. symmetry. apply (poly_g0 n Hn); auto; [apply (cheb_len 0 true); lia|]. intros j Hj. unfold P0, proj0. destruct (c_cells n Hn c Ec) as (-> & _). now rewrite map_tab, nth_tab.
Qed.
Lemma cheb_g1 f t : polynomial (n - 2) f -> Cheb2.g1 n (P0d c f) t = f (- cos t).
Proof.
  intro Hf. symmetry. apply (poly_g1 n Hn); auto; [now replace (n - 1 - 1)%nat with (n - 2)%nat by lia|apply (cheb_len 0 false); lia|].
  intros j Hj. unfold P0d, proj0. destruct (c_cells n Hn c Ec) as (_ & _ & -> & _). now rewrite map_tab, nth_tab.
Qed.
Lemma H0_poly q : polynomial (n - 1) q -> H0_cheb (P0 c q) = Ok (P1d c q).
Proof.
  intro Hq. pose proof (cheb_len 0 true q ltac:(lia)) as L. cbn in L. destruct (H0_is_P_R n Hn (P0 c q) L) as (c0 & E & H). rewrite Ec in E. injection E as <-.
  rewrite H. apply (f_equal (@Ok (list R))). destruct (R0_poly n Hn (P0 c q) L) as (r & Hr & Eg & Ex). destruct (c_cells n Hn c Ec) as (_ & _ & _ & Ee). unfold P1d, Grids1.proj1. rewrite Ee. cbn [fst snd]. rewrite !zipw_tab. apply tab_ext. intros i Hi.
  rewrite (RInt_R_poly (R_cheb n 0 true (P0 c q)) r (n - 1)) by auto.
  transitivity (RInt (fun t => q (- cos t) * sin t) (tdual n i) (tdual n (S i))); [|symmetry; apply (RInt_R_poly (fun x => Some (q x)) q (n - 1)); auto].
  apply RInt_ext. intros t _. f_equal. rewrite <- Eg. now apply cheb_g0.
Qed.
Lemma poly_eq0 f g x : polynomial (n - 1) f -> polynomial (n - 1) g -> P0 c f = P0 c g -> -1 <= x <= 1 -> f x = g x.
Proof. intros Hf Hg E Hx. rewrite <- (neg_cos_acos x Hx). now rewrite <- (cheb_g0 f), <- (cheb_g0 g), E. Qed.
Lemma poly_eq1 f g x : polynomial (n - 2) f -> polynomial (n - 2) g -> P0d c f = P0d c g -> -1 <= x <= 1 -> f x = g x.
Proof. intros Hf Hg E Hx. rewrite <- (neg_cos_acos x Hx). now rewrite <- (cheb_g1 f), <- (cheb_g1 g), E. Qed.
Lemma P1_inj f g : polynomial (n - 2) f -> polynomial (n - 2) g -> P1 c f = P1 c g -> P0d c f = P0d c g.
Proof.
  intros Hf Hg E. assert (guarded (fun _ _ => false) Chebyshev n) as G by reflexivity.
  pose proof (Cheb1.H1_H0d n Hn _ (P0d c f) G (cheb_len 0 false f ltac:(lia))) as X. pose proof (Cheb1.H1_H0d n Hn _ (P0d c g) G (cheb_len 0 false g ltac:(lia))) as Y.
  rewrite (H0d_poly n c) in X, Y by auto. cbn [bind] in X, Y. rewrite E, Y in X. now injection X.
Qed.
Lemma P1d_inj f g : polynomial (n - 1) f -> polynomial (n - 1) g -> P1d c f = P1d c g -> P0 c f = P0 c g.
Proof.
  intros Hf Hg E.
  pose proof (Cheb3.H1d_H0 n Hn (P0 c f) (cheb_len 0 true f ltac:(lia))) as X. pose proof (Cheb3.H1d_H0 n Hn (P0 c g) (cheb_len 0 true g ltac:(lia))) as Y.
  rewrite H0_poly in X, Y by auto. cbn [bind] in X, Y. rewrite E, Y in X. now injection X.
Qed.
Lemma cheb_R d p f x : (d <= 1)%nat -> resolved_chebyshev (sizes_interval n d p) f -> (match d with 0%nat => -1 <= x <= 1 | _ => -1 < x < 1 end) ->
  R_form (B_chebyshev n) (sizes_interval n) d p (proj c d p f) x = Some (f x).
Proof.
  intros Hd Hf Hx. unfold resolved_chebyshev in Hf. fold (R_cheb n). pose proof (cheb_len d p f Hd) as L. destruct (c_cells n Hn c Ec) as (_ & Ee & _ & Eed).
  destruct d as [|[|d]]; [| |lia]; destruct p; cbn [proj sizes_interval] in *; try replace (n - 1 - 1)%nat with (n - 2)%nat in Hf by lia.
  - rewrite (Rc0_val n Hn) by auto. f_equal. rewrite cheb_g0 by auto. now rewrite neg_cos_acos.
  - rewrite (Rc0d_val n Hn) by auto. f_equal. rewrite cheb_g1 by auto. now rewrite neg_cos_acos.
  - destruct (R1_poly n (P1 c f) Hn L) as (P & HP & E & I). rewrite E by auto. f_equal. apply poly_eq1; auto; [|lra]. apply P1_inj; auto.
    unfold P1 at 1, Grids1.proj1. rewrite Ee. cbn [fst snd]. rewrite zipw_tab. apply tab_nth; auto.
  - destruct (R1d_poly n (P1d c f) Hn L) as (P & HP & E & I). rewrite E by auto. f_equal. apply poly_eq0; auto; [|lra]. apply P1d_inj; auto.
    unfold P1d at 1, Grids1.proj1. rewrite Eed. cbn [fst snd]. rewrite zipw_tab. apply tab_nth; auto.
Qed.
End Cheb.

(** ** periodic *)
Section Per.
Variable n : nat.
Hypothesis Hn : (1 <= n)%nat.
Let c := periodic_default n.
Lemma per_val d p f : (d <= 1)%nat -> (forall t, continuous f t) -> proj c d p f = tab n (fun i => match d, p with O, true => f (xg n i) | O, false => f (xg n i + hstep n / 2)
    | _, true => RInt f (xg n i) (xg n i + hstep n) | _, false => RInt f (xg n i - hstep n / 2) (xg n i + hstep n / 2) end).
Proof.
  intros Hd Cf. unfold c. rewrite pd_cells by lia. destruct d as [|[|d]]; [| |lia]; destruct p; cbn [proj]; unfold P0, P0d, P1, P1d, proj0, Grids1.proj1; cbn [verts edges verts_dual edges_dual fst snd]; rewrite ?map_tab, ?zipw_tab; auto.
  apply tab_ext. intros i Hi. now rewrite xg_S.
Qed.
Lemma per_len d p f : (d <= 1)%nat -> length (proj c d p f) = n.
Proof.
  intros Hd. unfold c. rewrite pd_cells by lia. destruct d as [|[|d]]; [| |lia]; destruct p; cbn [proj]; unfold P0, P0d, P1, P1d, proj0, Grids1.proj1; cbn [verts edges verts_dual edges_dual fst snd]; rewrite ?map_tab, ?zipw_tab; apply length_tab.
Qed.
Lemma per_R d p f x : (d <= 1)%nat -> resolved_periodic n f -> 0 <= x < 2 * PI ->
  R_form (B_periodic n) (sizes_periodic n) d p (proj c d p f) x = Some (f x).
Proof.
  intros Hd (K & HK & Hf) Hx. assert (forall t, continuous f t) as Cf by (intro; now apply (td_cont K)). pose proof (per_len d p f Hd) as L. assert (0 < hstep n) as Hh by (apply hstep_pos; lia).
  assert (forall s, trig_interpolant n (fun t => f (t + s))) as It by (intro s; apply (trig_degree_interpolant n K); auto; now apply td_shift).
  assert (trig_interpolant n f) as I0 by now apply (trig_degree_interpolant n K).
  pose proof (per_val d p f Hd Cf) as V. fold (R_periodic n). 
  destruct d as [|[|d]]; [| |lia]; destruct p; set (v := proj c _ _ f) in *.
  - rewrite <- L at 1. rewrite R0_val by (rewrite L; lia || lra). f_equal. symmetry. apply interp_unique; rewrite ?L; auto; try lia. rewrite V. apply samples_tab. lia.
  - rewrite <- L at 1. rewrite R0d_val by (rewrite L; lia || lra). f_equal. rewrite L. transitivity (f (x - hstep n / 2 + hstep n / 2)); [|f_equal; ring]. symmetry.
    apply (interp_unique v (fun t => f (t + hstep n / 2))); rewrite ?L; auto; try lia. rewrite V. apply (samples_tab n (fun t => f (t + hstep n / 2))). lia.
  - rewrite <- L at 1. rewrite R1_val by lia. f_equal. rewrite L. rewrite (histo_of n ltac:(lia) v (fun t => f (t + hstep n / 2))); auto; [f_equal; ring|]. intros i Hi. rewrite V, nth_tab by auto. rewrite RInt_shift by auto. apply RInt_Rplus0; field.
  - rewrite <- L at 1. rewrite R1d_val by lia. f_equal. apply (histo_of n ltac:(lia) v f); auto. intros i Hi. now rewrite V, nth_tab.
Qed.
Lemma per_H f p : resolved_periodic n f -> opH (proj c 0 p f) = proj c 1 (negb p) f.
Proof.
  intros (K & HK & Hf). assert (forall t, continuous f t) as Cf by (intro; now apply (td_cont K)).
  assert (forall s, trig_interpolant n (fun t => f (t + s))) as It by (intro s; apply (trig_degree_interpolant n K); auto; now apply td_shift).
  assert (trig_interpolant n f) as I0 by now apply (trig_degree_interpolant n K).
  rewrite (per_val 1 (negb p) f ltac:(lia) Cf). pose proof (per_val 0 p f ltac:(lia) Cf) as V. pose proof (per_len 0 p f ltac:(lia)) as L. set (v := proj c 0 p f) in *. destruct p; cbn [negb].
  - rewrite (exact_H v f); rewrite ?L; auto; try lia. rewrite V. apply samples_tab. lia.
  - rewrite (exact_H v (fun t => f (t + hstep n / 2))); rewrite ?L; auto; try lia.
    + apply tab_ext. intros i Hi. rewrite RInt_shift by auto. apply RInt_Rplus0; field.
    + rewrite V. apply (samples_tab n (fun t => f (t + hstep n / 2))). lia.
Qed.
End Per.
