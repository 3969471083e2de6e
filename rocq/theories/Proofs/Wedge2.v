(** Refinement on product grids as linear maps; the wedge and the contraction of refined forms. *)
From Coq Require Import ZArith Reals List Lia Lra Arith Bool.
From Coq Require Import ZifyNat ZifyBool.
From Verif Require Import Model.Sym.
From Coquelicot Require Import Coquelicot.
From Verif Require Import Model.Num Model.Np Model.Spectral Model.Chebyshev Model.Grids1 Model.Common Model.Decform Model.Grid2 Spec.Tiling
  Proofs.ListLemmas Proofs.RingSums Proofs.Lin Proofs.TableLin Proofs.Arr2 Proofs.Grid2P Proofs.Grid2Ops Props.Refinement Props.Grid2 Props.Refine2.
Import ListNotations.
Local Open Scope nat_scope.
Ltac Zify.zify_post_hook ::= Z.div_mod_to_equations.

Lemma onrows_lin c p g r F F' H i j : lin c p g -> j < p -> (forall k, k < c -> (H i k = r * F i k + F' i k)%R) -> onrows c g H i j = (r * onrows c g F i j + onrows c g F' i j)%R.
Proof.
  intros L Hj E. unfold onrows. transitivity (nth j (g (tab c (fun k => bsum 2 (fun q => nmul (match q with 0 => r | _ => 1%R end) ((match q with 0 => F i | _ => F' i end) k))))) 0%R).
  { do 2 f_equal. apply tab_ext. intros k Hk. rewrite E by auto. cbn. ring. }
  etransitivity; [exact (nth_lin_bsum (A := R) c p g 2 _ (fun q k => match q with 0 => F i | _ => F' i end k) j L Hj)|]. cbn. change (fun k : nat => F i k) with (F i). change (fun k => F' i k) with (F' i). ring.
Qed.
Lemma oncols_lin c p g r F F' H i j : lin c p g -> i < p -> (forall k, k < c -> (H k j = r * F k j + F' k j)%R) -> oncols c g H i j = (r * oncols c g F i j + oncols c g F' i j)%R.
Proof. intros L Hi E. exact (onrows_lin c p g r (fun i j => F j i) (fun i j => F' j i) (fun i j => H j i) j i L Hi E). Qed.
Lemma comb_firstn r a b n : firstn n (comb r a b) = comb r (firstn n a) (firstn n b).
Proof. revert a b. induction n as [|n IH]; intros [|x a] [|y b]; cbn; auto. unfold comb in *. cbn. f_equal. apply IH. Qed.
Lemma comb_skipn r a b n : length a = length b -> skipn n (comb r a b) = comb r (skipn n a) (skipn n b).
Proof. revert a b. induction n as [|n IH]; intros [|x a] [|y b] L; cbn in *; auto; try lia. apply IH. lia. Qed.
Lemma length_comb r a b : length a = length b -> length (comb r a b) = length a.
Proof. intro. unfold comb. rewrite length_zipw. lia. Qed.
Lemma comb_app r a b a' b' : length a = length b -> comb r (a ++ a') (b ++ b') = comb r a b ++ comb r a' b'.
Proof. revert b. induction a as [|x a IH]; intros [|y b] L; cbn in *; try lia; auto. f_equal. apply IH. lia. Qed.
Lemma comb_flat r p q F F' H : (forall i j, i < p -> j < q -> (H i j = r * F i j + F' i j)%R) -> flat p q H = comb r (flat p q F) (flat p q F').
Proof. intro E. unfold comb. rewrite flat_zip. apply flat_ext. exact E. Qed.
Lemma ent_comb c r f f' i j p : length f = p * c -> length f' = p * c -> i < p -> j < c -> ent c (comb r f f') i j = (r * ent c f i j + ent c f' i j)%R.
Proof. intros L L' Hi Hj. unfold ent, comb. pose proof (idx_lt p c i j Hi Hj). erewrite nth_zipw by lia. reflexivity. Qed.

Definition ncomp (d : nat) : nat := if Nat.eqb d 1 then 2 else 1.
Definition zf : nat -> nat -> R := fun _ _ => 0%R.
Section S.
Variables (close : C -> C -> bool) (gx gy : grid1).
Hypothesis Rx : refinable close gx. Hypothesis Ry : refinable close gy.
Notation tx := (rT (refine_of close (kd gx))). Notation ty := (rT (refine_of close (kd gy))).
Notation ux := (rU (refine_of close (kd gx))). Notation uy := (rU (refine_of close (kd gy))).
Let Gx := Logic.proj1 Rx. Let Gy := Logic.proj1 Ry.
Definition ref (Fs : list (nat -> nat -> R)) : list (arr R) := map (mk2 (rf gy) (rf gx)) Fs.
Definition lincomb (r : R) (F F' H : list (nat -> nat -> R)) : Prop :=
  forall c i j, i < rf gy -> j < rf gx -> nth c H zf i j = (r * nth c F zf i j + nth c F' zf i j)%R.
Lemma t_lin dy dx t : dx <= 1 -> dy <= 1 -> exists TF UF : (nat -> nat -> R) -> nat -> nat -> R,
  (forall F, tyx ty tx dy dx t (mk2 (Nd gy dy t) (Nd gx dx t) F) = Ok (mk2 (rf gy) (rf gx) (TF F))) /\
  (forall F, tyx uy ux dy dx t (mk2 (rf gy) (rf gx) F) = Ok (mk2 (Nd gy dy t) (Nd gx dx t) (UF F))) /\
  (forall r F F' H, (forall i j, i < Nd gy dy t -> j < Nd gx dx t -> (H i j = r * F i j + F' i j)%R) -> forall i j, i < rf gy -> j < rf gx -> TF H i j = (r * TF F i j + TF F' i j)%R) /\
  (forall r F F' H, (forall i j, i < rf gy -> j < rf gx -> (H i j = r * F i j + F' i j)%R) -> forall i j, i < Nd gy dy t -> j < Nd gx dx t -> UF H i j = (r * UF F i j + UF F' i j)%R).
Proof.
  intros Hx Hy. destruct (t_pair close gx dx t Rx Hx) as (T & U & T' & U' & A1 & A2 & A3 & A4 & A5 & A6 & A7). destruct (t_pair close gy dy t Ry Hy) as (V & W & V' & W' & B1 & B2 & B3 & B4 & B5 & B6 & B7).
  pose proof (Nd_pos gx dx t Gx). pose proof (Nd_pos gy dy t Gy). pose proof (rf_pos gx Gx). pose proof (rf_pos gy Gy).
  exists (fun F => oncols (Nd gy dy t) V' (onrows (Nd gx dx t) T' F)), (fun F => oncols (rf gy) W' (onrows (rf gx) U' F)). unfold tyx. rewrite A3, B3, A4, B4. cbn [bind].
  split. { intro F. rewrite (along1_flat _ T' _ _ (rf gx)) by auto. cbn [bind]. now rewrite (along0_flat _ V' _ _ (rf gy)) by auto. }
  split. { intro F. rewrite (along1_flat _ U' _ _ (Nd gx dx t)) by auto. cbn [bind]. now rewrite (along0_flat _ W' _ _ (Nd gy dy t)) by auto. }
  split; intros r F F' K E i j Hi Hj.
  - apply (oncols_lin _ (rf gy)); auto. intros k Hk. apply (onrows_lin _ (rf gx)); auto.
  - apply (oncols_lin _ (Nd gy dy t)); auto. intros k Hk. apply (onrows_lin _ (Nd gx dx t)); auto.
Qed.

Variable G : grid2. Hypothesis EG : product close gx gy = Ok G.
Lemma T_lin d t : d <= 2 -> exists T (tau : list R -> list (nat -> nat -> R)), tget (g2T G) (d, t) = Ok T /\
  (forall f, length f = N2 gx gy d t -> length (tau f) = ncomp d /\ T f = Ok (ref (tau f))) /\
  (forall r f f', length f = N2 gx gy d t -> length f' = N2 gx gy d t -> lincomb r (tau f) (tau f') (tau (comb r f f'))).
Proof.
  intro Hd. destruct (product_ok close gx gy Gx Gy) as (sx & sy & G' & _ & _ & E & _ & _ & HN & _ & _ & _ & _ & _ & _ & HT & HU & _). rewrite EG in E. injection E as <-. rewrite HT. unfold to_refine.
  match goal with |- context [reshapeT _ (table6 ?t0)] => destruct (T_get gx gy t0 d t Hd) as (T & ET & FT) end. exists T.
  destruct (Nat.eqb_spec d 1) as [->|Hd1].
  - destruct (t_lin 0 1 t) as (TF0 & _ & A0 & _ & L0 & _); [lia..|]. destruct (t_lin 1 0 t) as (TF1 & _ & A1 & _ & L1 & _); [lia..|]. set (a := Nd gy 0 t * Nd gx 1 t) in *. cbn [N2].
    exists (fun f => [TF0 (ent (Nd gx 1 t) (firstn a f)); TF1 (ent (Nd gx 0 t) (skipn a f))]). split; [exact ET|]. split.
    + intros f L. split; [reflexivity|]. rewrite FT. rewrite <- (firstn_skipn a f) at 1.
      assert (length (firstn a f) = Nd gy 0 t * Nd gx 1 t) as La by (rewrite firstn_length; fold a in L |- *; lia). assert (length (skipn a f) = Nd gy 1 t * Nd gx 0 t) as Lb by (rewrite skipn_length; fold a in L |- *; lia).
      rewrite (flat_ent _ _ _ La) at 1. rewrite (flat_ent _ _ _ Lb) at 1. cbn [shp2]. rewrite reshape_flat2. cbn [bind get_pair fst snd]. rewrite A0; cbn [bind]. rewrite A1; cbn [bind]. reflexivity.
    + intros r f f' L L' c i j Hi Hj. fold a in L, L'. rewrite comb_firstn, comb_skipn by lia. destruct c as [|[|c]]; cbn [nth].
      * apply L0; auto. intros. apply (ent_comb _ _ _ _ _ _ (Nd gy 0 t)); auto; rewrite firstn_length; fold a; lia.
      * apply L1; auto. intros. apply (ent_comb _ _ _ _ _ _ (Nd gy 1 t)); auto; rewrite skipn_length; lia.
      * destruct c; cbn; unfold zf; ring.
  - assert (exists e, d = 2 * e /\ e <= 1) as (e & -> & He) by (destruct d as [|[|[|d]]]; [exists 0|lia|exists 1|lia]; lia).
    assert (N2 gx gy (2 * e) t = Nd gy e t * Nd gx e t) as -> by (destruct e as [|[|e]]; [reflexivity|reflexivity|lia]).
    destruct (t_lin e e t He He) as (TF & _ & A & _ & L0 & _). exists (fun f => [TF (ent (Nd gx e t) f)]). split; [exact ET|]. split.
    + intros f L. split; [destruct e as [|[|e]]; [reflexivity|reflexivity|lia]|]. rewrite FT. rewrite (flat_ent _ _ _ L) at 1. replace (shp2 gx gy (2 * e) t) with (SInt (Nd gy e t) (Nd gx e t)) by (destruct e as [|[|e]]; [reflexivity|reflexivity|lia]).
      rewrite reshape_flat. cbn [bind]. destruct e as [|[|e]]; [| |lia]; cbn [Nat.mul Nat.add]; cbn [get_arr bind]; [change (0 / 2) with 0|change (2 / 2) with 1]; rewrite A; reflexivity.
    + intros r f f' L L' c i j Hi Hj. destruct c as [|c]; cbn [nth]; [|destruct c; cbn; unfold zf; ring]. apply L0; auto. intros. now apply (ent_comb _ _ _ _ _ _ (Nd gy e t)).
Qed.
Lemma U_lin d t : d <= 2 -> exists U (ups : list (nat -> nat -> R) -> list R), tget (g2U G) (d, t) = Ok U /\
  (forall F, length F = ncomp d -> U (ref F) = Ok (ups F) /\ length (ups F) = N2 gx gy d t) /\
  (forall r F F' H, length F = ncomp d -> length F' = ncomp d -> length H = ncomp d -> lincomb r F F' H -> ups H = comb r (ups F) (ups F')).
Proof.
  intro Hd. destruct (product_ok close gx gy Gx Gy) as (sx & sy & G' & _ & _ & E & _ & _ & HN & _ & _ & _ & _ & _ & _ & HT & HU & _). rewrite EG in E. injection E as <-. rewrite HU. unfold from_refine.
  match goal with |- context [reshapeU (table6 ?u0)] => destruct (U_get u0 d t Hd) as (U & EU & FU) end. exists U.
  destruct (Nat.eqb_spec d 1) as [->|Hd1].
  - destruct (t_lin 0 1 t) as (_ & UF0 & _ & A0 & _ & L0); [lia..|]. destruct (t_lin 1 0 t) as (_ & UF1 & _ & A1 & _ & L1); [lia..|]. cbn [N2].
    exists (fun F => flat (Nd gy 0 t) (Nd gx 1 t) (UF0 (nth 0 F zf)) ++ flat (Nd gy 1 t) (Nd gx 0 t) (UF1 (nth 1 F zf))). split; [exact EU|]. split.
    + intros F L. destruct F as [|F0 [|F1 [|]]]; try discriminate. rewrite FU. cbn [ref map item nth_error bind]. rewrite A0; cbn [bind]. rewrite A1; cbn [bind]. rewrite unshape_mk22. split; [reflexivity|]. rewrite app_length, !length_flat. reflexivity.
    + intros r F F' K _ _ _ E. rewrite comb_app by (now rewrite !length_flat). f_equal; apply comb_flat; intros i j Hi Hj; [apply L0|apply L1]; auto; intros; now apply E.
  - assert (exists e, d = 2 * e /\ e <= 1) as (e & -> & He) by (destruct d as [|[|[|d]]]; [exists 0|lia|exists 1|lia]; lia).
    assert (N2 gx gy (2 * e) t = Nd gy e t * Nd gx e t) as -> by (destruct e as [|[|e]]; [reflexivity|reflexivity|lia]).
    destruct (t_lin e e t He He) as (_ & UF & _ & A & _ & L0). exists (fun F => flat (Nd gy e t) (Nd gx e t) (UF (nth 0 F zf))). split; [exact EU|]. split.
    + intros F L. assert (length F = 1) as L' by (rewrite L; destruct e as [|[|e]]; [reflexivity|reflexivity|lia]). destruct F as [|F0 [|]]; try discriminate. rewrite FU. split; [|apply length_flat].
      destruct e as [|[|e]]; [| |lia]; cbn [Nat.mul Nat.add ref map item nth_error bind]; [change (0 / 2) with 0|change (2 / 2) with 1]; rewrite A; reflexivity.
    + intros r F F' K _ _ _ E. apply comb_flat. intros i j Hi Hj. apply (L0 r); auto.
Qed.
(** the components of the wedge product of refined forms *)
Definition fmul (F F' : nat -> nat -> R) i j := (F i j * F' i j)%R.
Definition fsub (F F' : nat -> nat -> R) i j := (F i j - F' i j)%R.
Definition fadd (F F' : nat -> nat -> R) i j := (F i j + F' i j)%R.
Definition fopp (F : nat -> nat -> R) i j := (- F i j)%R.
Definition wcomp (d0 d1 : nat) (A B : list (nat -> nat -> R)) : list (nat -> nat -> R) :=
  let a0 := nth 0 A zf in let a1 := nth 1 A zf in let b0 := nth 0 B zf in let b1 := nth 1 B zf in
  match d0, d1 with 1, 1 => [fsub (fmul a0 b1) (fmul a1 b0)] | 0, 1 => [fmul a0 b0; fmul a0 b1] | 1, 0 => [fmul b0 a0; fmul b0 a1] | 0, _ => [fmul a0 b0] | _, _ => [fmul b0 a0] end.
Lemma wcomp_val d0 d1 A B : d0 + d1 <= 2 -> length A = ncomp d0 -> length B = ncomp d1 ->
  exists w, wget (wedge_2d missing2) d0 d1 = Some w /\ mapM (fun c => c) (w (map Ok (ref A)) (map Ok (ref B))) = Ok (ref (wcomp d0 d1 A B)).
Proof.
  intros Hd LA LB. destruct d0 as [|[|[|d0]]], d1 as [|[|[|d1]]]; try lia; cbn [ncomp Nat.eqb] in LA, LB; (eexists; split; [reflexivity|]);
  first [destruct A as [|a0 [|]]; try discriminate LA; []|destruct A as [|a0 [|a1 [|]]]; try discriminate LA; []];
  first [destruct B as [|b0 [|]]; try discriminate LB; []|destruct B as [|b0 [|b1 [|]]]; try discriminate LB; []];
  cbn [ref map nth wcomp mapM bind pmul psub padd popp Arr2Ops sgn_mul Nat.even Nat.mul]; rewrite ?bin2_mk2; cbn [bind]; rewrite ?bin2_mk2; reflexivity.
Qed.

Lemma length_wcomp d0 d1 A B : d0 + d1 <= 2 -> length (wcomp d0 d1 A B) = ncomp (d0 + d1).
Proof. intro Hd. destruct d0 as [|[|[|d0]]], d1 as [|[|[|d1]]]; try lia; reflexivity. Qed.
(** an entry of W that refines *)
Lemma get_w2_val d0 p0 d1 p1 p2 a b : d0 + d1 <= 2 -> length a = N2 gx gy d0 p0 -> length b = N2 gx gy d1 p1 ->
  forall T tau T' tau' U ups, tget (g2T G) (d0, p0) = Ok T -> (length (tau a) = ncomp d0 /\ T a = Ok (ref (tau a))) ->
  tget (g2T G) (d1, p1) = Ok T' -> (length (tau' b) = ncomp d1 /\ T' b = Ok (ref (tau' b))) ->
  tget (g2U G) (d0 + d1, p2) = Ok U -> (forall F, length F = ncomp (d0 + d1) -> U (ref F) = Ok (ups F) /\ length (ups F) = N2 gx gy (d0 + d1) p2) ->
  get_w2 (g2T G) (g2U G) d0 p0 d1 p1 p2 a b = Ok (ups (wcomp d0 d1 (tau a) (tau' b))) /\ length (ups (wcomp d0 d1 (tau a) (tau' b))) = N2 gx gy (d0 + d1) p2.
Proof.
  intros Hd La Lb T tau T' tau' U ups ET (L1 & F1) ET' (L2 & F2) EU FU. destruct (FU (wcomp d0 d1 (tau a) (tau' b))) as [FU1 FU2]; [now apply length_wcomp|]. split; [|exact FU2].
  unfold get_w2. rewrite ET; cbn [bind]. rewrite F1; cbn [bind]. rewrite ET'; cbn [bind]. rewrite F2; cbn [bind].
  destruct (wcomp_val d0 d1 (tau a) (tau' b) Hd L1 L2) as (w & Ew & Em). rewrite Ew; cbn [bind]. rewrite Em; cbn [bind]. rewrite EU; cbn [bind]. exact FU1.
Qed.
Lemma W_entry2 d0 p0 d1 p1 p2 : d0 + d1 <= 2 ->
  dget wkey_eqb (g2W G) ((d0, p0), (d1, p1), p2) = Ok (if direct d0 p0 d1 p1 p2 then np_bin Rmult else get_w2 (g2T G) (g2U G) d0 p0 d1 p1 p2).
Proof.
  intro. destruct (product_ok close gx gy Gx Gy) as (sx & sy & G' & _ & _ & E & _ & _ & _ & _ & _ & _ & _ & _ & _ & _ & _ & HW & _). rewrite EG in E. injection E as <-. rewrite HW.
  destruct d0 as [|[|[|d0]]], d1 as [|[|[|d1]]]; try lia; destruct p0, p1, p2; reflexivity.
Qed.
(** the contraction *)
Definition ccomp (d1 : nat) (X A : list (nat -> nat -> R)) : list (nat -> nat -> R) :=
  let x0 := nth 0 X zf in let x1 := nth 1 X zf in let a0 := nth 0 A zf in let a1 := nth 1 A zf in
  match d1 with 1 => [fadd (fmul x0 a0) (fmul x1 a1)] | _ => [fmul (fopp x1) a0; fmul x0 a0] end.
Lemma length_ccomp d1 X A : 1 <= d1 <= 2 -> length (ccomp d1 X A) = ncomp (d1 - 1).
Proof. intro Hd. destruct d1 as [|[|[|d1]]]; try lia; reflexivity. Qed.
Lemma get_c2_val p0 d1 p1 p2 a b : 1 <= d1 <= 2 -> length a = N2 gx gy 1 p0 -> length b = N2 gx gy d1 p1 ->
  forall T tau T' tau' U ups, tget (g2T G) (1, p0) = Ok T -> (length (tau a) = ncomp 1 /\ T a = Ok (ref (tau a))) ->
  tget (g2T G) (d1, p1) = Ok T' -> (length (tau' b) = ncomp d1 /\ T' b = Ok (ref (tau' b))) ->
  tget (g2U G) (d1 - 1, p2) = Ok U -> (forall F, length F = ncomp (d1 - 1) -> U (ref F) = Ok (ups F) /\ length (ups F) = N2 gx gy (d1 - 1) p2) ->
  get_c2 (g2T G) (g2U G) p0 d1 p1 p2 a b = Ok (ups (ccomp d1 (tau a) (tau' b))) /\ length (ups (ccomp d1 (tau a) (tau' b))) = N2 gx gy (d1 - 1) p2.
Proof.
  intros Hd La Lb T tau T' tau' U ups ET (L1 & F1) ET' (L2 & F2) EU FU. destruct (FU (ccomp d1 (tau a) (tau' b))) as [FU1 FU2]; [now apply length_ccomp|]. split; [|exact FU2].
  unfold get_c2. rewrite ET; cbn [bind]. rewrite F1; cbn [bind]. rewrite ET'; cbn [bind]. rewrite F2; cbn [bind].
  assert (exists c l, nth_error (contraction_2d missing2) d1 = Some c /\ c (map Ok (ref (tau a))) (map Ok (ref (tau' b))) = Comps l /\ mapM (fun c => c) l = Ok (ref (ccomp d1 (tau a) (tau' b)))) as (c & l & E1 & E2 & E3).
  { set (X := tau a) in *. set (Y := tau' b) in *. clearbody X Y. destruct X as [|x0 [|x1 [|]]]; try discriminate L1. destruct d1 as [|[|[|d1]]]; try lia; cbn [ncomp Nat.eqb] in L2.
    - destruct Y as [|y0 [|y1 [|]]]; try discriminate L2. eexists _, _. split; [reflexivity|]. split; [reflexivity|]. cbn [ref map nth ccomp mapM bind pmul psub padd popp Arr2Ops]; rewrite ?bin2_mk2; cbn [bind]; rewrite ?bin2_mk2; reflexivity.
    - destruct Y as [|y0 [|]]; try discriminate L2. eexists _, _. split; [reflexivity|]. split; [reflexivity|]. cbn [ref map nth ccomp mapM bind pmul psub padd popp Arr2Ops]; rewrite ?neg2_mk2; cbn [bind]; rewrite ?bin2_mk2; reflexivity. }
  rewrite E1; cbn [bind]. rewrite E2. rewrite E3; cbn [bind]. rewrite EU; cbn [bind]. exact FU1.
Qed.
Lemma C_entry2 p0 d1 p1 p2 : 1 <= d1 <= 2 -> dget ckey_eqb (g2C G) (p0, (d1, p1), p2) = Ok (get_c2 (g2T G) (g2U G) p0 d1 p1 p2).
Proof.
  intro. destruct (product_ok close gx gy Gx Gy) as (sx & sy & G' & _ & _ & E & _ & _ & _ & _ & _ & _ & _ & _ & _ & _ & _ & _ & HC). rewrite EG in E. injection E as <-. rewrite HC.
  destruct d1 as [|[|[|d1]]]; try lia; destruct p0, p1, p2; reflexivity.
Qed.
End S.
