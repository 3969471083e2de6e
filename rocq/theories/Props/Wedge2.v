(** C48-C49: wedge product and contraction on product grids. *)
From Coq Require Import ZArith Reals List Lia Lra Arith Bool.
From Coq Require Import ZifyNat ZifyBool.
From Verif Require Import Model.Sym.
From Coquelicot Require Import Coquelicot.
From Verif Require Import Model.Num Model.Np Model.Spectral Model.Chebyshev Model.Grids1 Model.Common Model.Decform Model.Grid2 Spec.Tiling
  Proofs.ListLemmas Proofs.RingSums Proofs.Lin Proofs.TableLin Proofs.Arr2 Proofs.Grid2P Proofs.Grid2Ops Proofs.Wedge2 Props.Decform Props.Refinement Props.Grid2 Props.Refine2.
Import ListNotations.
Local Open Scope nat_scope.
Ltac Zify.zify_post_hook ::= Z.div_mod_to_equations.

Theorem C48_keys close gx gy G d0 p0 d1 p1 p2 : good gx -> good gy -> product close gx gy = Ok G ->
  ((exists o, dget wkey_eqb (g2W G) ((d0, p0), (d1, p1), p2) = Ok o) <-> d0 + d1 <= 2).
Proof.
  intros Gx Gy EG. destruct (product_ok close gx gy Gx Gy) as (sx & sy & G' & _ & _ & E & _ & _ & _ & _ & _ & _ & _ & _ & _ & _ & _ & HW & _). rewrite EG in E. injection E as <-. rewrite HW. split.
  - intros [o E]. destruct d0 as [|[|[|d0]]], d1 as [|[|[|d1]]]; try lia; destruct p0, p1, p2; discriminate.
  - intro. destruct d0 as [|[|[|d0]]], d1 as [|[|[|d1]]]; try lia; destruct p0, p1, p2; eexists; reflexivity.
Qed.
Lemma map_opp_comb (c : list R) : map Ropp c = comb (-2) c c.
Proof. unfold comb. induction c as [|x c IH]; cbn; [reflexivity|]. rewrite IH. f_equal. ring. Qed.
Lemma comb0 (c : list R) : comb 0 c c = c.
Proof. unfold comb. induction c as [|x c IH]; cbn; [reflexivity|]. rewrite IH. f_equal. ring. Qed.
Lemma N_of close gx gy G d t n : good gx -> good gy -> product close gx gy = Ok G -> d <= 2 -> (tget (g2N G) (d, t) = Ok n <-> n = N2 gx gy d t).
Proof.
  intros Gx Gy EG Hd. destruct (product_ok close gx gy Gx Gy) as (sx & sy & G' & _ & _ & E & _ & _ & HN & _). rewrite EG in E. injection E as <-. rewrite HN, tget_table6 by auto. split; [now intros [= ->]|now intros ->].
Qed.
(** a ^ b = (-1)^(k l) b ^ a for every kind of operands and result *)
Theorem C48_graded_commutative close gx gy G d0 p0 d1 p1 p2 a b : refinable close gx -> refinable close gy -> product close gx gy = Ok G -> d0 + d1 <= 2 ->
  tget (g2N G) (d0, p0) = Ok (length a) -> tget (g2N G) (d1, p1) = Ok (length b) ->
  exists w w' c, dget wkey_eqb (g2W G) ((d0, p0), (d1, p1), p2) = Ok w /\ dget wkey_eqb (g2W G) ((d1, p1), (d0, p0), p2) = Ok w' /\
  w a b = Ok c /\ w' b a = Ok (if Nat.odd (d0 * d1) then map Ropp c else c) /\ tget (g2N G) (d0 + d1, p2) = Ok (length c).
Proof.
  intros Rx Ry EG Hd La Lb. pose proof (Logic.proj1 Rx) as Gx. pose proof (Logic.proj1 Ry) as Gy.
  apply (N_of close gx gy G d0 p0 _ Gx Gy EG ltac:(lia)) in La. apply (N_of close gx gy G d1 p1 _ Gx Gy EG ltac:(lia)) in Lb.
  rewrite (W_entry2 close gx gy Rx Ry G EG d0) by auto. rewrite (W_entry2 close gx gy Rx Ry G EG d1) by lia.
  assert (direct d1 p1 d0 p0 p2 = direct d0 p0 d1 p1 p2) as -> by (destruct d0 as [|[|[|]]], d1 as [|[|[|]]], p0, p1, p2; reflexivity || lia).
  destruct (direct d0 p0 d1 p1 p2) eqn:Dr.
  - unfold direct in Dr. rewrite !andb_true_iff, !eqb_true_iff, !Nat.eqb_eq in Dr. destruct Dr as [[[-> ->] ->] ->]. eexists _, _, _. split; [reflexivity|]. split; [reflexivity|]. rewrite !np_bin_eq by lia. split; [reflexivity|].
    split; [cbn; now rewrite zipw_comm|]. apply (N_of close gx gy G (0 + 0) p2 _ Gx Gy EG ltac:(lia)). rewrite length_zipw. cbn [Nat.add]. lia.
  - destruct (T_lin close gx gy Rx Ry G EG d0 p0 ltac:(lia)) as (T & tau & ET & FT & _). destruct (T_lin close gx gy Rx Ry G EG d1 p1 ltac:(lia)) as (T' & tau' & ET' & FT' & _).
    destruct (U_lin close gx gy Rx Ry G EG (d0 + d1) p2 ltac:(lia)) as (U & ups & EU & FU & LU).
    destruct (get_w2_val gx gy G d0 p0 d1 p1 p2 a b Hd La Lb T tau T' tau' U ups ET (FT a La) ET' (FT' b Lb) EU FU) as [E1 L1].
    destruct (get_w2_val gx gy G d1 p1 d0 p0 p2 b a ltac:(lia) Lb La T' tau' T tau U ups ET' (FT' b Lb) ET (FT a La)) as [E2 L2]; rewrite ?(Nat.add_comm d1 d0); auto.
    eexists _, _, _. split; [reflexivity|]. split; [reflexivity|]. split; [exact E1|]. split; [|now apply (N_of close gx gy G (d0 + d1) p2 _ Gx Gy EG ltac:(lia))]. rewrite E2. f_equal. clear E1 E2 L1 L2.
    set (A := tau a). set (B := tau' b). 
    assert (Nat.odd (d0 * d1) = (Nat.eqb d0 1 && Nat.eqb d1 1)%bool) as -> by (destruct d0 as [|[|[|]]], d1 as [|[|[|]]]; reflexivity || lia).
    pose proof (length_wcomp d0 d1 A B Hd) as LW. pose proof (length_wcomp d1 d0 B A ltac:(lia)) as LW'. rewrite (Nat.add_comm d1) in LW'.
    destruct (Nat.eqb d0 1 && Nat.eqb d1 1)%bool eqn:E11.
    + rewrite map_opp_comb. apply LU; auto. rewrite andb_true_iff, !Nat.eqb_eq in E11. destruct E11 as [-> ->]. intros [|c] i j Hi Hj; cbn; [unfold fsub, fmul; ring|destruct c; unfold zf; ring].
    + rewrite <- (comb0 (ups (wcomp d0 d1 A B))). apply LU; auto. intros [|[|c]] i j Hi Hj; destruct d0 as [|[|[|]]], d1 as [|[|[|]]]; try lia; try discriminate E11; cbn; unfold fmul, zf; try ring; destruct c; unfold zf; ring.
Qed.
Lemma lincomb_w gx gy r d0 d1 A A' A'' B : d0 + d1 <= 2 -> lincomb gx gy r A A' A'' -> lincomb gx gy r (wcomp d0 d1 A B) (wcomp d0 d1 A' B) (wcomp d0 d1 A'' B).
Proof.
  intros Hd E c i j Hi Hj. pose proof (E 0 i j Hi Hj) as E0. pose proof (E 1 i j Hi Hj) as E1.
  destruct d0 as [|[|[|]]], d1 as [|[|[|]]]; try lia; destruct c as [|[|[|c]]]; cbn [wcomp nth]; unfold fmul, fsub, zf in *; rewrite ?E0, ?E1; try ring.
Qed.
Theorem C48_bilinear close gx gy G d0 p0 d1 p1 p2 r a a' b : refinable close gx -> refinable close gy -> product close gx gy = Ok G -> d0 + d1 <= 2 ->
  tget (g2N G) (d0, p0) = Ok (length a) -> length a' = length a -> tget (g2N G) (d1, p1) = Ok (length b) ->
  exists w w' c c' e e', dget wkey_eqb (g2W G) ((d0, p0), (d1, p1), p2) = Ok w /\ dget wkey_eqb (g2W G) ((d1, p1), (d0, p0), p2) = Ok w' /\
  w a b = Ok c /\ w a' b = Ok c' /\ w (comb r a a') b = Ok (comb r c c') /\
  w' b a = Ok e /\ w' b a' = Ok e' /\ w' b (comb r a a') = Ok (comb r e e').
Proof.
  intros Rx Ry EG Hd La0 La' Lb0. pose proof (Logic.proj1 Rx) as Gx. pose proof (Logic.proj1 Ry) as Gy.
  assert (length (comb r a a') = length a) as Lc by (rewrite length_comb; auto).
  destruct (C48_graded_commutative close gx gy G d0 p0 d1 p1 p2 a b Rx Ry EG Hd La0 Lb0) as (w & w' & c & Ew & Ew' & E1 & E2 & _).
  destruct (C48_graded_commutative close gx gy G d0 p0 d1 p1 p2 a' b Rx Ry EG Hd) as (w0 & w0' & c' & Ew0 & Ew0' & E1' & E2' & _); rewrite ?La'; auto. rewrite Ew in Ew0; injection Ew0 as <-. rewrite Ew' in Ew0'; injection Ew0' as <-.
  destruct (C48_graded_commutative close gx gy G d0 p0 d1 p1 p2 (comb r a a') b Rx Ry EG Hd) as (w0 & w0' & c'' & Ew0 & Ew0' & E3 & E4 & _); rewrite ?Lc; auto. rewrite Ew in Ew0; injection Ew0 as <-. rewrite Ew' in Ew0'; injection Ew0' as <-.
  apply (N_of close gx gy G d0 p0 _ Gx Gy EG ltac:(lia)) in La0. apply (N_of close gx gy G d1 p1 _ Gx Gy EG ltac:(lia)) in Lb0.
  assert (c'' = comb r c c') as ->.
  { rewrite (W_entry2 close gx gy Rx Ry G EG d0) in Ew by auto. injection Ew as <-. destruct (direct d0 p0 d1 p1 p2) eqn:Dr.
    - unfold direct in Dr. rewrite !andb_true_iff, !eqb_true_iff, !Nat.eqb_eq in Dr. destruct Dr as [[[-> ->] ->] ->].
      rewrite np_bin_eq in E1, E1', E3 by lia. injection E1 as <-. injection E1' as <-. injection E3 as <-. set (m := N2 gx gy 0 p2) in *.
      unfold comb. rewrite !(zipw_len_tab _ m) by (rewrite ?length_zipw; lia). apply tab_ext. intros i Hi. rewrite !nth_tab by auto. ring.
    - destruct (T_lin close gx gy Rx Ry G EG d0 p0 ltac:(lia)) as (T & tau & ET & FT & LT). destruct (T_lin close gx gy Rx Ry G EG d1 p1 ltac:(lia)) as (T' & tau' & ET' & FT' & _).
      destruct (U_lin close gx gy Rx Ry G EG (d0 + d1) p2 ltac:(lia)) as (U & ups & EU & FU & LU).
      destruct (get_w2_val gx gy G d0 p0 d1 p1 p2 a b Hd La0 Lb0 T tau T' tau' U ups ET (FT a La0) ET' (FT' b Lb0) EU FU) as [X1 _].
      destruct (get_w2_val gx gy G d0 p0 d1 p1 p2 a' b Hd ltac:(lia) Lb0 T tau T' tau' U ups ET (FT a' ltac:(lia)) ET' (FT' b Lb0) EU FU) as [X2 _].
      destruct (get_w2_val gx gy G d0 p0 d1 p1 p2 (comb r a a') b Hd ltac:(lia) Lb0 T tau T' tau' U ups ET (FT (comb r a a') ltac:(lia)) ET' (FT' b Lb0) EU FU) as [X3 _].
      rewrite E1 in X1. rewrite E1' in X2. rewrite E3 in X3. injection X1 as ->. injection X2 as ->. injection X3 as ->. apply LU; try (now apply length_wcomp). apply lincomb_w; auto. apply LT; lia. }
  eexists w, w', c, c', _, _. repeat (split; [eassumption|]). rewrite E4. destruct (Nat.odd (d0 * d1)); [|reflexivity]. f_equal. unfold comb. rewrite map_opp_comb. unfold comb.
  clear. revert c'. induction c as [|x c IH]; intros [|y c']; cbn; auto. f_equal; [ring|apply IH].
Qed.
(** the constant 1 is neutral, whatever its kind, when the result has the kind of the other argument *)
Lemma repeat_flat r c : repeat 1%R (r * c) = flat r c (fun _ _ => 1%R).
Proof.
  apply (list_eq_nth 1%R); [now rewrite repeat_length, length_flat|]. rewrite repeat_length. intros k Hk. rewrite nth_repeat. destruct (idx_div _ _ _ Hk). rewrite <- (idx_eq c k) by lia. now rewrite nth_flat.
Qed.
Lemma T_ones close gx gy G p : refinable close gx -> refinable close gy -> product close gx gy = Ok G ->
  exists T, tget (g2T G) (0, p) = Ok T /\ T (repeat 1%R (N2 gx gy 0 p)) = Ok (ref gx gy [fun _ _ => 1%R]).
Proof.
  intros Rx Ry EG. pose proof (Logic.proj1 Rx) as Gx. pose proof (Logic.proj1 Ry) as Gy.
  destruct (product_ok close gx gy Gx Gy) as (sx & sy & G' & _ & _ & E & _ & _ & HN & _ & _ & _ & _ & _ & _ & HT & _). rewrite EG in E. injection E as <-. rewrite HT. unfold to_refine.
  match goal with |- context [reshapeT _ (table6 ?t0)] => destruct (T_get gx gy t0 0 p ltac:(lia)) as (T & ET & FT) end. exists T. split; [exact ET|]. rewrite FT. cbn [N2 shp2]. rewrite repeat_flat, reshape_flat. cbn [bind get_arr].
  change (0 / 2) with 0.
  destruct (t_pair close gx 0 p Rx ltac:(lia)) as (X & _ & X' & _ & A1 & _ & A3 & _ & A5 & _). destruct (t_pair close gy 0 p Ry ltac:(lia)) as (Y & _ & Y' & _ & B1 & _ & B3 & _ & B5 & _).
  destruct (T_one close (kd gx) (sz gx) p (proj2 Rx)) as (x & Ex & Fx). rewrite A3 in Ex. injection Ex as <-. destruct (T_one close (kd gy) (sz gy) p (proj2 Ry)) as (y & Ey & Fy). rewrite B3 in Ey. injection Ey as <-.
  fold (Nd gx 0 p) in Fx. fold (Nd gy 0 p) in Fy. rewrite A5 in Fx by apply length_tab. rewrite B5 in Fy by apply length_tab. injection Fx as Fx. injection Fy as Fy.
  unfold tyx. rewrite A3, B3. cbn [bind]. pose proof (Nd_pos gx 0 p Gx). pose proof (Nd_pos gy 0 p Gy). pose proof (rf_pos gx Gx).
  rewrite (along1_flat _ X' _ _ (rf gx)) by auto. cbn [bind]. rewrite (along0_flat _ Y' _ _ (rf gy)) by auto. cbn [bind ref map]. do 2 f_equal. apply mk2_ext. intros i j Hi Hj.
  rewrite (oncols_ext _ _ _ (fun _ _ => 1%R)).
  - unfold oncols. rewrite Fy. now rewrite nth_tab.
  - intros k Hk. unfold onrows. rewrite Fx. now rewrite nth_tab.
Qed.
Theorem C48_one_neutral close gx gy G p d q n b : refinable close gx -> refinable close gy -> product close gx gy = Ok G -> d <= 2 ->
  tget (g2N G) (0, p) = Ok n -> tget (g2N G) (d, q) = Ok (length b) ->
  exists w, dget wkey_eqb (g2W G) ((0, p), (d, q), q) = Ok w /\ w (repeat 1%R n) b = Ok b.
Proof.
  intros Rx Ry EG Hd La Lb0. pose proof (Logic.proj1 Rx) as Gx. pose proof (Logic.proj1 Ry) as Gy. pose proof Lb0 as Lb.
  apply (N_of close gx gy G 0 p _ Gx Gy EG ltac:(lia)) in La. apply (N_of close gx gy G d q _ Gx Gy EG ltac:(lia)) in Lb. subst n.
  rewrite (W_entry2 close gx gy Rx Ry G EG 0 p d q q) by lia. eexists. split; [reflexivity|].
  assert (length (repeat 1%R (N2 gx gy 0 p)) = N2 gx gy 0 p) as L1 by apply repeat_length.
  destruct (direct 0 p d q q) eqn:Dr.
  - unfold direct in Dr. rewrite !andb_true_iff, !eqb_true_iff, !Nat.eqb_eq in Dr. destruct Dr as [[[-> _] <-] _]. rewrite np_bin_eq by lia. rewrite <- Lb. f_equal. clear. induction b as [|x b IH]; cbn; [reflexivity|]. rewrite IH. f_equal. ring.
  - destruct (T_lin close gx gy Rx Ry G EG 0 p ltac:(lia)) as (T & tau & ET & FT & _). destruct (T_lin close gx gy Rx Ry G EG d q ltac:(lia)) as (T' & tau' & ET' & FT' & _).
    destruct (U_lin close gx gy Rx Ry G EG (0 + d) q ltac:(lia)) as (U & ups & EU & FU & LU). set (u := repeat 1%R (N2 gx gy 0 p)) in *.
    destruct (get_w2_val gx gy G 0 p d q q u b ltac:(lia) L1 Lb T tau T' tau' U ups ET (FT u L1) ET' (FT' b Lb) EU FU) as [X1 _]. rewrite X1. clear X1.
    destruct (C47_round_trip close gx gy G d q b Rx Ry EG Hd Lb0) as (T2 & U2 & g & E1 & E2 & E3 & _ & _ & E4). rewrite ET' in E1. injection E1 as <-. cbn [Nat.add] in EU. rewrite EU in E2. injection E2 as <-.
    destruct (FT' b Lb) as [Lt Et]. rewrite Et in E3. injection E3 as <-. destruct (FU (tau' b) Lt) as [Eu _]. rewrite E4 in Eu. injection Eu as Eu. rewrite Eu at 2. f_equal.
    rewrite <- (comb0 (ups (tau' b))). apply LU; auto; [now apply length_wcomp|].
    destruct (T_ones close gx gy G p Rx Ry EG) as (T3 & E5 & E6). rewrite ET in E5. injection E5 as <-. destruct (FT u L1) as [Lu Eu1]. fold u in E6. rewrite E6 in Eu1.
    assert (exists F, tau u = [F] /\ forall i j, i < rf gy -> j < rf gx -> F i j = 1%R) as (F & EF & HF).
    { destruct (tau u) as [|F [|]]; try discriminate Lu. exists F. split; auto. cbn [ref map] in Eu1. injection Eu1 as Eu1. intros i j Hi Hj. pose proof (flat_inj (rf gy) (rf gx) (fun _ _ => 1%R) F) as K. symmetry. apply K; auto. }
    rewrite EF. set (B := tau' b) in *. intros c i j Hi Hj. pose proof (HF i j Hi Hj) as HF1. clear - Hd HF1 Lt. 
    destruct d as [|[|[|d]]]; [| | |lia]; destruct B as [|b0 [|b1 [|]]]; try discriminate Lt; destruct c as [|[|[|c]]]; cbn [wcomp nth]; unfold fmul, zf; rewrite ?HF1; ring.
Qed.
Lemma refinable_samples : refinable np_isclose gp /\ refinable np_isclose gc.
Proof. destruct sound_samples as (Sp & Sc & _). split; (split; [apply Sp || apply Sc|]); cbn; [lia|]. split; [lia|]. right. split; auto; lia. Qed.
Example C48_instance : exists G w w' c, product np_isclose gp gc = Ok G /\ dget wkey_eqb (g2W G) ((1, false), (1, false), true) = Ok w /\ dget wkey_eqb (g2W G) ((1, false), (1, false), true) = Ok w' /\
  let a := map INR (seq 0 21) in let b := map INR (seq 5 21) in w a b = Ok c /\ w' b a = Ok (map Ropp c) /\ length c = 9.
Proof.
  destruct refinable_samples as (Rp & Rc). pose proof (Logic.proj1 Rp) as Gp. pose proof (Logic.proj1 Rc) as Gc. destruct (product_ok np_isclose gp gc Gp Gc) as (sx & sy & G & _ & _ & E & _ & HS & HN & _).
  destruct (C48_graded_commutative np_isclose gp gc G 1 false 1 false true (map INR (seq 0 21)) (map INR (seq 5 21)) Rp Rc E) as (w & w' & c & E1 & E2 & E3 & E4 & E5); [lia|rewrite HN; reflexivity..|].
  exists G, w, w', c. repeat (split; [assumption|]). apply (N_of np_isclose gp gc G (1 + 1) true _ Gp Gc E ltac:(lia)) in E5. exact E5.
Qed.

(** ** C49 *)
Theorem C49_keys close gx gy G p0 d1 p1 p2 : good gx -> good gy -> product close gx gy = Ok G ->
  ((exists o, dget ckey_eqb (g2C G) (p0, (d1, p1), p2) = Ok o) <-> d1 = 1 \/ d1 = 2) /\ (dget ckey_eqb (g2C G) (p0, (0, p1), p2) = Err KeyError).
Proof.
  intros Gx Gy EG. destruct (product_ok close gx gy Gx Gy) as (sx & sy & G' & _ & _ & E & _ & _ & _ & _ & _ & _ & _ & _ & _ & _ & _ & _ & HC). rewrite EG in E. injection E as <-. rewrite HC. split; [split|].
  - intros [o E]. destruct d1 as [|[|[|d1]]]; auto; destruct p0, p1, p2; discriminate.
  - intro. destruct d1 as [|[|[|d1]]]; try lia; destruct p0, p1, p2; eexists; reflexivity.
  - destruct p0, p1, p2; reflexivity.
Qed.
Lemma lincomb_c gx gy r d1 X X' X'' A : 1 <= d1 <= 2 -> lincomb gx gy r X X' X'' -> lincomb gx gy r (ccomp d1 X A) (ccomp d1 X' A) (ccomp d1 X'' A).
Proof.
  intros Hd E c i j Hi Hj. pose proof (E 0 i j Hi Hj) as E0. pose proof (E 1 i j Hi Hj) as E1.
  destruct d1 as [|[|[|]]]; try lia; destruct c as [|[|[|c]]]; cbn [ccomp nth]; unfold fmul, fadd, fopp, zf in *; rewrite ?E0, ?E1; try ring.
Qed.
Lemma lincomb_c' gx gy r d1 X A A' A'' : 1 <= d1 <= 2 -> lincomb gx gy r A A' A'' -> lincomb gx gy r (ccomp d1 X A) (ccomp d1 X A') (ccomp d1 X A'').
Proof.
  intros Hd E c i j Hi Hj. pose proof (E 0 i j Hi Hj) as E0. pose proof (E 1 i j Hi Hj) as E1.
  destruct d1 as [|[|[|]]]; try lia; destruct c as [|[|[|c]]]; cbn [ccomp nth]; unfold fmul, fadd, fopp, zf in *; rewrite ?E0, ?E1; try ring.
Qed.
(** bilinear, and the degree falls by one: the result is an array of degree d1 - 1 *)
Theorem C49_bilinear close gx gy G p0 d1 p1 p2 r X X' a a' : refinable close gx -> refinable close gy -> product close gx gy = Ok G -> 1 <= d1 <= 2 ->
  tget (g2N G) (1, p0) = Ok (length X) -> length X' = length X -> tget (g2N G) (d1, p1) = Ok (length a) -> length a' = length a ->
  exists i c c' e, dget ckey_eqb (g2C G) (p0, (d1, p1), p2) = Ok i /\ tget (g2N G) (d1 - 1, p2) = Ok (length c) /\
  i X a = Ok c /\ i X' a = Ok c' /\ i (comb r X X') a = Ok (comb r c c') /\
  i X a' = Ok e /\ i X (comb r a a') = Ok (comb r c e).
Proof.
  intros Rx Ry EG Hd LX LX' La La'. pose proof (Logic.proj1 Rx) as Gx. pose proof (Logic.proj1 Ry) as Gy.
  apply (N_of close gx gy G 1 p0 _ Gx Gy EG ltac:(lia)) in LX. apply (N_of close gx gy G d1 p1 _ Gx Gy EG ltac:(lia)) in La.
  rewrite (C_entry2 close gx gy Rx Ry G EG p0 d1 p1 p2 Hd).
  destruct (T_lin close gx gy Rx Ry G EG 1 p0 ltac:(lia)) as (T & tau & ET & FT & LT). destruct (T_lin close gx gy Rx Ry G EG d1 p1 ltac:(lia)) as (T' & tau' & ET' & FT' & LT').
  destruct (U_lin close gx gy Rx Ry G EG (d1 - 1) p2 ltac:(lia)) as (U & ups & EU & FU & LU).
  assert (forall Y b, length Y = N2 gx gy 1 p0 -> length b = N2 gx gy d1 p1 -> get_c2 (g2T G) (g2U G) p0 d1 p1 p2 Y b = Ok (ups (ccomp d1 (tau Y) (tau' b))) /\ length (ups (ccomp d1 (tau Y) (tau' b))) = N2 gx gy (d1 - 1) p2) as V.
  { intros Y b LY Lb. exact (get_c2_val gx gy G p0 d1 p1 p2 Y b Hd LY Lb T tau T' tau' U ups ET (FT Y LY) ET' (FT' b Lb) EU FU). }
  destruct (V X a LX La) as [V1 V2]. destruct (V X' a ltac:(lia) La) as [V3 _]. destruct (V X a' LX ltac:(lia)) as [V4 _].
  assert (length (comb r X X') = length X) as Lc by (apply length_comb; auto). assert (length (comb r a a') = length a) as Lc' by (apply length_comb; auto).
  destruct (V (comb r X X') a ltac:(lia) La) as [V5 _]. destruct (V X (comb r a a') LX ltac:(lia)) as [V6 _].
  eexists _, _, _, _. split; [reflexivity|]. split; [apply (N_of close gx gy G (d1 - 1) p2 _ Gx Gy EG ltac:(lia)); exact V2|]. split; [exact V1|]. split; [exact V3|]. split; [rewrite V5; f_equal|split; [exact V4|rewrite V6; f_equal]].
  - apply LU; try (now apply length_ccomp). apply lincomb_c; auto. apply LT; lia.
  - apply LU; try (now apply length_ccomp). apply lincomb_c'; auto. apply LT'; lia.
Qed.
(** i_X i_X w = 0 for the components of a 2-form: the lambdas of contraction_2d applied to arrays of one shape *)
Theorem C49_nilpotent_components r c (x0 x1 w : nat -> nat -> R) : exists i1 i2 y0 y1,
  nth_error (contraction_2d missing2) 1 = Some i1 /\ nth_error (contraction_2d missing2) 2 = Some i2 /\
  i2 [Ok (mk2 r c x0); Ok (mk2 r c x1)] [Ok (mk2 r c w)] = Comps [y0; y1] /\
  i1 [Ok (mk2 r c x0); Ok (mk2 r c x1)] [y0; y1] = Comps [Ok (mk2 r c (fun _ _ => 0%R))].
Proof.
  eexists _, _, _, _. split; [reflexivity|]. split; [reflexivity|]. split; [reflexivity|]. cbn [nth pmul psub padd popp Arr2Ops bind]. rewrite neg2_mk2. cbn [bind]. rewrite !bin2_mk2. cbn [bind]. rewrite !bin2_mk2. cbn [bind]. rewrite bin2_mk2. do 3 f_equal. apply mk2_ext. intros. cbn. ring.
Qed.
Example C49_instance : exists G i c c' e, product np_isclose gp gc = Ok G /\ dget ckey_eqb (g2C G) (true, (2, false), true) = Ok i /\
  let X := map INR (seq 0 21) in let a := map INR (seq 5 12) in i X a = Ok c /\ i X a = Ok c' /\ i (comb 3 X X) a = Ok (comb 3 c c') /\ i X a = Ok e.
Proof.
  destruct refinable_samples as (Rp & Rc). pose proof (Logic.proj1 Rp) as Gp. pose proof (Logic.proj1 Rc) as Gc. destruct (product_ok np_isclose gp gc Gp Gc) as (sx & sy & G & _ & _ & E & _ & HS & HN & _).
  destruct (C49_bilinear np_isclose gp gc G true 2 false true 3 (map INR (seq 0 21)) (map INR (seq 0 21)) (map INR (seq 5 12)) (map INR (seq 5 12)) Rp Rc E) as (i & c & c' & e & E1 & _ & E3 & E4 & E5 & E6 & _); [lia|rewrite HN; reflexivity|reflexivity|rewrite HN; reflexivity|reflexivity|].
  exists G, i, c, c', e. repeat (split; [assumption|]). assumption.
Qed.
