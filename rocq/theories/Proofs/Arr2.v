(** Two-dimensional arrays: entries, rows, columns, operators along an axis. *)
From Coq Require Import ZArith List Lia Arith Bool.
From Coq Require Import ZifyNat.
From Verif Require Import Model.Sym.
From Verif Require Import Model.Num Model.Np Model.Grids1 Model.Common Model.Grid2 Proofs.ListLemmas Proofs.RingSums Proofs.Lin Proofs.TableLin.
Import ListNotations.
Local Open Scope nat_scope.
Ltac Zify.zify_post_hook ::= Z.div_mod_to_equations.

Lemma div_add c i j : j < c -> (i * c + j) / c = i.
Proof. intro H. rewrite Nat.div_add_l by lia. rewrite Nat.div_small by lia. lia. Qed.
Lemma mod_add c i j : j < c -> (i * c + j) mod c = j.
Proof. intro H. rewrite Nat.add_comm, Nat.mod_add by lia. now apply Nat.mod_small. Qed.
Lemma idx_lt r c i j : i < r -> j < c -> i * c + j < r * c.
Proof. intros. nia. Qed.
Lemma idx_div r c k : k < r * c -> k / c < r /\ k mod c < c.
Proof. intro H. destruct c; [lia|]. split; [apply Nat.div_lt_upper_bound; lia|apply Nat.mod_upper_bound; lia]. Qed.
Lemma idx_eq c k : 0 < c -> k / c * c + k mod c = k.
Proof. intro H. rewrite (Nat.div_mod k c) at 3 by lia. lia. Qed.

Definition wf2 {A} (x : arr A) : Prop := length (dat x) = nr x * nc x.

Section A.
Context {A : Type} `{NumLaws A}.
Lemma nr_mk2 r c (f : nat -> nat -> A) : nr (mk2 r c f) = r. Proof. reflexivity. Qed.
Lemma nc_mk2 r c (f : nat -> nat -> A) : nc (mk2 r c f) = c. Proof. reflexivity. Qed.
Lemma wf_mk2 r c (f : nat -> nat -> A) : wf2 (mk2 r c f).
Proof. unfold wf2, mk2. cbn [nr nc dat]. apply length_tab. Qed.
Lemma at_mk2 r c (f : nat -> nat -> A) i j : i < r -> j < c -> at2 (mk2 r c f) i j = f i j.
Proof. intros Hi Hj. unfold at2, mk2. cbn [nr nc dat]. rewrite nth_tab by now apply idx_lt. now rewrite div_add, mod_add. Qed.
Lemma mk2_ext r c (f g : nat -> nat -> A) : (forall i j, i < r -> j < c -> f i j = g i j) -> mk2 r c f = mk2 r c g.
Proof. intro E. unfold mk2. f_equal. apply tab_ext. intros k Hk. destruct (idx_div _ _ _ Hk). now apply E. Qed.
Lemma mk2_at (x : arr A) : wf2 x -> x = mk2 (nr x) (nc x) (at2 x).
Proof.
  destruct x as [r c l]. unfold wf2, mk2, at2. cbn [nr nc dat]. intro E. f_equal. apply (list_eq_nth nzero); rewrite ?length_tab; auto. intros k Hk.
  rewrite nth_tab by lia. destruct c; [lia|]. now rewrite idx_eq by lia.
Qed.
Lemma mk2_inj r c (f g : nat -> nat -> A) : mk2 r c f = mk2 r c g -> forall i j, i < r -> j < c -> f i j = g i j.
Proof. intros E i j Hi Hj. rewrite <- (at_mk2 r c f), <- (at_mk2 r c g) by auto. now rewrite E. Qed.
Lemma arr_ext (x y : arr A) : wf2 x -> wf2 y -> nr x = nr y -> nc x = nc y -> (forall i j, i < nr x -> j < nc x -> at2 x i j = at2 y i j) -> x = y.
Proof. intros Wx Wy Er Ec E. rewrite (mk2_at x Wx), (mk2_at y Wy), <- Er, <- Ec. now apply mk2_ext. Qed.
Lemma row_mk2 r c (f : nat -> nat -> A) i : i < r -> row (mk2 r c f) i = tab c (f i).
Proof. intro Hi. unfold row. apply tab_ext. intros j Hj. now apply at_mk2. Qed.
Lemma transpose_mk2 r c (f : nat -> nat -> A) : transpose (mk2 r c f) = mk2 c r (fun i j => f j i).
Proof. unfold transpose. rewrite nr_mk2, nc_mk2. apply mk2_ext. intros. now apply at_mk2. Qed.
Lemma neg2_mk2 r c (f : nat -> nat -> A) : neg2 (mk2 r c f) = mk2 r c (fun i j => nopp (f i j)).
Proof. unfold neg2, mk2. cbn [nr nc dat]. now rewrite map_tab. Qed.
Lemma bin2_mk2 r c op (f g : nat -> nat -> A) : bin2 op (mk2 r c f) (mk2 r c g) = Ok (mk2 r c (fun i j => op (f i j) (g i j))).
Proof. unfold bin2, same_shape, mk2. cbn [nr nc dat]. rewrite !Nat.eqb_refl. cbn [andb]. now rewrite zipw_tab. Qed.

Lemma mapM_ok {B D} (h : B -> res D) (g : B -> D) l : (forall b, In b l -> h b = Ok (g b)) -> mapM h l = Ok (map g l).
Proof.
  induction l as [|b l IH]; intro E; [reflexivity|]. cbn [mapM]. rewrite (E b) by now left. cbn [nr nc dat]. rewrite IH; [reflexivity|]. intros; apply E. now right.
Qed.
Lemma concat_rows r p (L : nat -> list A) : (forall i, i < r -> length (L i) = p) -> concat (map L (seq 0 r)) = tab (r * p) (fun k => nth (k mod p) (L (k / p)) nzero).
Proof.
  revert L. induction r as [|r IH]; intros L HL; [reflexivity|]. cbn [seq map concat]. rewrite <- seq_shift, map_map. rewrite (IH (fun i => L (S i))) by (intros; apply HL; lia).
  apply (list_eq_nth nzero); [rewrite app_length, !length_tab, (HL 0) by lia; lia|]. rewrite app_length, length_tab, (HL 0) by lia. intros k Hk. rewrite (nth_tab (S r * p)) by lia.
  destruct (Nat.ltb_spec k p).
  - rewrite app_nth1 by (rewrite HL; lia). now rewrite Nat.div_small, Nat.mod_small.
  - rewrite app_nth2 by (rewrite HL; lia). rewrite HL by lia. rewrite nth_tab by lia. replace (k / p) with (S ((k - p) / p)). 2:{ replace k with ((k - p) + 1 * p) at 2 by lia. rewrite Nat.div_add by lia. lia. }
    f_equal. replace k with ((k - p) + 1 * p) at 2 by lia. rewrite Nat.mod_add by lia. reflexivity.
Qed.
Lemma along1_mk2 (h : list A -> res (list A)) (g : list A -> list A) r c p f : 0 < r -> (forall l, length l = c -> h l = Ok (g l) /\ length (g l) = p) ->
  along1 h (mk2 r c f) = Ok (mk2 r p (fun i j => nth j (g (tab c (f i))) nzero)).
Proof.
  intros Hr Hh. unfold along1. rewrite nr_mk2. rewrite (mapM_ok h g).
  2:{ intros b Hb. apply in_map_iff in Hb. destruct Hb as (i & <- & Hi). apply in_seq in Hi. rewrite row_mk2 by lia. apply Hh, length_tab. }
  cbn [bind]. rewrite map_map. rewrite (map_ext_in _ (fun i => g (tab c (f i)))). 2:{ intros i Hi. apply in_seq in Hi. now rewrite row_mk2 by lia. }
  assert (forall i, i < r -> length (g (tab c (f i))) = p) as L by (intros; apply Hh, length_tab).
  destruct r as [|r]; [lia|]. unfold stack. cbn [seq map]. rewrite (L 0) by lia.
  match goal with |- (if ?b then _ else _) = _ => assert (b = true) as -> end.
  { apply forallb_forall. intros s Hs. apply Nat.eqb_eq. change (In s (map (fun i => g (tab c (f i))) (seq 0 (S r)))) in Hs. apply in_map_iff in Hs. destruct Hs as (i & <- & Hi). apply in_seq in Hi. apply L. lia. }
  change (g (tab c (f 0)) :: map (fun i => g (tab c (f i))) (seq 1 r)) with (map (fun i => g (tab c (f i))) (seq 0 (S r))).
  rewrite map_length, seq_length. rewrite (concat_rows (S r) p) by auto. reflexivity.
Qed.
Lemma along0_mk2 (h : list A -> res (list A)) (g : list A -> list A) r c p f : 0 < c -> (forall l, length l = r -> h l = Ok (g l) /\ length (g l) = p) ->
  along0 h (mk2 r c f) = Ok (mk2 p c (fun i j => nth i (g (tab r (fun i => f i j))) nzero)).
Proof.
  intros Hc Hh. unfold along0. rewrite transpose_mk2. rewrite (along1_mk2 h g c r p) by auto. cbn [bind]. now rewrite transpose_mk2.
Qed.

(** operators along different axes commute *)
Lemma nth_lin_bsum m n g (K : nat) (c : nat -> A) (L : nat -> nat -> A) j : lin m n g -> j < n ->
  nth j (g (tab m (fun i => bsum K (fun k => nmul (c k) (L k i))))) nzero = bsum K (fun k => nmul (c k) (nth j (g (tab m (L k))) nzero)).
Proof.
  intros Hg Hj. rewrite (lin_matrix m n g) by (auto; apply length_tab). rewrite nth_tab by auto.
  transitivity (bsum m (fun i => bsum K (fun k => nmul (c k) (nmul (nth j (g (unit m i)) nzero) (L k i))))).
  { apply bsum_ext. intros i Hi. rewrite nth_tab by auto. rewrite <- bsum_scal. apply bsum_ext. intros k Hk. pose proof (num_ring (A := A)) as RR. now rewrite !(ARmul_assoc (Rth_ARth (Eqsth A) (Eq_ext _ _ _) RR)), (Rmul_comm RR (nth j _ _)). }
  rewrite bsum_swap. apply bsum_ext. intros k Hk. rewrite bsum_scal. f_equal. rewrite (lin_matrix m n g (tab m (L k))) by (auto; apply length_tab). rewrite nth_tab by auto. apply bsum_ext. intros i Hi. now rewrite nth_tab.
Qed.
Lemma axes_commute r c p q g h (f : nat -> nat -> A) i j : lin c p g -> lin r q h -> i < q -> j < p ->
  nth j (g (tab c (fun j => nth i (h (tab r (fun i => f i j))) nzero))) nzero = nth i (h (tab r (fun i => nth j (g (tab c (f i))) nzero))) nzero.
Proof.
  intros Hg Hh Hi Hj.
  transitivity (nth j (g (tab c (fun j => bsum r (fun k => nmul (nth i (h (unit r k)) nzero) (f k j))))) nzero).
  { do 2 f_equal. apply tab_ext. intros j' Hj'. rewrite (lin_matrix r q h) by (auto; apply length_tab). rewrite nth_tab by auto. apply bsum_ext. intros k Hk. now rewrite nth_tab. }
  rewrite (nth_lin_bsum c p g r _ f j Hg Hj). symmetry. rewrite (lin_matrix r q h) by (auto; apply length_tab). rewrite nth_tab by auto. apply bsum_ext. intros k Hk. now rewrite nth_tab.
Qed.
End A.
