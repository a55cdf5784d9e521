(** Proofs about build_2rdm: the phase. *)
From Coq Require Import Bool Btauto List Arith ZArith Lia Ring.
From Verif Require Import Coeff MatSpec MatLemmas OpSpec FockSpec CircuitSpec FermiModel FermiProofs RdmSpec RdmFock EncProofs InvModel IntsModel W2Model.
Import ListNotations.
Local Open Scope nat_scope.

Lemma set_char_upd p b det : p < length det -> set_char p b det = upd p b det.
Proof.
  unfold set_char. revert p. induction det as [|x det IH]; intros [|p] H; cbn [length] in H; try lia; cbn [firstn skipn app upd Nat.add]; [reflexivity|].
  f_equal. apply IH. lia.
Qed.
Lemma upd_len {A} p (b : A) l : length (upd p b l) = length l.
Proof. revert p. induction l as [|x l IH]; intros [|p]; cbn [upd length]; auto. Qed.
Lemma nth_upd p q (b d : bool) l : q < length l -> nth p (upd q b l) d = if Nat.eqb p q then b else nth p l d.
Proof. revert p q. induction l as [|x l IH]; intros [|p] [|q] H; cbn [length] in H; try lia; cbn [upd nth Nat.eqb]; auto. apply IH. lia. Qed.
Lemma parity_upd p q b l : q < length l -> parity (firstn p (upd q b l)) = xorb (parity (firstn p l)) ((q <? p) && xorb b (nth q l false)).
Proof.
  revert p q. induction l as [|x l IH]; intros [|p] [|q] H; cbn [length] in H; try lia; cbn [upd firstn parity fold_right nth]; try reflexivity.
  - change (0 <? S p) with true. fold (parity (firstn p l)). btauto.
  - fold (parity (firstn p (upd q b l))). fold (parity (firstn p l)). rewrite IH by lia. change (S q <? S p) with (q <? p). btauto.
Qed.
Definition zs (b : bool) : Z := if b then (-1)%Z else 1%Z.
Lemma zs_xor a b : zs (xorb a b) = (zs a * zs b)%Z. Proof. destruct a, b; reflexivity. Qed.
Lemma firstn_S_nth (l : bits) p : p < length l -> firstn (S p) l = firstn p l ++ [nth p l false].
Proof. revert p. induction l as [|x l IH]; intros [|p] H; cbn [length] in H; try lia; [reflexivity|]. cbn [firstn nth app]. rewrite <- IH by lia. reflexivity. Qed.
Lemma phase_before_spec det place : place <= length det -> phase_before det place 0 = zs (parity (firstn place det)).
Proof.
  unfold phase_before. rewrite Nat.sub_0_r. intro H. induction place as [|p IH]; [reflexivity|].
  rewrite seq_S, fold_left_app, IH by lia. cbn [fold_left plus]. rewrite (firstn_S_nth det p) by lia. rewrite EncProofs.parity_app. cbn [parity fold_right].
  rewrite xorb_false_r, zs_xor. destruct (nth p det false); cbn [zs]; lia.
Qed.
Lemma fock1_in o p det : p < length det -> fock1 o p det =
  match local o (nth p det false) with None => None | Some b => Some (ladder o && parity (firstn p det), upd p b det) end.
Proof. intro H. unfold fock1. rewrite (nth_error_nth' det false H). reflexivity. Qed.
Lemma odd1 a : (if odd_many [a] then (-1)%Z else 1%Z) = zs a. Proof. destruct a; reflexivity. Qed.
Lemma odd2 a b : (if odd_many [a; b] then (-1)%Z else 1%Z) = zs (xorb a b). Proof. destruct a, b; reflexivity. Qed.
Lemma odd3 a b c : (if odd_many [a; b; c] then (-1)%Z else 1%Z) = zs (xorb a (xorb b c)). Proof. destruct a, b, c; reflexivity. Qed.

(** The result of a string of operators on a determinant, as a phase in -1, 0, 1 and a determinant. *)
Definition phase_of (r : option (bool * bits)) : Z := match r with None => 0%Z | Some (s, _) => zs s end.
Definition two_body (i k l j : nat) : list (fop * nat) := [(Cre, i); (Cre, k); (Ann, l); (Ann, j)].
Lemma phase_2e_spec i k l j det : i < length det -> k < length det -> l < length det -> j < length det ->
  exists ph nd, phase_2e_oper i k l j det 0 = Some (ph, nd) /\ ph = phase_of (fock (two_body i k l j) det) /\
    (forall s m, fock (two_body i k l j) det = Some (s, m) -> nd = m).
Proof.
  intros Hi Hk Hl Hj. unfold phase_2e_oper.
  rewrite (nth_error_nth' det false Hi), (nth_error_nth' det false Hk), (nth_error_nth' det false Hl), (nth_error_nth' det false Hj).
  eexists _, _. split; [reflexivity|].
  rewrite odd1, odd2, odd3, !phase_before_spec by lia.
  rewrite !Nat.leb_antisym.
  unfold new_det. rewrite (set_char_upd j) by lia. do 3 rewrite (set_char_upd _ _ (upd _ _ _)) by (rewrite ?upd_len; lia).
  unfold two_body. cbn [fock]. rewrite (fock1_in Ann j det Hj).
  destruct (nth j det false) eqn:Ej; cbn [local]; [|split; [rewrite Z.mul_0_r, !Z.mul_0_r; cbn [phase_of Z.b2z]; ring|discriminate]].
  rewrite (fock1_in Ann l) by (rewrite upd_len; lia). rewrite nth_upd by lia. unfold delta.
  destruct (Nat.eqb_spec l j) as [->|Nlj]; [cbn [local]; split; [cbn [phase_of]; ring|discriminate]|].
  destruct (nth l det false) eqn:El; cbn [local]; [|split; [cbn [phase_of Z.b2z]; ring|discriminate]].
  rewrite (fock1_in Cre k) by (rewrite !upd_len; lia). rewrite !nth_upd by (rewrite ?upd_len; lia).
  destruct (local Cre (if k =? l then false else if k =? j then false else nth k det false)) as [bk|] eqn:Lk.
  2:{ split; [|discriminate]. cbn [phase_of]. destruct (Nat.eqb_spec k l); [discriminate|]. destruct (Nat.eqb_spec k j); [discriminate|]. destruct (nth k det false); [|discriminate]. cbn [Z.b2z]. ring. }
  assert (bk = true) as -> by (destruct (if k =? l then false else if k =? j then false else nth k det false); [discriminate|injection Lk as <-; reflexivity]).
  rewrite (fock1_in Cre i) by (rewrite !upd_len; lia). rewrite !nth_upd by (rewrite ?upd_len; lia).
  destruct (Nat.eqb_spec i k) as [->|Nik]; [cbn [local]; split; [cbn [phase_of]; ring|discriminate]|].
  destruct (local Cre (if i =? l then false else if i =? j then false else nth i det false)) as [bi|] eqn:Li.
  2:{ split; [|discriminate]. cbn [phase_of]. destruct (Nat.eqb_spec i l); [discriminate|]. destruct (Nat.eqb_spec i j); [discriminate|]. destruct (nth i det false); [|discriminate]. cbn [Z.b2z]. ring. }
  assert (bi = true) as -> by (destruct (if i =? l then false else if i =? j then false else nth i det false); [discriminate|injection Li as <-; reflexivity]).
  split; [|intros s m E; injection E as <- <-; reflexivity].
  cbn [phase_of ladder andb]. rewrite !parity_upd by (rewrite ?upd_len; lia). rewrite !nth_upd by (rewrite ?upd_len; lia). rewrite Ej, El.
  rewrite (proj2 (Nat.eqb_neq l j) Nlj).
  (* occupation of k and i at the time of their creation *)
  assert (Tk : ((if (k =? l)%nat then 1 else 0) + (if (k =? j)%nat then 1 else 0) + 1 - Z.b2z (nth k det false) = 1)%Z).
  { destruct (Nat.eqb_spec k l) as [E1|]; destruct (Nat.eqb_spec k j) as [E2|]; try lia; [rewrite E1, El; reflexivity|rewrite E2, Ej; reflexivity|]. destruct (nth k det false); [discriminate|reflexivity]. }
  assert (Ti : ((if (i =? l)%nat then 1 else 0) + (if (i =? j)%nat then 1 else 0) + 1 - Z.b2z (nth i det false) = 1)%Z).
  { destruct (Nat.eqb_spec i l) as [E1|]; destruct (Nat.eqb_spec i j) as [E2|]; try lia; [rewrite E1, El; reflexivity|rewrite E2, Ej; reflexivity|]. destruct (nth i det false); [discriminate|reflexivity]. }
  rewrite Tk, Ti. change (1 - 0)%Z with 1%Z. cbn [Z.b2z]. change (1 * 1 * 1 * 1 * (1 * 1))%Z with 1%Z.
  assert (Ok : (if k =? l then false else if k =? j then false else nth k det false) = false) by (destruct (if k =? l then false else if k =? j then false else nth k det false); [discriminate|reflexivity]).
  rewrite Ok. rewrite !Z.mul_1_l. rewrite <- !zs_xor. f_equal.
  generalize (parity (firstn i det)), (parity (firstn j det)), (parity (firstn k det)), (parity (firstn l det)). intros.
  generalize (j <? l), (l <? k), (j <? k), (k <? i), (l <? i), (j <? i). intros. btauto.
Qed.
