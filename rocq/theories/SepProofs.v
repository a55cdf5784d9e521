(** Separated Hamiltonians. *)
From Coq Require Import Bool List Arith Lia.
From Verif Require Import Coeff OpSpec OperatorModel OperatorProofs OpTotal SepModel.
Import ListNotations.
Section Sep.
  Variable K : CoefRing.
  Variable key : Type.
  Variable keqb : key -> key -> bool.
  Hypothesis keqb_spec : forall a b, keqb a b = true <-> a = b.
  Variable keq : forall a b : key, {a = b} + {a <> b}.
  Local Open Scope coef_scope.
  Add Ring Kr : (c_ring K).
  Notation opv := (list (key * K)).
  Lemma total_lin k (o : opv) : total keq k o = lin (fun k' => if keq k k' then 1 else 0) o.
  Proof. induction o as [|[k' x] o IH]; [reflexivity|]. cbn. rewrite IH. destruct (keq k k'); ring. Qed.
  Lemma total_add_string k (o : opv) e : total keq k (op_add_string keqb o e) = total keq k o + (if keq k (fst e) then snd e else 0).
  Proof. rewrite !total_lin, (lin_add_string K key keqb keqb_spec). destruct (keq k (fst e)); ring. Qed.
  Lemma separated_total (H : opv) group k : NoDup (keys H) -> total keq k (separated keqb H group) = sumK (repeat (total keq k H) (count_occ keq group k)).
  Proof.
    intros ND. unfold separated. assert (G : forall g o, total keq k (fold_left (fun new item => match op_get keqb item H with Some c => op_add_string keqb new (item, c) | None => new end) g o) = total keq k o + sumK (repeat (total keq k H) (count_occ keq g k))).
    { induction g as [|i g IH]; intros o; [cbn; ring|]. cbn [fold_left count_occ]. rewrite IH. destruct (op_get keqb i H) as [c|] eqn:E.
      - rewrite total_add_string. cbn [fst snd]. destruct (keq k i) as [<-|N]; [|destruct (keq i k); [congruence|ring]]. destruct (keq k k); [|contradiction]. cbn [repeat sumK fold_right]. fold (@sumK K (repeat (total keq k H) (count_occ keq g k))).
        apply op_get_In in E; [|exact keqb_spec]. rewrite (total_In K key keqb keqb_spec keq k c H ND E). ring.
      - destruct (keq i k) as [->|N]; [|reflexivity]. apply (op_get_None K key keqb keqb_spec) in E. cbn [repeat sumK fold_right]. fold (@sumK K (repeat (total keq k H) (count_occ keq g k))). rewrite (total_notin K key keq k H E). ring. }
    rewrite G. cbn. ring.
  Qed.
  Lemma sumK_app (a b : list K) : sumK (a ++ b) = sumK a + sumK b.
  Proof. induction a as [|x a IH]; [change (sumK b = 0 + sumK b); ring|]. change (x + sumK (a ++ b) = (x + sumK a) + sumK b). rewrite IH. ring. Qed.
  Theorem separable (H : opv) grouping k : NoDup (keys H) ->
    sumK (map (total keq k) (build_separable_operator keqb true H grouping)) = sumK (repeat (total keq k H) (count_occ keq (concat grouping) k)).
  Proof.
    intros ND. cbn [build_separable_operator]. induction grouping as [|g gs IH]; [reflexivity|]. cbn [map concat]. rewrite count_occ_app, repeat_app, sumK_app, <- IH. cbn [sumK fold_right]. fold (@sumK K (map (total keq k) (map (separated keqb H) gs))). now rewrite separated_total.
  Qed.
  Theorem separable_groups (H : opv) grouping : NoDup (keys H) ->
    length (build_separable_operator keqb true H grouping) = length grouping /\
    forall n group k, nth_error grouping n = Some group -> exists o, nth_error (build_separable_operator keqb true H grouping) n = Some o /\ total keq k o = sumK (repeat (total keq k H) (count_occ keq group k)).
  Proof.
    intros ND. cbn [build_separable_operator]. split; [apply map_length|]. intros n group k E. exists (separated keqb H group). split; [now apply map_nth_error|now apply separated_total].
  Qed.
  Theorem separable_once (H : opv) grouping : NoDup (keys H) -> (forall k, In k (keys H) -> count_occ keq (concat grouping) k = 1%nat) ->
    forall k, sumK (map (total keq k) (build_separable_operator keqb true H grouping)) = total keq k H.
  Proof.
    intros ND C k. rewrite separable by exact ND. destruct (in_dec keq k (keys H)) as [I|I]; [rewrite (C k I); cbn; ring|]. rewrite (total_notin K key keq k H I).
    induction (count_occ keq (concat grouping) k) as [|n IH]; [reflexivity|]. cbn. fold (@sumK K (repeat 0 n)). rewrite IH. ring.
  Qed.
End Sep.
