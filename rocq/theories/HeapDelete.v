(** Deleting terms from an Operator. *)
From Coq Require Import Bool List Arith Lia.
From Verif Require Import Coeff OperatorModel OperatorHeap HeapSpec HeapProofs.
Import ListNotations.
Section Delete.
  Variable K : CoefRing.
  Variable key : Type.
  Variable keqb : key -> key -> bool.
  Hypothesis keqb_spec : forall a b, keqb a b = true <-> a = b.
  Variable smul : key * K -> key * K -> key * K.
  Lemma remove_spec (st : state K key) i k l : contents st i = Some l ->
    exists st', step keqb smul (Remove i k) st = Some st' /\
      (exists l', contents st' i = Some l' /\ forall k' o, In (k', o) l' <-> In (k', o) l /\ k' <> k) /\
      (forall j, j <> i -> contents st' j = contents st j).
  Proof.
    intro H. unfold contents in H. destruct (nth_error (ops st) i) as [d|] eqn:E; [|discriminate]. cbn in H. injection H as <-.
    cbn [step]. rewrite E. eexists. split; [reflexivity|]. split.
    - unfold contents. cbn [ops hp]. rewrite nth_set_op_eq by (apply nth_error_Some; congruence). cbn. eexists. split; [reflexivity|].
      intros k' o. rewrite !in_map_iff. split.
      + intros [[x a] [Ex Hx]]. apply filter_In in Hx. destruct Hx as [Hx Hn]. cbn [fst snd] in *. injection Ex as <- <-. split; [now exists (x, a)|].
        intro Q. apply negb_true_iff in Hn. rewrite (proj2 (keqb_spec k x) (eq_sym Q)) in Hn. discriminate.
      + intros [[[x a] [Ex Hx]] Hn]. exists (x, a). split; [exact Ex|]. apply filter_In. split; [exact Hx|]. cbn [fst snd] in *. injection Ex as <- _.
        apply negb_true_iff. destruct (keqb k x) eqn:Q; [|reflexivity]. apply keqb_spec in Q. congruence.
    - intros j Hj. unfold contents. cbn [ops hp]. now rewrite nth_set_op_neq by congruence.
  Qed.
  Lemma clean_spec (st : state K key) i l : contents st i = Some l ->
    exists st', step keqb smul (Clean i) st = Some st' /\
      (exists l', contents st' i = Some l' /\ forall k o, In (k, o) l' <-> In (k, o) l /\ match o with Some (_, c) => small c = false | None => True end) /\
      (forall j, j <> i -> contents st' j = contents st j).
  Proof.
    intro H. unfold contents in H. destruct (nth_error (ops st) i) as [d|] eqn:E; [|discriminate]. cbn in H. injection H as <-.
    cbn [step]. rewrite E. eexists. split; [reflexivity|]. split.
    - unfold contents. cbn [ops hp]. rewrite nth_set_op_eq by (apply nth_error_Some; congruence). cbn. eexists. split; [reflexivity|].
      unfold h_clean. intros k o. rewrite !in_map_iff. split.
      + intros [[x a] [Ex Hx]]. apply filter_In in Hx. destruct Hx as [Hx Hn]. cbn [fst snd] in *. injection Ex as <- <-. split; [now exists (x, a)|].
        destruct (nth_error (hp st) a) as [[? c]|]; [now apply negb_true_iff|exact I].
      + intros [[[x a] [Ex Hx]] Hn]. exists (x, a). split; [exact Ex|]. apply filter_In. split; [exact Hx|]. cbn [fst snd] in *. injection Ex as <- <-.
        destruct (nth_error (hp st) a) as [[? c]|]; [now apply negb_true_iff|reflexivity].
    - intros j Hj. unfold contents. cbn [ops hp]. now rewrite nth_set_op_neq by congruence.
  Qed.
End Delete.
