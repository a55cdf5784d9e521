(** Operator addition in terms of total coefficients. *)
From Coq Require Import Bool List Ring.
From Verif Require Import Coeff OpSpec OperatorModel OperatorProofs.
Import ListNotations.

Section OpTotal.
  Variable K : CoefRing.
  Variable key : Type.
  Variable keqb : key -> key -> bool.
  Variable keqb_spec : forall a b, keqb a b = true <-> a = b.
  Variable keq : forall a b : key, {a = b} + {a <> b}.
  Add Ring KRing : (c_ring K).
  Local Open Scope coef_scope.
  Notation opv := (opv K key).

  Lemma total_notin k (o : opv) : ~ In k (keys o) -> total keq k o = 0.
  Proof.
    induction o as [|[k' x] o IH]; cbn; [reflexivity|]. intro H.
    destruct (keq k k') as [->|n]; [exfalso; apply H; left; reflexivity|].
    apply IH. intro G. apply H. right. exact G.
  Qed.

  Lemma total_get k (o : opv) : NoDup (keys o) ->
    total keq k o = match op_get keqb k o with Some x => x | None => 0 end.
  Proof.
    induction o as [|[k' x] o IH]; cbn; [reflexivity|]. intro ND. inversion ND as [|? ? Hn ND']; subst.
    destruct (keq k k') as [->|n].
    - rewrite (keqb_refl _ _ keqb_spec). rewrite total_notin by exact Hn. ring.
    - rewrite (keqb_neq _ _ keqb_spec) by exact n. apply IH. exact ND'.
  Qed.

  Lemma total_In k x (o : opv) : NoDup (keys o) -> In (k, x) o -> total keq k o = x.
  Proof.
    intros ND H. rewrite total_get by exact ND.
    rewrite (op_get_NoDup _ _ _ keqb_spec k x o ND H). reflexivity.
  Qed.

  Lemma total_app k (o a : opv) : total keq k (o ++ a) = total keq k o + total keq k a.
  Proof. induction o as [|[k' x] o IH]; cbn; [ring|]. destruct (keq k k'); rewrite IH; ring. Qed.

  Lemma In_keys k (o : opv) : In k (keys o) -> exists x, In (k, x) o.
  Proof.
    intro H. unfold keys in H. apply in_map_iff in H. destruct H as [[k' x] [E H]]. cbn in E. subst. exists x. exact H.
  Qed.

  Lemma op_add_spec (A B : opv) : NoDup (keys A) -> NoDup (keys B) ->
    NoDup (keys (op_add keqb A B)) /\
    forall k c, In (k, c) (op_add keqb A B) <->
      (In k (keys A) \/ In k (keys B)) /\ c = total keq k A + total keq k B /\ small c = false.
  Proof.
    intros HA HB. unfold op_add.
    set (F := fold_left (op_add_string keqb) B A).
    assert (NF : NoDup (keys F)) by (apply (fold_add_NoDup _ _ _ keqb_spec); exact HA).
    split; [apply op_clean_NoDup; exact NF|].
    assert (G : forall k, op_get keqb k F = match op_get keqb k A, op_get keqb k B with
                | Some x, Some y => Some (x + y) | Some x, None => Some x | None, y => y end).
    { intro k. apply (op_get_fold _ _ _ keqb_spec). exact HB. }
    intros k c. unfold op_clean. rewrite filter_In. cbn [snd]. rewrite negb_true_iff.
    rewrite !total_get by assumption. specialize (G k).
    split.
    - intros [H S]. split; [|split; [|exact S]].
      + assert (HK : In k (map fst F)) by (change k with (fst (k, c)); apply in_map; exact H).
        apply (In_fst_fold_add _ _ _ keqb_spec) in HK. unfold keys. tauto.
      + apply (op_get_NoDup _ _ _ keqb_spec) in H; [|exact NF]. rewrite H in G.
        destruct (op_get keqb k A), (op_get keqb k B); try discriminate; injection G as ->; ring.
    - intros [HK [E S]]. split; [|exact S]. apply (op_get_In _ _ _ keqb_spec). rewrite G.
      destruct (op_get keqb k A) eqn:EA, (op_get keqb k B) eqn:EB; rewrite E; f_equal; try ring.
      apply (op_get_None _ _ _ keqb_spec) in EA. apply (op_get_None _ _ _ keqb_spec) in EB.
      unfold keys in HK. tauto.
  Qed.
End OpTotal.
