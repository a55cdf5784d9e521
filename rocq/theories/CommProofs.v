(** The commutator of Pauli Operators. *)
From Coq Require Import Bool List Arith Lia Ring.
From Verif Require Import Coeff MatSpec MatLemmas PauliModel PauliProofs OperatorModel OperatorProofs
  TransformModel TwoTerm OperatorHeap HeapSpec HeapProofs.
Import ListNotations.

Section Comm.
  Variable K : CoefRing.
  Add Ring KRing : (c_ring K).
  Local Open Scope coef_scope.
  Notation pop := (list (list pauli * K)).

  Lemma lin_neg {key} (f : key -> K) (o : opv K key) : lin f (op_neg o) = - lin f o.
  Proof. unfold op_neg. induction o as [|[k x] o IH]; cbn in *; [ring|]. rewrite IH. ring. Qed.

  Lemma op_neg_small {key} (o : opv K key) : (forall e, In e o -> small (snd e) = true) ->
    forall e, In e (op_neg o) -> small (snd e) = true.
  Proof.
    intros H e He. unfold op_neg in He. apply in_map_iff in He. destruct He as [[k x] [<- He]]. cbn.
    replace (x * - (1)) with (- x) by ring. rewrite small_opp. exact (H _ He).
  Qed.

  Lemma filter_length_le' {T} (f : T -> bool) l : (length (filter f l) <= length l)%nat.
  Proof. induction l as [|x l IH]; cbn; [lia|]. destruct (f x); cbn; lia. Qed.

  Lemma op_neg_wf n (o : pop) : wf n o -> wf n (op_neg o).
  Proof. intros H e He. unfold op_neg in He. apply in_map_iff in He. destruct He as [[k x] [<- He]]. cbn. exact (H _ He). Qed.

  Lemma commutator_residual n (A B : pop) : wf n A -> wf n B ->
    exists D : pop, (forall e, In e D -> small (snd e) = true) /\
      (forall e, In e D -> length (fst e) = n) /\
      (length D <= 4 * (length A * length B))%nat /\
      meq n (madd (omat (op_commutator pauli_list_eqb pauli_mul A B)) (omat D)) (comm n (omat A) (omat B)).
  Proof.
    intros HA HB.
    destruct (pop_mul_residual K n A B HA HB) as [D1 [S1 [_ [W1 [L1 M1]]]]].
    destruct (pop_mul_residual K n B A HB HA) as [D2 [S2 [_ [W2 [L2 M2]]]]].
    set (P := pop_mul A B) in *. set (Q := pop_mul B A) in *.
    set (F := fold_left (op_add_string pauli_list_eqb) (op_neg Q) P).
    exists (dropped F ++ D1 ++ op_neg D2). split; [|split; [|split]].
    - intros e He. apply in_app_or in He. destruct He as [He|He]; [eapply dropped_small; exact He|].
      apply in_app_or in He. destruct He as [He|He]; [apply S1; exact He|]. revert e He. apply op_neg_small. exact S2.
    - intros e He. apply in_app_or in He. destruct He as [He|He].
      + unfold dropped in He. apply filter_In in He. destruct He as [He _].
        assert (G : In (fst e) (map fst F)) by (apply in_map; exact He).
        unfold F in G. apply (In_fst_fold_add K _ _ pauli_list_eqb_spec) in G. destruct G as [G|G].
        * apply in_map_iff in G. destruct G as [e' [E G]]. rewrite <- E.
          apply (op_neg_wf n Q); [|exact G]. intros x Hx. apply W2. apply in_or_app. left. exact Hx.
        * apply in_map_iff in G. destruct G as [e' [E G]]. rewrite <- E. apply W1. apply in_or_app. left. exact G.
      + apply in_app_or in He. destruct He as [He|He].
        * apply W1. apply in_or_app. right. exact He.
        * apply (op_neg_wf n D2); [|exact He]. intros x Hx. apply W2. apply in_or_app. right. exact Hx.
    - assert (LP : (length P <= length A * length B)%nat /\ (length Q <= length B * length A)%nat).
      { unfold P, Q, pop_mul. rewrite !op_mul_products. unfold op_clean.
        split; (eapply Nat.le_trans; [apply filter_length_le'|]; eapply Nat.le_trans; [apply (length_fold_add K _ _ _ [])|];
          cbn; unfold products; clear).
        - induction B as [|b B IH]; cbn; [lia|]. rewrite app_length, map_length. nia.
        - induction A as [|b A IH]; cbn; [lia|]. rewrite app_length, map_length. nia. }
      rewrite !app_length. unfold op_neg at 1. rewrite map_length.
      assert (LF : (length (dropped F) <= length P + length Q)%nat).
      { eapply Nat.le_trans; [apply dropped_length|]. unfold F.
        eapply Nat.le_trans; [apply (length_fold_add K _ _ _ P)|]. unfold op_neg. rewrite map_length. lia. }
      nia.
    - intros r c Hr Hc. pose proof (M1 r c Hr Hc) as E1. pose proof (M2 r c Hr Hc) as E2.
      unfold comm, madd in *. rewrite <- E1, <- E2.
      rewrite !omat_app. rewrite !omat_lin in *. rewrite lin_neg.
      unfold op_commutator, op_sub, op_add. fold (pop_mul A B). fold (pop_mul B A). fold P. fold Q. fold F.
      pose proof (lin_clean K _ (fun k => pmat k r c) F) as EF.
      assert (LL : lin (fun k => pmat k r c) F = lin (fun k => pmat k r c) P + - lin (fun k => pmat k r c) Q).
      { unfold F. rewrite (lin_fold_add K _ _ pauli_list_eqb_spec), lin_neg. ring. }
      match goal with |- ?a + (?b + ?x) = _ => replace (a + (b + x)) with ((a + b) + x) by ring end.
      rewrite EF, LL. ring.
  Qed.

  (** Object level: the commutator call. *)
  Lemma h_commutator_spec n cs (st : state K (list pauli)) i j (A B : pop) :
    run pauli_list_eqb pauli_mul cs init = Some st -> holds st i A -> holds st j B ->
    (forall e, In e A -> length (fst e) = n) -> (forall e, In e B -> length (fst e) = n) ->
    exists st' p (C D : pop),
      h_commutator pauli_list_eqb pauli_mul i j st = Some (p, st') /\ holds st' p C
      /\ (forall m, (m < length (ops st))%nat -> contents st' m = contents st m)
      /\ (forall e, In e D -> small (snd e) = true) /\ (forall e, In e D -> length (fst e) = n)
      /\ (length D <= 4 * (length A * length B))%nat
      /\ meq n (madd (omat C) (omat D)) (comm n (omat A) (omat B)).
  Proof.
    intros R HA HB WA WB.
    pose proof (run_sinv K _ _ pauli_list_eqb_spec _ _ _ _ (init_sinv K _) R) as SI.
    destruct (commutator_step K _ _ pauli_list_eqb_spec pauli_mul st i j A B SI HA HB) as [st' [p [E [V F]]]].
    destruct (commutator_residual n A B WA WB) as [D [D1 [D2 [D3 D4]]]].
    exists st', p, (op_commutator pauli_list_eqb pauli_mul A B), D. repeat (split; [assumption|]). exact D4.
  Qed.
End Comm.
