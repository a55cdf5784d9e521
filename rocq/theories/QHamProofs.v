(** Proofs about the qubit Hamiltonian. *)
From Coq Require Import Bool List Arith ZArith Lia Ring.
From Verif Require Import Coeff MatSpec MatLemmas KronLemmas OpSpec CircuitSpec PauliModel PauliProofs TransformModel TwoTerm
  CircModel CircModel2 CircSpec2 CircSpec3 CircProofs1 CircProofs2 CircProofs3 CircProofs4 QHamModel.
Import ListNotations.

Section QHam.
  Variable K : CoefRing.
  Add Ring KRing : (c_ring K).
  Local Open Scope coef_scope.

  Lemma string_gates_pad : forall s q k, @string_gates K q (s ++ repeat PI k) = string_gates q s.
  Proof.
    induction s as [|p s IH]; intros q k.
    - revert q. induction k as [|k IHk]; intro q; [reflexivity|]. cbn [app repeat string_gates letter_gate]. apply (IHk (S q)).
    - cbn [app string_gates]. now rewrite IH.
  Qed.
  Lemma padded_run N s : length s <= N -> exists m, apply_all N (string_gates 0 s) (Some (@circ_init K)) = Some m /\
    meq N m (pmat (s ++ repeat PI (N - length s))).
  Proof.
    intro H. destruct (string_run K (s ++ repeat PI (N - length s))) as [m [E M]].
    rewrite string_gates_pad in E. rewrite app_length, repeat_length in E, M. replace (length s + (N - length s))%nat with N in E, M by lia.
    exists m. split; assumption.
  Qed.
  Lemma qham_fold N (o : list (list pauli * K)) : (forall e, In e o -> length (fst e) <= N) -> forall A,
    exists M, fold_left (qham_term N) o (Some A) = Some M /\
      meq N M (madd A (omat (map (fun e => (fst e ++ repeat PI (N - length (fst e)), snd e)) o))).
  Proof.
    induction o as [|[s x] o IH]; intros H A; cbn [fold_left qham_term fst snd map].
    - exists A. split; [reflexivity|]. intros r c _ _. unfold madd, mzero. cbn. unfold mzero. ring.
    - destruct (padded_run N s (H (s, x) (or_introl eq_refl))) as [m [E M]]. rewrite E. cbn [option_map].
      destruct (IH (fun e He => H e (or_intror He)) (fun r k => A r k + x * m r k)) as [M' [E' HM]]. exists M'. split; [exact E'|].
      intros r c Hr Hc. rewrite (HM r c Hr Hc). unfold madd. rewrite omat_cons, (M r c Hr Hc). ring.
  Qed.
  Lemma qham_spec N (o : list (list pauli * K)) : (forall e, In e o -> length (fst e) <= N) ->
    exists M, qham_matrix N N o = Some M /\ meq N M (omat (map (fun e => (fst e ++ repeat PI (N - length (fst e)), snd e)) o)).
  Proof.
    intro H. destruct (qham_fold N o H mzero) as [M [E HM]]. exists M. unfold qham_matrix. rewrite E, Nat.eqb_refl. split; [reflexivity|].
    intros r c Hr Hc. rewrite (HM r c Hr Hc). unfold madd, mzero. ring.
  Qed.
End QHam.

Section Long.
  Variable K : CoefRing.
  Lemma apply_all_app n (l l' : list (cgate K)) m : apply_all n (l ++ l') m = apply_all n l' (apply_all n l m).
  Proof. unfold apply_all. apply fold_left_app. Qed.
  Lemma long_raises N : forall s q m, (exists k, N <= q + k /\ nth k s PI <> PI) ->
    apply_all N (@string_gates K q s) m = None.
  Proof.
    induction s as [|p s IH]; intros q m [k [Hk Hn]]; [destruct k; contradiction|].
    cbn [string_gates]. rewrite apply_all_app. destruct k as [|k].
    - cbn [nth] in Hn. replace (apply_all N (letter_gate q p) m) with (@None (mat K)); [apply apply_all_none|].
      assert (G : (q <? N)%nat = false) by (apply Nat.ltb_ge; lia).
      destruct p, m; try contradiction; unfold letter_gate, c_x, c_y, c_z, apply_all; cbn [fold_left apply]; rewrite ?G; reflexivity.
    - apply IH. exists k. split; [lia|exact Hn].
  Qed.
  Lemma qham_none N (o : list (list pauli * K)) : fold_left (qham_term N) o None = None.
  Proof. induction o; [reflexivity|assumption]. Qed.
  Lemma qham_long N order (o : list (list pauli * K)) s c : In (s, c) o -> (exists k, N <= k /\ nth k s PI <> PI) ->
    qham_matrix N order o = None.
  Proof.
    intros Hin Hk. unfold qham_matrix. replace (fold_left (qham_term N) o (Some mzero)) with (@None (mat K)); [reflexivity|].
    generalize (Some (@mzero K)). induction o as [|e o IH]; intro a; [destruct Hin|]. cbn [fold_left]. destruct Hin as [->|Hin].
    - destruct a as [a|]; cbn [qham_term fst snd].
      + rewrite (long_raises N s 0) by exact Hk. cbn. symmetry. apply qham_none.
      + symmetry. apply qham_none.
    - apply IH. exact Hin.
  Qed.
End Long.
