(** Comparison of colourings: every operator is measured. *)
From Coq Require Import Bool List Arith Lia.
From Verif Require Import MatSpec CircuitSpec CircuitModel TomoModel TomoProofs CmpModel.
Import ListNotations.
Local Open Scope nat_scope.

Section Cmp.
  Variables (N : nat) (operators : list (list pauli)).
  Hypothesis HN : forall p, In p operators -> length p = N.
  Hypothesis NE : operators <> [].
  (** A proper colouring with colours 0..k-1. *)
  Definition proper (alg : list nat) : Prop := length alg = length operators /\ (forall c, In c alg -> forall c', c' < c -> In c' alg) /\
    forall i j x y c, nth_error operators i = Some x -> nth_error operators j = Some y -> nth_error alg i = Some c -> nth_error alg j = Some c ->
      forall k, nth k x PI = PI \/ nth k y PI = PI \/ nth k x PI = nth k y PI.
  Lemma measured alg : proper alg -> exists meas d, measurements operators (color_dict 0 alg []) = Some (meas, d) /\ grouping_ok operators meas d.
  Proof.
    intros (La & C & P). destruct (Nat.eq_dec (length operators) 1) as [L|L].
    - destruct operators as [|p [|]]; cbn in L; try lia. destruct alg as [|c [|]]; cbn in La; try lia.
      assert (c = 0). { destruct c as [|c]; [reflexivity|]. destruct (C (S c) (or_introl eq_refl) 0 ltac:(lia)) as [E|[]]. discriminate. } subst c.
      destruct (find_largest_ok N [p]) as [m Hm]; [discriminate|intros s [<-|[]]; apply HN; now left|].
      exists [m], [(p, m)]. split.
      + unfold measurements. cbn [color_dict color_add length seq map dget Nat.eqb select nth_error option_seq]. unfold select. cbn [map nth_error option_seq]. rewrite Hm. cbn [build_paulis nth_error assign_all pset]. reflexivity.
      + intros q [<-|[]]. exists m. split; [now left|]. split; [intros m' [E|[]]; congruence|]. split; [now left|].
        apply (find_largest_agrees N [p] m); [intros s [<-|[]]; apply HN; now left| |exact Hm|now left]. intros s t [<-|[]] [<-|[]] k. right; right; reflexivity.
    - destruct (simplify_returns N operators alg HN La C P) as (meas & d & E). exists meas, d. split; [|exact (simplify_covers _ N _ _ _ _ HN La E)].
      destruct (simplify_multi _ _ _ _ _ L E) as (E1 & E2 & _). cbv zeta in *. unfold measurements. rewrite E1, E2.
      destruct (color_dict 0 alg []) as [|e l] eqn:D; [|reflexivity]. exfalso. destruct operators as [|p o]; [now apply NE|]. destruct alg as [|c alg']; [discriminate|].
      destruct (dict_covers (c :: alg') c (or_introl eq_refl)) as [v Hv]. rewrite D in Hv. discriminate.
  Qed.
  Lemma compare_loop_ok : forall algs colors result, (forall a, In a algs -> proper a) -> (algs = [] -> exists meas d, result = Some (meas, d) /\ grouping_ok operators meas d) ->
    exists meas d, compare_loop operators (map GtLargest algs) colors result = Some (meas, d) /\ grouping_ok operators meas d.
  Proof.
    induction algs as [|a algs IH]; intros colors result P R; [exact (R eq_refl)|]. cbn [map compare_loop color].
    destruct (measured a (P a (or_introl eq_refl))) as (meas & d & E & G). rewrite E. apply IH; [intros b Hb; apply P; now right|]. intros _. now exists meas, d.
  Qed.
  Theorem comparison algs : algs <> [] -> (forall a, In a algs -> proper a) ->
    exists meas d, compare_tomography Rqwc operators (map GtLargest algs) = Some (meas, d) /\
      forall p, In p operators -> exists m, In (p, m) d /\ (forall m', In (p, m') d -> m' = m) /\ In m meas /\ agrees p m.
  Proof.
    intros Na P. unfold compare_tomography. destruct (graph_edges_spec Rqwc N operators HN) as [es [-> _]]. apply compare_loop_ok; [exact P|contradiction].
  Qed.
End Cmp.

(** A call without a definition. *)
Lemma default_raises rel operators calls : (In Greedy calls -> compare_tomography rel operators calls = None) /\
  forall alg, alg <> [] -> compare_tomography rel operators (GtDefault alg :: calls) = None.
Proof.
  unfold compare_tomography. destruct (graph_edges rel operators); [|split; reflexivity]. split.
  - intro H. assert (G : forall d r, compare_loop operators calls d r = None); [|apply G].
    induction calls as [|c calls IH]; [destruct H|]. intros d r. cbn [compare_loop]. destruct H as [->|H]; [reflexivity|].
    destruct (color (length operators) c d) as [[d'|]|]; [|reflexivity|reflexivity]. destruct (measurements operators d'); [apply IH; exact H|reflexivity].
  - intros [|c alg] H; [now elim H|reflexivity].
Qed.
