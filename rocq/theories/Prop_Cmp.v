(** Measurements chosen by comparing colourings (C163). *)
From Coq Require Import Bool List Arith.
From Verif Require Import MatSpec CircuitSpec CircuitModel TomoModel CmpModel CmpProofs.
Import ListNotations.
Local Open Scope nat_scope.
(** For every list of strings of one length and every nonempty list of proper colourings with colours 0..k-1 (one for each method), the
    comparison returns, and each string has one measurement, which is in the list and agrees with it on its non-identity letters. *)
Theorem C163_comparison : forall N operators algs, (forall p, In p operators -> length p = N) -> operators <> [] -> algs <> [] ->
  (forall alg, In alg algs -> length alg = length operators /\ (forall c, In c alg -> forall c', c' < c -> In c' alg) /\
    forall i j x y c, nth_error operators i = Some x -> nth_error operators j = Some y -> nth_error alg i = Some c -> nth_error alg j = Some c ->
      forall k, nth k x PI = PI \/ nth k y PI = PI \/ nth k x PI = nth k y PI) ->
  exists meas d, compare_tomography Rqwc operators (map GtLargest algs) = Some (meas, d) /\
    forall p, In p operators -> exists m, In (p, m) d /\ (forall m', In (p, m') d -> m' = m) /\ In m meas /\ agrees p m.
Proof. intros N operators algs HN NE NA P. exact (comparison N operators HN NE algs NA P). Qed.
Print Assumptions C163_comparison.
(** A case: three strings, two colourings. *)
Example C163_case : compare_tomography Rqwc [[PX; PI]; [PZ; PZ]; [PI; PY]] [GtLargest [0; 1; 2]; GtLargest [1; 0; 1]] =
  Some ([[PZ; PZ]; [PX; PY]], [([PX; PI], [PX; PY]); ([PI; PY], [PX; PY]); ([PZ; PZ], [PZ; PZ])]).
Proof. vm_compute. reflexivity. Qed.
(** The default method raises for every list of strings, wherever it comes among the methods, and so does the 'gt' method with the strategy
    'default' when it comes first. *)
Theorem C163_default_raises : forall rel operators calls, (In Greedy calls -> compare_tomography rel operators calls = None) /\
  forall alg, alg <> [] -> compare_tomography rel operators (GtDefault alg :: calls) = None.
Proof. exact default_raises. Qed.
Print Assumptions C163_default_raises.
(** With the relation 'mc' a proper colouring gives a measurement that says nothing about a string, and nothing raises. *)
Theorem C163_commuting_refuted : exists operators alg meas d p m, graph_edges Rmc operators = Some [] /\ length alg = length operators /\
  compare_tomography Rmc operators [GtLargest alg] = Some (meas, d) /\ In p operators /\ d = [([PX; PX], m); (p, m)] /\ ~ agrees p m.
Proof.
  exists [[PX; PX]; [PY; PY]], [0; 0], [[PX; PX]], [([PX; PX], [PX; PX]); ([PY; PY], [PX; PX])], [PY; PY], [PX; PX].
  split; [reflexivity|]. split; [reflexivity|]. split; [vm_compute; reflexivity|]. split; [right; now left|]. split; [reflexivity|]. intros H; inversion H.
Qed.
Print Assumptions C163_commuting_refuted.
(** Two proper colourings, the second by the strategy 'default': the colours of the two are merged, and X is to be read from a measurement of Z. *)
Theorem C163_merged_refuted : exists operators alg1 alg2 meas d, graph_edges Rqwc operators = Some [(0, 1)] /\ alg1 = [0; 1] /\ alg2 = [1; 0] /\
  compare_tomography Rqwc operators [GtLargest alg1; GtDefault alg2] = Some (meas, d) /\ d = [([PX], [PZ]); ([PZ], [PZ])] /\ operators = [[PX]; [PZ]].
Proof. exists [[PX]; [PZ]], [0; 1], [1; 0]. eexists. eexists. repeat split; vm_compute; reflexivity. Qed.
Print Assumptions C163_merged_refuted.
