(** C22-C24: commutation tests, measurement grouping, averages of outcomes. *)
From Coq Require Import Bool List ZArith Arith QArith.
From Verif Require Import Coeff MatSpec FockSpec CircuitSpec CircuitModel TomoModel TomoProofs CountsProofs Sqrt2.
Import ListNotations.
Local Open Scope nat_scope.

(** C22. commute returns 1 exactly when the matrices commute, and 0 otherwise. *)
Theorem C22_commute :
  forall (K : CoefRing) (a b : list pauli) (n : nat), length a = n -> length b = n ->
  exists k, commute a b = Some k /\ (k = 1 \/ k = 0) /\
    (k = 1 <-> meq n (mmul n (@pmat K a) (pmat b)) (mmul n (pmat b) (pmat a))).
Proof. exact commute_spec. Qed.
Print Assumptions C22_commute.

Theorem C22_qwc :
  forall a b : list pauli, length a = length b ->
  exists r, qwc a b = Some r /\
    (r = true <-> forall i, nth i a PI = PI \/ nth i b PI = PI \/ nth i a PI = nth i b PI).
Proof. exact qwc_spec. Qed.
Print Assumptions C22_qwc.

Theorem C22_qwc_implies_commute :
  forall a b : list pauli, length a = length b -> qwc a b = Some true -> commute a b = Some 1.
Proof. exact qwc_commute. Qed.
Print Assumptions C22_qwc_implies_commute.

Example C22_case :
  commute [PX; PX; PI] [PY; PY; PZ] = Some 1 /\ qwc [PX; PX; PI] [PY; PY; PZ] = Some false
  /\ commute [PX; PX; PI] [PY; PI; PZ] = Some 0 /\ qwc [PX; PI; PZ] [PX; PY; PI] = Some true.
Proof. repeat split. Qed.

(** C23. The conflict graph has exactly the edges between related strings. *)
Theorem C23_conflict_graph :
  forall (rel : relation) (N : nat) (items : list (list pauli)), (forall p, In p items -> length p = N) ->
  exists es, graph_edges rel items = Some es /\
    forall a b, In (a, b) es <->
      a < b /\ exists x y, nth_error items a = Some x /\ nth_error items b = Some y /\ pauli_relation rel x y = Some true.
Proof. exact graph_edges_spec. Qed.
Print Assumptions C23_conflict_graph.

(** Whatever colouring the library returns (one colour per vertex), if simplify_tomography returns then each
    requested string has exactly one measurement, which is in the returned list and agrees with it on all its
    non-identity letters. *)
Theorem C23_grouping_covers :
  forall (rel : relation) (N : nat) (operators : list (list pauli)) (alg : list nat) meas d,
    (forall p, In p operators -> length p = N) -> length alg = length operators ->
    simplify_tomography rel operators alg = Some (meas, d) ->
    forall p, In p operators ->
    exists m, In (p, m) d /\ (forall m', In (p, m') d -> m' = m) /\ In m meas /\ agrees p m.
Proof. exact simplify_covers. Qed.
Print Assumptions C23_grouping_covers.

(** For the qubit-wise relation it does return, when the colouring is proper (strings of one colour are
    pairwise compatible) and uses the colours 0..k-1. *)
Theorem C23_grouping_returns :
  forall (N : nat) (operators : list (list pauli)) (alg : list nat),
    (forall p, In p operators -> length p = N) -> length alg = length operators ->
    (forall c, In c alg -> forall c', c' < c -> In c' alg) ->
    (forall i j x y c, nth_error operators i = Some x -> nth_error operators j = Some y ->
       nth_error alg i = Some c -> nth_error alg j = Some c ->
       forall k, nth k x PI = PI \/ nth k y PI = PI \/ nth k x PI = nth k y PI) ->
    exists meas d, simplify_tomography Rqwc operators alg = Some (meas, d).
Proof. exact simplify_returns. Qed.
Print Assumptions C23_grouping_returns.

Example C23_case :
  graph_edges Rqwc [[PX; PI]; [PZ; PZ]; [PX; PY]; [PI; PZ]] = Some [(0, 1); (1, 2); (2, 3)]
  /\ simplify_tomography Rqwc [[PX; PI]; [PZ; PZ]; [PX; PY]; [PI; PZ]] [1; 0; 1; 0]
     = Some ([[PZ; PZ]; [PX; PY]], [([PX; PI], [PX; PY]); ([PX; PY], [PX; PY]); ([PZ; PZ], [PZ; PZ]); ([PI; PZ], [PZ; PZ])]).
Proof. split; vm_compute; reflexivity. Qed.

(** With the relation 'mc' strings of one colour may commute without agreeing; then the program stops. *)
Theorem C23_commuting_groups_can_stop :
  exists (operators : list (list pauli)) (alg : list nat),
    graph_edges Rmc operators = Some [] /\ alg = [0; 0] /\ simplify_tomography Rmc operators alg = None.
Proof. exists [[PX; PX]; [PY; PY]], [0; 0]. repeat split; vm_compute; reflexivity. Qed.
Print Assumptions C23_commuting_groups_can_stop.

(** C24. The counts branch: the average of the eigenvalues, weighted by the counts.  An eigenvalue is -1 when
    the outcomes on the support of s have odd parity, qubit 0 being the last character. *)
Theorem C24_counts_average :
  forall (Nq : nat) (s : list pauli) (counts : list (list bool * Z)),
    length s <= Nq -> (forall det n, In (det, n) counts -> length det = Nq) ->
    shots counts <> 0%Z ->
    measure_counts Nq s counts
    = Some (inject_Z (weighted s counts) / inject_Z (shots counts))%Q.
Proof. exact measure_counts_spec. Qed.
Print Assumptions C24_counts_average.

Theorem C24_counts_bounded :
  forall (Nq : nat) (s : list pauli) (counts : list (list bool * Z)) (q : Q),
    length s <= Nq -> (forall det n, In (det, n) counts -> length det = Nq /\ (0 <= n)%Z) ->
    (0 < shots counts)%Z -> measure_counts Nq s counts = Some q -> (- (1) <= q <= 1)%Q.
Proof. exact measure_counts_bound. Qed.
Print Assumptions C24_counts_bounded.

Theorem C24_counts_identity :
  forall (Nq : nat) (s : list pauli) (counts : list (list bool * Z)) (q : Q),
    length s <= Nq -> (forall p, In p s -> p = PI) -> (forall det n, In (det, n) counts -> length det = Nq) ->
    shots counts <> 0%Z -> measure_counts Nq s counts = Some q -> (q == 1)%Q.
Proof. exact measure_counts_identity. Qed.
Print Assumptions C24_counts_identity.

Example C24_case :
  (forall det n, In (det, n) [([false; true; true], 3%Z); ([true; false; true], 1%Z)] -> length det = 3 /\ (0 <= n)%Z)
  /\ measure_counts 3 [PX; PI; PZ] [([false; true; true], 3%Z); ([true; false; true], 1%Z)] = Some (inject_Z (-2) / inject_Z 4)%Q.
Proof.
  split; [|reflexivity]. intros det n [H|[H|[]]]; injection H as <- <-; split; try reflexivity; discriminate.
Qed.

(** The state vector branch: the parity-signed sum of the weights, without the amplitudes below 1e-14. *)
Theorem C24_statevector_average :
  forall (K : CoefRing) (tiny : K -> bool) (Nq : nat) (s : list pauli) (psi : bits -> K),
    measure_sv tiny Nq s (map (fun b => psi (rev b)) (bin_strings Nq))
    = sumbits Nq (fun b => if tiny (psi b) then c0 else sgn (outcome_parity s b) * (cconj (psi b) * psi b))%K.
Proof. exact measure_sv_spec. Qed.
Print Assumptions C24_statevector_average.

(** With the basis change before it: the average of the string in the state, when no non-zero amplitude is
    dropped. *)
Theorem C24_statevector_pipeline :
  forall (K : CoefRing) (tiny : K -> bool) (rt : K), (rt * rt = chalf)%K -> cconj rt = rt ->
  forall (m p : list pauli) (psi : bits -> K), agrees p m -> (forall x, tiny x = true -> x = c0) ->
    let N := length m in
    let phi := mvec N (cmat rt N (basis_gates 0 m)) psi in
    measure_sv tiny N p (map (fun b => phi (rev b)) (bin_strings N)) = expect N (pmat p) psi.
Proof. exact pipeline. Qed.
Print Assumptions C24_statevector_pipeline.

(** The amplitudes are indexed by the binary numbers, qubit 0 being the least significant digit. *)
Example C24_statevector_case :
  bin_strings 2 = [[false; false]; [false; true]; [true; false]; [true; true]]
  /\ measure_sv (fun x : GaussQ => ceqb x c0) 2 [PZ; PI] [gz 0; gz 3; gz 4; gz 0] = gz 7
  /\ (rrt * rrt = chalf)%K /\ agrees [PX; PI] [PX; PY].
Proof. repeat split; try (vm_compute; reflexivity); repeat constructor. Qed.
