(** C79-C88: explicit matrices, partial traces of arrays, states and density matrices. *)
From Coq Require Import Bool List Arith ZArith Sorted Permutation Lia.
From Verif Require Import Coeff Sqrt2 MatSpec OpSpec FockSpec CircuitSpec TraceSpec PauliModel OperatorModel FermiModel TransformModel
  CircSpec2 CircModel CircModel2 CircSpec3 CircProofs1 CircProofs2 CircProofs3 CircProofs4 CircProofs5.
Import ListNotations.

(** C79: every single-qubit method multiplies the array by its documented matrix on the named qubit; CNOT and
    the Toffoli gates by the permutation that flips the target when all controls are 1.  A qubit outside
    the register makes the call fail. *)
Theorem C79_single :
  forall (K : CoefRing) (rt : K) (rt_sq : (rt * rt)%K = chalf) (n i : nat) (t : angle K), i < n ->
    multiplies n (c_h rt i) (at1 n i (h2 rt)) /\ multiplies n (c_sx i) (at1 n i (@sx2 K)) /\
    multiplies n (c_x i) (at1 n i (@pauli1 K PX)) /\ multiplies n (c_y i) (at1 n i (@pauli1 K PY)) /\
    multiplies n (c_z i) (at1 n i (@pauli1 K PZ)) /\
    multiplies n (c_s rt i) (at1 n i (@s2 K)) /\ multiplies n (c_si rt i) (at1 n i (@sdg2 K)) /\
    multiplies n (c_Rx i t) (at1 n i (rx2 t)) /\ multiplies n (c_Ry i t) (at1 n i (ry2 t)) /\
    multiplies n (c_Rz i t) (at1 n i (rz2 t)) /\
    multiplies n (c_particle i) (at1 n i (@local2 K Par)) /\ multiplies n (c_hole i) (at1 n i (@local2 K Hol)) /\
    multiplies n (c_create i) (at1 n i (@local2 K Cre)) /\ multiplies n (c_annihilate i) (at1 n i (@local2 K Ann)).
Proof. exact single_methods. Qed.
Print Assumptions C79_single.

Theorem C79_controlled_flip :
  forall (K : CoefRing) (n : nat) (i j k l : nat), NoDup [i; j; k; l] -> i < n -> j < n -> k < n -> l < n ->
    multiplies n (c_Cx i j) (@perm_mat K (flip_if [i] j)) /\
    multiplies n (c_Toff i j k) (@perm_mat K (flip_if [i; j] k)) /\
    multiplies n (c_Toff4 i j k l) (@perm_mat K (flip_if [i; j; k] l)).
Proof. exact controlled_flips. Qed.
Print Assumptions C79_controlled_flip.

Theorem C79_outside :
  forall (K : CoefRing) (n : nat) (m : mat K),
    (forall i g, n <= i -> apply n m (Sqg g i) = None) /\
    (forall cs j i, In i (j :: cs) -> n <= i -> apply n m (Held cs j) = None).
Proof.
  exact (fun K n m => conj (fun i g H => sqg_raises K n i g m H) (fun cs j i H G => held_raises K n cs j m i H G)).
Qed.
Print Assumptions C79_outside.

Example C79_case :
  option_map (fun m => @ceqb GaussQ (m [true; false; true] [true; true; true]) c1)
    (apply_all 3 (c_Toff 0 2 1) (Some circ_init)) = Some true
  /\ option_map (fun m => @ceqb GaussQ (m [true; true; true] [true; true; true]) c0)
    (apply_all 3 (c_Toff 0 2 1) (Some circ_init)) = Some true
  /\ option_map (fun m => @ceqb GaussQ (m [false; true] [false; false]) ci)
    (apply_all 2 (c_y 1) (Some circ_init)) = Some true.
Proof. repeat split; vm_compute; reflexivity. Qed.

(** C80: the composite two-qubit methods do what they are named after, for every pair of different qubits
    and every angle; [t] is the angle the code builds the gate from. *)
Theorem C80_controlled :
  forall (K : CoefRing) (rt : K) (rt_sq : (rt * rt)%K = chalf) (n i j : nat) (t : angle K),
    unit_angle t -> i < n -> j < n -> i <> j ->
    let e := (cos_of t + ci * sin_of t)%K in
    multiplies n (c_Cz rt i j) (at2 n i j (ctrl (pauli1 PZ))) /\
    multiplies n (c_Cy rt i j) (at2 n i j (ctrl (pauli1 PY))) /\
    multiplies n (c_Cxr i j) (at2 n i j (ctrl0 (@pauli1 K PX))) /\
    multiplies n (c_Cs t i j) (at2 n i j (ctrl (m2 c1 c0 c0 (e * e)%K))) /\
    multiplies n (c_CRy i j t) (at2 n i j (ctrl (ry2 (cos_of t, sin_of t)))).
Proof. exact controlled_methods. Qed.
Print Assumptions C80_controlled.

(** Both forms of the controlled Hadamard agree with it when cos = sin = 1/sqrt 2, the value at pi/4. *)
Theorem C80_hadamard :
  forall (K : CoefRing) (rt : K) (rt_sq : (rt * rt)%K = chalf) (n i j : nat) (t : angle K),
    unit_angle t -> i < n -> j < n -> i <> j ->
    multiplies n (c_Ch rt t 2 i j) (at2 n i j (ctrl (reflect (cos_of t) (sin_of t)))) /\
    multiplies n (c_Ch rt t 1 i j) (at2 n i j (ctrl (reflect (sin_of t) (cos_of t)))) /\
    (cos_of t = rt -> sin_of t = rt ->
     multiplies n (c_Ch rt t 2 i j) (at2 n i j (ctrl (h2 rt))) /\ multiplies n (c_Ch rt t 1 i j) (at2 n i j (ctrl (h2 rt)))).
Proof. exact hadamard_methods. Qed.
Print Assumptions C80_hadamard.

(** SRy and Sh rotate the states |01> and |10> into each other and leave |00> and |11> alone. *)
Theorem C80_exchange :
  forall (K : CoefRing) (rt : K) (rt_sq : (rt * rt)%K = chalf) (n i j : nat) (t : angle K),
    unit_angle t -> i < n -> j < n -> i <> j ->
    multiplies n (c_SRy i j t) (at2 n i j (exchange (ry2 (cos_of t, sin_of t)))) /\
    multiplies n (c_Sh rt t 2 i j) (at2 n i j (exchange (reflect (cos_of t) (sin_of t)))) /\
    multiplies n (c_Sh rt t 1 i j) (at2 n i j (exchange (reflect (sin_of t) (cos_of t)))).
Proof. exact exchange_methods. Qed.
Print Assumptions C80_exchange.

(** An angle with cosine 3/5 and sine 4/5; 1/sqrt 2 exists in GaussR. *)
Example C80_case : unit_angle (K := GaussQ) (gq 3 5, gq 4 5) /\ (rrt * rrt)%K = @chalf GaussR
  /\ option_map (fun m => @ceqb GaussQ (m [true; true] [false; true]) c0) (apply_all 2 (c_SRy 0 1 (gq 3 5, gq 4 5)) (Some circ_init)) = Some true
  /\ option_map (fun m => @ceqb GaussQ (m [true; false] [false; true]) (gq 24 25)) (apply_all 2 (c_SRy 0 1 (gq 3 5, gq 4 5)) (Some circ_init)) = Some true.
Proof.
  split; [apply (ceqb_spec GaussQ); vm_compute; reflexivity|]. split; [apply (ceqb_spec GaussR); vm_compute; reflexivity|].
  split; vm_compute; reflexivity.
Qed.

(** C81: the swap, controlled swap and doubly controlled swap exchange the two qubits of a basis state when
    every control is 1. *)
Theorem C81_swap :
  forall (K : CoefRing) (n i j k l : nat), NoDup [i; j; k; l] -> i < n -> j < n -> k < n -> l < n ->
    multiplies n (c_Sw i j) (@perm_mat K (swap_if [] i j)) /\
    multiplies n (c_Fred i j k) (@perm_mat K (swap_if [i] j k)) /\
    multiplies n (c_CCS i j k l) (@perm_mat K (swap_if [i; j] k l)).
Proof. exact swap_methods. Qed.
Print Assumptions C81_swap.

Example C81_case : swap_if [3; 0] 1 2 [true; true; false; true] = [true; false; true; true]
  /\ option_map (fun m => @ceqb GaussQ (m [true; false; true] [true; true; false]) c1) (apply_all 3 (c_Fred 0 1 2) (Some circ_init)) = Some true.
Proof. split; vm_compute; reflexivity. Qed.

(** C82: however many methods are called, the array stays unitary, as long as they act on different qubits
    of the register with unitary matrices. *)
Theorem C82_unitary :
  forall (K : CoefRing) (n : nat) (l : list (cgate K)), (forall g, In g l -> gate_unitary n g) ->
    exists m, apply_all n l (Some circ_init) = Some m /\ unitary n m.
Proof. exact circuit_unitary. Qed.
Print Assumptions C82_unitary.

Example C82_case : forall g, In g (@c_Cxr GaussQ 0 1 ++ c_Fred 2 0 1 ++ c_Ry 1 (gq 3 5, gq 4 5)) -> gate_unitary 3 g.
Proof. exact unitary_case. Qed.

(** C83: the array of a PauliString or of an operator is its matrix, strings of different lengths and the
    empty operator being refused. *)
Theorem C83_string :
  forall (K : CoefRing) (s : list pauli) (c : K),
    exists m, string_to_matrix s c = Some m /\ meq (length s) m (mscal c (pmat s)).
Proof. exact string_to_matrix_spec. Qed.
Print Assumptions C83_string.
Theorem C83_operator :
  forall (K : CoefRing) (n : nat) (o : list (list pauli * K)), o <> [] -> (forall e, In e o -> length (fst e) = n) ->
    exists M, operator_to_matrix o = Some (n, M) /\ meq n M (omat o).
Proof. exact operator_to_matrix_spec. Qed.
Print Assumptions C83_operator.
Theorem C83_refused :
  forall (K : CoefRing), operator_to_matrix (@nil (list pauli * K)) = None /\
    forall (o : list (list pauli * K)) e e', In e o -> In e' o -> length (fst e) <> length (fst e') -> operator_to_matrix o = None.
Proof. exact operator_to_matrix_refused. Qed.
Print Assumptions C83_refused.

Example C83_case : option_map (fun m => (fst m, @ceqb GaussQ (snd m [true; false] [false; false]) (gzi 3 2)))
    (operator_to_matrix [([PX; PI], gz 3); ([PY; PZ], gz 2)]) = Some (2, true).
Proof. vm_compute. reflexivity. Qed.

(** C84: converting an array to qubit operators gives back every entry accepted by the threshold test and nothing else;
    converting it to Pauli strings too, up to terms below the cleaning threshold, when the accepted
    entries divided by 2^n are not below it. *)
Theorem C84_qubit :
  forall (K : CoefRing) (big : K -> bool) (n : nat) (M : mat K),
    meq n (fun r c => sumK (map (fun e => (snd e * qstr_mat (fst e) r c)%K) (matrix_to_qubit big n M))) (cut big M).
Proof. exact matrix_to_qubit_spec. Qed.
Print Assumptions C84_qubit.
Theorem C84_pauli :
  forall (K : CoefRing) (big : K -> bool) (n : nat) (M : mat K),
    (forall i j, length i = n -> length j = n -> big (M i j) = true -> small (cpow chalf n * M i j)%K = false) ->
    exists D : list (list pauli * K), (forall e, In e D -> small (snd e) = true) /\
      meq n (madd (omat (matrix_to_pauli big n M)) (omat D)) (cut big M).
Proof. exact matrix_to_pauli_spec. Qed.
Print Assumptions C84_pauli.

Example C84_case : let M : mat GaussQ := fun r c => if bits_eqb r [true; false] && bits_eqb c [false; false] then gz 4 else gz 0 in
  map fst (matrix_to_qubit (fun x => negb (ceqb x c0)) 2 M) = [[Some Cre; Some Hol]]
  /\ map fst (matrix_to_pauli (fun x => negb (ceqb x c0)) 2 M) = [[PX; PI]; [PY; PI]; [PX; PZ]; [PY; PZ]]
  /\ small (cpow chalf 2 * gz 4)%K = false.
Proof. repeat split; vm_compute; reflexivity. Qed.

(** C85: the partial trace of a numerical array over any set of qubits, listed in any order. *)
Theorem C85_array :
  forall (K : CoefRing) (qb : list nat) (n : nat) (M : mat K) (i j : bits),
    NoDup qb -> (forall q, In q qb -> q < n) -> length i = n - length qb -> length j = n - length qb ->
    route TArray = RtMatrix /\ route TMatrix = RtMatrix /\ pt_matrix n qb M i j = Some (ptrace (mask_of qb n) M i j).
Proof. exact (fun K qb n M i j ND H Hi Hj => conj eq_refl (conj eq_refl (pt_matrix_spec K qb n M i j ND H Hi Hj))). Qed.
Print Assumptions C85_array.

Example C85_case : let M : mat GaussQ := fun r c => if bits_eqb r [true; false; true] && bits_eqb c [true; true; true] then gz 1 else gz 0 in
  option_map (fun x => ceqb x c1) (pt_matrix 3 [2; 0] M [false] [true]) = Some true
  /\ option_map (fun x => ceqb x c0) (pt_matrix 3 [2; 0] M [true] [false]) = Some true.
Proof. split; vm_compute; reflexivity. Qed.

(** C86 is false of the code: the trace of a symbolic array is transposed, that of a circuit is transposed
    and divided by the dimension, and that of an Operator is not computed at all. *)
Theorem C86_symbolic_refuted :
  exists (M : mat GaussQ) (i j : bits), length i = 1 /\ length j = 1 /\
    pt_symbolic 2 [1] M i j <> Some (ptrace (mask_of [1] 2) M i j).
Proof. exact symbolic_refuted. Qed.
Print Assumptions C86_symbolic_refuted.
Theorem C86_circuit_refuted :
  exists (M : mat GaussQ) (i j : bits), length i = 1 /\ length j = 1 /\
    trace_op 2 [1] M i j <> Some (ptrace (mask_of [1] 2) M i j).
Proof. exact circuit_trace_refuted. Qed.
Print Assumptions C86_circuit_refuted.
Theorem C86_operator_refuted : exists o, o = TOperator /\ route o <> RtOperator /\ route o = RtNothing.
Proof. exists TOperator. split; [reflexivity|]. split; [discriminate|reflexivity]. Qed.
Print Assumptions C86_operator_refuted.
(** What they return.  Missing: the order of the indices and the factor. *)
Theorem C86_transposed_partial :
  forall (K : CoefRing) (qb : list nat) (n : nat) (M : mat K) (i j : bits),
    NoDup qb -> (forall q, In q qb -> q < n) -> length i = n - length qb -> length j = n - length qb ->
    pt_symbolic n qb M i j = Some (ptrace (mask_of qb n) M j i) /\
    trace_op n qb M i j = Some (ptrace (mask_of qb n) M j i * cpow chalf (length qb))%K.
Proof. exact transposed_traces. Qed.
Print Assumptions C86_transposed_partial.

(** C87 is false of the code: with the qubits in descending order other qubits are removed. *)
Theorem C87_density_refuted :
  exists (M : mat GaussQ) (r c : bits), length r = 1 /\ length c = 1 /\
    dm_trace 3 [1; 0] M r c <> ptrace (mask_of [1; 0] 3) M r c.
Proof. exact density_refuted. Qed.
Print Assumptions C87_density_refuted.
(** Correct when the qubits are listed in ascending order.  Missing: other orders. *)
Theorem C87_density_partial :
  forall (K : CoefRing) (n : nat) (qubits : list nat) (M : mat K) (r c : bits),
    StronglySorted lt qubits -> (forall q, In q qubits -> q < n) ->
    length r = n - length qubits -> length c = n - length qubits ->
    dm_trace n qubits M r c = ptrace (mask_of qubits n) M r c.
Proof. exact dm_trace_spec. Qed.
Print Assumptions C87_density_partial.
(** The average of an observable is never returned: the number is indexed as if it were an array.  The number itself is the average. *)
Theorem C87_observable_refuted :
  exists (psi : bits -> GaussQ) (A : mat GaussQ), dm_observable 1 (density psi) A <> Some (expect 1 A psi).
Proof. exists (fun _ => c1), mone. discriminate. Qed.
Print Assumptions C87_observable_refuted.
Theorem C87_average_partial :
  forall (K : CoefRing) (n : nat) (A : mat K) (psi : bits -> K),
    sumbits n (fun r => mmul n (density psi) A r r) = expect n A psi.
Proof. exact density_expect. Qed.
Print Assumptions C87_average_partial.

Example C87_case : let M : mat GaussQ := fun r c => if bits_eqb r [true; false; true] && bits_eqb c [true; true; true] then gz 1 else gz 0 in
  StronglySorted lt [0; 2] /\ ceqb (dm_trace 3 [0; 2] M [false] [true]) c1 = true.
Proof. split; [|vm_compute; reflexivity]. repeat constructor. Qed.

(** C88: reordering by particle number lists every basis state once, in order of the number of particles,
    and permutes rows and columns accordingly. *)
Theorem C88_order :
  forall (K : CoefRing) (n : nat) (m : mat K),
    exists B : list bits, NoDup B /\ (forall b, In b B <-> length b = n) /\ length B = 2 ^ n /\
      StronglySorted (fun a b => length (filter (fun x => x) a) <= length (filter (fun x => x) b)) B /\
      (forall p q r c, nth_error B p = Some r -> nth_error B q = Some c -> get_cN n m p q = Some (m r c)) /\
      (forall p q, (2 ^ n <= p \/ 2 ^ n <= q) -> get_cN n m p q = None).
Proof. exact get_cN_spec. Qed.
Print Assumptions C88_order.

Example C88_case : cN_basis 2 = [[false; false]; [false; true]; [true; false]; [true; true]]
  /\ nth_error (cN_basis 3) 3 = Some [true; false; false].
Proof. split; vm_compute; reflexivity. Qed.

(** C89 is false of the code: the vector of a State can be multiplied by a circuit once; the second time
    the shapes do not match. *)
Theorem C89_repeat_refuted :
  exists (n : nat) (A B : mat GaussQ) (v : svec GaussQ), state_mul n A state_init = Some v /\ state_mul n B v = None.
Proof. exists 1, mone, mone. eexists. split; reflexivity. Qed.
Print Assumptions C89_repeat_refuted.
(** The first time the amplitudes are those of the product, stored as a row.  Missing: further applications. *)
Theorem C89_once_partial :
  forall (K : CoefRing) (n : nat) (A : mat K),
    exists v, state_mul n A state_init = Some (Row v) /\ forall r, length r = n -> v r = A r (repeat false n).
Proof. exact state_once. Qed.
Print Assumptions C89_once_partial.
Example C89_case : match state_mul 2 (@mone GaussQ) state_init with Some (Row v) => ceqb (v [false; false]) c1 | _ => false end = true.
Proof. vm_compute. reflexivity. Qed.
