(** C116-C117: orbital mapping and measurement filter of the quantum storage. *)
From Coq Require Import Bool List Arith ZArith Permutation Lia.
From Verif Require Import Coeff MatSpec FockSpec PauliModel TransformModel CircuitSpec CircuitModel Sqrt2 StoreModel StoreSpec StoreProofs.
Import ListNotations.

(** C116. The two groups of spin orbitals are disjoint and together are all qubits. *)
Theorem C116_groups : forall (m : rdm_to_qubit) (No : nat), m = Default \/ m = Alternating ->
  Permutation (fst (qs_groups m No) ++ snd (qs_groups m No)) (seq 0 (2 * No)).
Proof. exact groups_perm. Qed.
Print Assumptions C116_groups.

(** The initial state prepared for the stored occupations is one determinant, with the requested numbers of
    particles in the two groups. *)
Theorem C116_prepared : forall (K : CoefRing) (rt : K), (rt * rt = chalf)%K ->
  forall (m : rdm_to_qubit) (No a b : nat), m = Default \/ m = Alternating -> a <= No -> b <= No ->
  exists occ o d (z : Z), qs_initial m No a b = Some occ /\ initial_operator (2 * No) occ = Some o /\
    length d = 2 * No /\ particles (fst (qs_groups m No)) d = a /\ particles (snd (qs_groups m No)) d = b /\
    forall r, length r = 2 * No -> cmat rt (2 * No) (initial_circuit rt o) r (repeat false (2 * No)) = if bits_eqb r d then @ipow K z else c0.
Proof. exact prepared. Qed.
Print Assumptions C116_prepared.

(** More particles of one spin than orbitals are refused. *)
Theorem C116_too_many : forall (m : rdm_to_qubit) (No a b : nat), m = Default \/ m = Alternating -> No < a \/ No < b ->
  qs_initial m No a b = None.
Proof. exact too_many. Qed.
Print Assumptions C116_too_many.

Example C116_case :
  (rrt * rrt = chalf)%K /\ qs_groups Alternating 3 = ([0; 2; 4], [1; 3; 5]) /\ qs_initial Alternating 3 2 1 = Some [0; 2; 1]
  /\ particles [0; 2; 4] [true; true; true; false; false; false] = 2 /\ qs_initial Default 3 2 1 = Some [0; 1; 3] /\ qs_initial Default 3 4 1 = None.
Proof. repeat split. Qed.

(** C117. With a positive frequency q the j-th use of the filter after its setup is made with calibration 1 + j/q
    (rounded down), counted from the setup, whose own calibration is the first. *)
Theorem C117_schedule : forall q n made : nat, 0 < q ->
  mf_reads n (mf_initial (Z.of_nat q) made) = map (fun j => made + 1 + j / q) (seq 1 n).
Proof. exact schedule. Qed.
Print Assumptions C117_schedule.

(** Otherwise the first calibration is used throughout. *)
Theorem C117_never : forall (freq : Z) (n made : nat), (freq <= 0)%Z -> mf_reads n (mf_initial freq made) = repeat (S made) n.
Proof. exact schedule_zero. Qed.
Print Assumptions C117_never.

Example C117_case : mf_reads 7 (mf_initial 3 0) = [1; 1; 2; 2; 2; 3; 3] /\ mf_reads 3 (mf_initial 1 0) = [2; 3; 4].
Proof. split; reflexivity. Qed.
