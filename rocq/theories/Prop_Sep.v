(** Hamiltonians separated into groups of strings (C166). *)
From Coq Require Import Bool List Arith ZArith.
From Verif Require Import Coeff MatSpec OpSpec PauliModel PauliProofs OperatorModel SepModel SepProofs.
Import ListNotations.
(** For every Hamiltonian and grouping, every group holds each string of its list with the coefficient of the Hamiltonian, as often as it is
    listed; strings that the Hamiltonian does not hold are left out. *)
Theorem C166_group : forall (K : CoefRing) (key : Type) (keqb : key -> key -> bool) (keqb_spec : forall a b, keqb a b = true <-> a = b) (keq : forall a b : key, {a = b} + {a <> b})
  (H : list (key * K)) grouping, NoDup (keys H) ->
  length (build_separable_operator keqb true H grouping) = length grouping /\
  forall n group k, nth_error grouping n = Some group -> exists o, nth_error (build_separable_operator keqb true H grouping) n = Some o /\ total keq k o = sumK (repeat (total keq k H) (count_occ keq group k)).
Proof. exact separable_groups. Qed.
Print Assumptions C166_group.
(** A grouping that lists each string of the Hamiltonian once splits it: for every string the coefficients in the groups add up to its coefficient. *)
Theorem C166_sum : forall (K : CoefRing) (key : Type) (keqb : key -> key -> bool) (keqb_spec : forall a b, keqb a b = true <-> a = b) (keq : forall a b : key, {a = b} + {a <> b})
  (H : list (key * K)) grouping, NoDup (keys H) -> (forall k, In k (keys H) -> count_occ keq (concat grouping) k = 1) ->
  forall k, sumK (map (total keq k) (build_separable_operator keqb true H grouping)) = total keq k H.
Proof. exact separable_once. Qed.
Print Assumptions C166_sum.
(** A case: three strings in two groups. *)
Example C166_case : build_separable_operator pauli_list_eqb true [([PX], gz 1); ([PY], gz 2); ([PZ], gz 3)] [[[PZ]; [PX]]; [[PY]]] = [[([PZ], gz 3); ([PX], gz 1)]; [([PY], gz 2)]].
Proof. vm_compute. reflexivity. Qed.
(** The default grouping is empty, and another ordering is not refused: both give no operator at all, whatever the Hamiltonian. *)
Theorem C166_default_empty : exists H : list (list pauli * GaussQ), H <> [] /\ build_separable_operator pauli_list_eqb true H [] = [] /\ forall grouping, build_separable_operator pauli_list_eqb false H grouping = [].
Proof. exists [([PX], gz 1)]. split; [discriminate|]. split; [reflexivity|]. intros grouping. reflexivity. Qed.
Print Assumptions C166_default_empty.
