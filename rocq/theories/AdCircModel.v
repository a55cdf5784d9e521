(** Model of the circuit of one evaluation of the ADAPT solver: vqe/adapt.py l.114-131 with vqe/_ansatz.py l.58-80
    (FermiStrings), instructions/_instruct_pauli.py and tomography/_tomography.py l.158-191. *)
From Coq Require Import Bool List Arith Reals.
From Verif Require Import Coeff ComplexR MatSpec CircuitSpec CircuitModel QuantSpec VqeModel StoreModel ConsModel.
Import ListNotations.
Local Open Scope nat_scope.

(** adapt.py l.114-131 for the default mapping of orbitals to qubits; [terms] is [S.A], [ps] the parameters, [a] and [b] the
    numbers of electrons.  [zip] stops at the shorter of the two lists. *)
Definition ad_circuit (depth No a b : nat) (terms : list (list nat)) (ps : list Cx) : option (list (gate Cx)) :=
  match qs_initial Default No a b with
  | None => None
  | Some occ =>
      match initial_operator (2 * No) occ, assign_variables (2 * No) (combine terms ps) with
      | Some o, Some psi =>
          match ansatz_gates depth psi with
          | None => None
          | Some gs => Some (initial_circuit Crt o ++ gs)
          end
      | _, _ => None
      end
  end.
