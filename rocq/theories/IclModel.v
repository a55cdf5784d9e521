(** hqca/core/primitives/_pauli_strings.py l.8-25 [apply_clifford_operation]: the gates of [initial_clifford], put before the
    reference in tomography/_tomography.py l.180-188, tomography/_qubit_tomography.py l.131-139 and
    processes/_simulate_iterative_unitary.py l.66-74.  [None]: the handler there ends the program (a letter that is not in
    the table, or a gate on a qubit outside the register).  The register is the [N] qubits of the circuit; a backend
    without the attribute initial_clifford is the empty list. *)
From Coq Require Import Bool List Arith Ascii.
From Verif Require Import Coeff MatSpec CircuitSpec CircuitModel.
Import ListNotations.
Local Open Scope char_scope.

Section Icl.
  Variable K : CoefRing.
  (** l.9-22: the dictionary of the letters; l.9-12 is V, l.13-14 is S. *)
  Definition clifford_gate (u : ascii) (n : nat) : option (list (gate K)) :=
    if Ascii.eqb u "H" then Some [Gh n]
    else if Ascii.eqb u "S" then Some [Gs n]
    else if Ascii.eqb u "V" then Some [Gs n; Gh n; Gsdg n]
    else None.
  (** l.21 *)
  Definition skipped (u : ascii) : bool := Ascii.eqb u "I" || Ascii.eqb u "i".
  (** l.20-25, from qubit [n] on. *)
  Fixpoint clifford_from (N n : nat) (U : list ascii) : option (list (gate K)) :=
    match U with
    | [] => Some []
    | u :: U' =>
        if skipped u then clifford_from N (S n) U'
        else match clifford_gate u n with
             | None => None
             | Some g => if Nat.ltb n N then match clifford_from N (S n) U' with None => None | Some r => Some (g ++ r) end else None
             end
    end.
  Definition initial_clifford (N : nat) (U : list ascii) : option (list (gate K)) := clifford_from N 0 U.
  (** The gates before the ansatz: those of [U], then those of the strings of the reference (l.189-190 of _tomography.py). *)
  Definition clifford_reference (rt : K) (N : nat) (U : list ascii) (init : list (list pauli * K)) : option (list (gate K)) :=
    match initial_clifford N U with None => None | Some g => Some (g ++ initial_circuit rt init) end.
End Icl.
Arguments clifford_gate {_}. Arguments clifford_from {_}. Arguments initial_clifford {_}. Arguments clifford_reference {_}.
