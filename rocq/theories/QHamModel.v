(** Model of hqca/hamiltonian/qubit.py: [QubitHamiltonian] built from Pauli strings with the order equal to the
    number of qubits ([_matrix_from_pauli], l.38-57).  With a smaller order the reduced matrix is asked of a qRDM
    object, whose constructor raises (DESIGN.md).  The lowest eigenvalue [ef] (l.55) is not modelled. *)
From Coq Require Import Bool List Arith.
From Verif Require Import Coeff MatSpec PauliModel CircModel CircModel2.
Import ListNotations.
Local Open Scope coef_scope.

Section QHam.
  Variable K : CoefRing.
  (** l.41-50: [mat += o.c*cir.m]; a letter X, Y or Z past the last qubit raises. *)
  Definition qham_term (N : nat) (acc : option (mat K)) (e : list pauli * K) : option (mat K) :=
    match acc with
    | None => None
    | Some new =>
        option_map (fun m => fun r k => new r k + snd e * m r k)
          (apply_all N (string_gates 0 (fst e)) (Some circ_init))
    end.
  (** l.39-52; [None]: an exception, or the reduced matrix is needed. *)
  Definition qham_matrix (N order : nat) (o : list (list pauli * K)) : option (mat K) :=
    match fold_left (qham_term N) o (Some mzero) with
    | None => None
    | Some m => if (order =? N)%nat then Some m else None
    end.
End QHam.
Arguments qham_term {_}. Arguments qham_matrix {_}.
