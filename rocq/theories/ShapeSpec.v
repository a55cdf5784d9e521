(** Specification vocabulary for the order of the Pauli strings in a circuit.  Nothing here comes from the code. *)
From Coq Require Import Bool List Arith.
From Verif Require Import Coeff MatSpec OpSpec PauliModel.
Import ListNotations.

(** The parity of the number of Y letters. *)
Fixpoint odd_y (s : list pauli) : bool := match s with [] => false | p :: s' => xorb (match p with PY => true | _ => false end) (odd_y s') end.
(** The qubits a string flips; the same with the letters I and Z elsewhere. *)
Definition support (s : list pauli) : list bool := map (fun p => match p with PX | PY => true | _ => false end) s.
Definition letter_shape (p : pauli) : option bool := match p with PI => Some false | PZ => Some true | _ => None end.
Definition shape (s : list pauli) : list (option bool) := map letter_shape s.
(** The strings come in groups: those of one group flip the same qubits, and strings of one shape are in one group. *)
Definition grouped (l : list (list pauli)) : Prop := exists ks, l = concat ks /\
  (forall k s s', In k ks -> In s k -> In s' k -> support s = support s') /\
  (forall k1 k k2 s s', ks = k1 ++ k :: k2 -> In s k -> In s' (concat k1 ++ concat k2) -> shape s <> shape s').
