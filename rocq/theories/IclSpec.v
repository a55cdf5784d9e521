(** Specification: what single-qubit Clifford gates do to Pauli strings.  [pulled U s] is U^+ s U as a string and the
    sign in front of it (true: minus), letter by letter: H exchanges X and Z and reverses Y; S = diag(1, i) takes X to -Y and Y to
    X; V = (Z - Y)/sqrt 2 reverses X and takes Y to -Z and Z to -Y.  Qubits without a letter stay as they are. *)
From Coq Require Import Bool List Arith Ascii.
From Verif Require Import MatSpec.
Import ListNotations.
Local Open Scope char_scope.

Definition pulled1 (u : ascii) (p : pauli) : pauli * bool :=
  match u, p with
  | "H", PX => (PZ, false) | "H", PY => (PY, true) | "H", PZ => (PX, false)
  | "S", PX => (PY, true) | "S", PY => (PX, false)
  | "V", PX => (PX, true) | "V", PY => (PZ, true) | "V", PZ => (PY, true)
  | _, _ => (p, false)
  end.
Fixpoint pulled (U : list ascii) (s : list pauli) : list pauli * bool :=
  match U, s with
  | u :: U', p :: s' => (fst (pulled1 u p) :: fst (pulled U' s'), xorb (snd (pulled1 u p)) (snd (pulled U' s')))
  | _, _ => (s, false)
  end.

(** Letters with a gate, letters without; a list of letters for N qubits. *)
Definition acts (u : ascii) : Prop := u = "H" \/ u = "S" \/ u = "V".
Definition idle (u : ascii) : Prop := u = "I" \/ u = "i".
Definition letters_ok (N : nat) (U : list ascii) : Prop :=
  forall n u, nth_error U n = Some u -> idle u \/ acts u /\ n < N.

(** Y stands only on qubits whose letter is neither H nor V: the gates leave these in |0>. *)
Definition y_safe (U : list ascii) (t : list pauli) : Prop :=
  forall n, nth_error t n = Some PY -> nth_error U n <> Some "H" /\ nth_error U n <> Some "V".

(** Whether two strings anticommute: an odd number of places with different letters, none of them I. *)
Definition clash1 (p q : pauli) : bool :=
  match p, q with PX, PY | PY, PX | PX, PZ | PZ, PX | PY, PZ | PZ, PY => true | _, _ => false end.
Fixpoint clash (s t : list pauli) : bool :=
  match s, t with p :: s', q :: t' => xorb (clash1 p q) (clash s' t') | _, _ => false end.
(** Only I and Z: the average in |0..0> is 1, that of any other string 0. *)
Definition diagonal (s : list pauli) : bool := forallb (fun p => match p with PI | PZ => true | _ => false end) s.
