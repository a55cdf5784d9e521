(** Specification: gates on named qubits of an n-qubit register, written on basis states. *)
From Coq Require Import Bool List Arith.
From Verif Require Import Coeff MatSpec CircuitSpec FockSpec.
Import ListNotations.
Local Open Scope coef_scope.

(** The two basis states agree on every qubit outside the list. *)
Definition agree_off (n : nat) (qs : list nat) (r c : bits) : bool :=
  forallb (fun k => existsb (Nat.eqb k) qs || Bool.eqb (nth k r false) (nth k c false)) (seq 0 n).

Section Spec.
  Variable K : CoefRing.

  (** A matrix with two-qubit labels (first qubit, second qubit). *)
  Definition mat4 := bool -> bool -> bool -> bool -> K.
  (** [U] acting on the qubits i and j of n: <r|U|c>. *)
  Definition at2 (n i j : nat) (U : mat4) : mat K := fun r c =>
    if agree_off n [i; j] r c
    then U (nth i r false) (nth j r false) (nth i c false) (nth j c false) else 0.
  (** Apply g to the second qubit when the first is 1 (when it is 0). *)
  Definition ctrl (g : mat2 K) : mat4 := fun a b c d =>
    if Bool.eqb a c then if a then g b d else if Bool.eqb b d then 1 else 0 else 0.
  Definition ctrl0 (g : mat2 K) : mat4 := fun a b c d =>
    if Bool.eqb a c then if a then (if Bool.eqb b d then 1 else 0) else g b d else 0.
  (** g on the states |01>, |10> (in this order), the identity on |00> and |11>. *)
  Definition exchange (g : mat2 K) : mat4 := fun a b c d =>
    if xorb a b then if xorb c d then g a c else 0
    else if Bool.eqb a c && Bool.eqb b d then 1 else 0.

  (** The permutation matrix of a map on basis states: column c has its 1 in row f c. *)
  Definition perm_mat (f : bits -> bits) : mat K := fun r c => if bits_eqb r (f c) then 1 else 0.
  Definition unitary (n : nat) (M : mat K) : Prop :=
    meq n (mmul n (madj M) M) mone /\ meq n (mmul n M (madj M)) mone.
  Definition unitary2 (g : mat2 K) : Prop :=
    eq2 (mul2 (fun a b => cconj (g b a)) g) (pauli1 PI) /\ eq2 (mul2 g (fun a b => cconj (g b a))) (pauli1 PI).
End Spec.
Arguments at2 {_}. Arguments ctrl {_}. Arguments ctrl0 {_}. Arguments exchange {_}. Arguments perm_mat {_}.
Arguments unitary {_}. Arguments unitary2 {_}.

(** Flip qubit j when all control qubits are 1. *)
Definition flip_if (controls : list nat) (j : nat) (b : bits) : bits :=
  if forallb (fun i => nth i b false) controls then upd j (negb (nth j b false)) b else b.
(** Exchange the values of qubits i and j when all control qubits are 1. *)
Definition swap_if (controls : list nat) (i j : nat) (b : bits) : bits :=
  if forallb (fun i => nth i b false) controls
  then upd i (nth j b false) (upd j (nth i b false) b) else b.
