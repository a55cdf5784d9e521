(** Specification: rotations about a Pauli string, exp(-i theta/2 P) = cos(theta/2) - i sin(theta/2) P, and products of them in
    the order in which they act. *)
From Coq Require Import List.
From Verif Require Import Coeff MatSpec CircuitSpec.
Import ListNotations.
Local Open Scope coef_scope.

Definition rot {K : CoefRing} (t : angle K) (P : list pauli) : mat K := madd (mscal (fst t) mone) (mscal (- (ci * snd t)) (pmat P)).
Fixpoint rots {K : CoefRing} (N : nat) (l : list (angle K * list pauli)) : mat K :=
  match l with [] => mone | (t, P) :: r => mmul N (rots N r) (rot t P) end.
