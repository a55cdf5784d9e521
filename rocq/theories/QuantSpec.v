(** Specification vocabulary for the quantum residual: limits for step sizes going to 0, angles, Hermitian operators.  Nothing
    here comes from the code. *)
From Coq Require Import List Reals.
From Verif Require Import Coeff MatSpec CircuitSpec ComplexR.
Local Open Scope R_scope.
Definition tends_to (q : R -> R) (l : R) : Prop :=
  forall eps, 0 < eps -> exists d, 0 < d /\ forall x, x <> 0 -> Rabs x < d -> Rabs (q x - l) < eps.
(** cos and sin of half a number, of which the imaginary part is ignored. *)
Definition chalf_angle (x : Cx) : angle Cx := ((cos (fst x / 2), 0), (sin (fst x / 2), 0)).
(** An operator on N qubits with real coefficients. *)
Definition real_op (N : nat) (H : list (list pauli * Cx)) : Prop := forall s c, In (s, c) H -> length s = N /\ snd c = 0.
