(** Specification vocabulary for conserved quantities.  Nothing here comes from the code. *)
From Coq Require Import List Arith.
From Verif Require Import Coeff MatSpec.
Local Open Scope coef_scope.
(** The matrix connects only basis states with the same value of [f]. *)
Definition conserves {K : CoefRing} (N : nat) (f : bits -> nat) (A : mat K) : Prop :=
  forall r c, length r = N -> length c = N -> A r c <> 0 -> f r = f c.
