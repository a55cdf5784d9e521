(** Specification for C112: trace, density matrix of a state, and the matrix of circuits in sequence. *)
From Coq Require Import List.
From Verif Require Import Coeff MatSpec CircuitSpec.
Import ListNotations.
Local Open Scope coef_scope.
Definition mtrace {K : CoefRing} (N : nat) (A : mat K) : K := sumbits N (fun b => A b b).
Definition pure {K : CoefRing} (psi : bits -> K) : mat K := fun r c => psi r * cconj (psi c).
Definition sequence {K : CoefRing} (rt : K) (N : nat) (circuits : list (list (gate K))) : mat K := cmat rt N (concat circuits).
