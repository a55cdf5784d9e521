(** Inner products, Hermitian matrices and eigenvectors. *)
From Coq Require Import List Arith.
From Verif Require Import Coeff MatSpec CircuitSpec PlanSpec.
Local Open Scope coef_scope.
Definition dot {K : CoefRing} (N : nat) (a b : bits -> K) : K := sumbits N (fun r => cconj (a r) * b r).
Definition selfadjoint {K : CoefRing} (N : nat) (H : mat K) : Prop := meq N (madj H) H.
Definition eigenvector {K : CoefRing} (N : nat) (H : mat K) (lam : K) (phi : bits -> K) : Prop := forall r, length r = N -> mvec N H phi r = lam * phi r.
(** (H - E) psi. *)
Definition deviation {K : CoefRing} (N : nat) (H : mat K) (E : K) (psi : bits -> K) : bits -> K := fun r => mvec N H psi r - E * psi r.
