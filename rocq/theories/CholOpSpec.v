(** Specification vocabulary for the operators of a Cholesky decomposition.  Nothing here comes from the code. *)
From Coq Require Import Bool List Arith.
From Verif Require Import Coeff MatSpec FockSpec HamSpec.
Section CholOp.
  Variable K : CoefRing.
  Local Open Scope coef_scope.
  (** Occupation of a mode. *)
  Definition occ (i : nat) (x : bits) : K := if nth i x false then 1 else 0.
  (** Sum over the orbitals of the eigenvalue times the number of electrons in the orbital; the modes i and i+n are the two spins of orbital i. *)
  Definition weight (n : nat) (lam : nat -> K) (x : bits) : K := upto n (fun i => lam i * (occ i x + occ (i + n) x)).
End CholOp.
Arguments occ {_}. Arguments weight {_}.
