(** Specification vocabulary for the residual of the anti-Hermitian contracted Schroedinger equation.  Nothing
    here comes from the code. *)
From Coq Require Import Bool List Arith.
From Verif Require Import Coeff MatSpec FockSpec CircuitSpec HamSpec.
Import ListNotations.
Section ResSpec.
  Variable K : CoefRing.
  Local Open Scope coef_scope.
  (** a+_i a+_k a_l a_j. *)
  Definition excitation (i k j l : nat) : mat K := fock_mat [(Cre, i); (Cre, k); (Ann, l); (Ann, j)].
  (** The two-body operator with coefficients V. *)
  Definition two_body (R : nat) (V : nat -> nat -> nat -> nat -> K) : mat K := fun x y =>
    upto R (fun p => upto R (fun q => upto R (fun s => upto R (fun t => V p q s t * excitation p q s t x y)))).
  (** Real coefficients of an operator on indistinguishable particles that equals its adjoint. *)
  Definition real_symmetric (V : nat -> nat -> nat -> nat -> K) : Prop :=
    (forall p q s t, cconj (V p q s t) = V p q s t) /\ (forall p q s t, V p q s t = V q p t s) /\ (forall p q s t, V p q s t = V s t p q).
  (** The real part of the expectation value. *)
  Definition re_expect (R : nat) (A : mat K) (psi : bits -> K) : K := chalf * (expect R A psi + cconj (expect R A psi)).
  (** The residual: the real part of < [a+_i a+_k a_l a_j , H] >. *)
  Definition residual_of (R : nat) (V : nat -> nat -> nat -> nat -> K) (psi : bits -> K) (i k j l : nat) : K :=
    re_expect R (comm R (excitation i k j l) (two_body R V)) psi.
End ResSpec.
Arguments excitation {_}. Arguments two_body {_}. Arguments real_symmetric {_}. Arguments re_expect {_}. Arguments residual_of {_}.
