(** Specification for C126: the Hilbert-Schmidt product of two matrices, the sum of A_ab conj(B_ab). *)
From Coq Require Import List.
From Verif Require Import Coeff MatSpec.
Local Open Scope coef_scope.
Definition hs {K : CoefRing} (N : nat) (A B : mat K) : K := sumbits N (fun a => sumbits N (fun b => A a b * cconj (B a b))).
Fixpoint pow2 {K : CoefRing} (N : nat) : K := match N with O => 1 | S m => pow2 m + pow2 m end.
