(** Specification vocabulary for symmetric matrices over the reals.  Nothing here comes from the code. *)
From Coq Require Import List Arith Reals.
Import ListNotations.
Local Open Scope R_scope.
(** The sum of f 0, ..., f (n-1). *)
Fixpoint rsum (n : nat) (f : nat -> R) : R := match n with O => 0 | S k => rsum k f + f k end.
Definition symmetric (n : nat) (A : nat -> nat -> R) : Prop := forall i j, (i < n)%nat -> (j < n)%nat -> A i j = A j i.
Definition quad (n : nat) (A : nat -> nat -> R) (x : nat -> R) : R := rsum n (fun i => rsum n (fun j => x i * A i j * x j)).
Definition psd (n : nat) (A : nat -> nat -> R) : Prop := forall x, 0 <= quad n A x.
Definition trace (n : nat) (A : nat -> nat -> R) : R := rsum n (fun i => A i i).
(** The product of the transpose of a matrix, given by its rows, with the matrix; what is left of A. *)
Definition gram (rows : list (nat -> R)) (i j : nat) : R := fold_right (fun r s => r i * r j + s) 0 rows.
Definition left_over (A : nat -> nat -> R) (rows : list (nat -> R)) (i j : nat) : R := A i j - gram rows i j.
(** A permutation of 0, ..., n-1. *)
Definition permutes (n : nat) (pi : nat -> nat) : Prop := (forall i, (i < n)%nat -> (pi i < n)%nat) /\ forall i j, (i < n)%nat -> (j < n)%nat -> pi i = pi j -> i = j.
