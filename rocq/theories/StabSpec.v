(** Linear algebra over the field with two elements. *)
From Coq Require Import Bool List Arith.
Import ListNotations.

(** Sum (exclusive or) of products. *)
Fixpoint dot2 (a b : list bool) : bool :=
  match a, b with x :: a', y :: b' => xorb (x && y) (dot2 a' b') | _, _ => false end.
Fixpoint add2 (a b : list bool) : list bool :=
  match a, b with x :: a', y :: b' => xorb x y :: add2 a' b' | _, _ => [] end.
(** Sums of rows of [E]. *)
Inductive span (M : nat) (E : list (list bool)) : list bool -> Prop :=
| span_zero : span M E (repeat false M)
| span_add : forall r v, In r E -> span M E v -> span M E (add2 r v).
(** The sum of the vectors selected by [bs]. *)
Fixpoint combination (M : nat) (bs : list bool) (E : list (list bool)) : list bool :=
  match bs, E with
  | b :: bs', r :: E' => if b then add2 r (combination M bs' E') else combination M bs' E'
  | _, _ => repeat false M
  end.
Definition shape (M : nat) (E : list (list bool)) : Prop := forall r, In r E -> length r = M.

(** Products of the matrices of Pauli strings, and selections. *)
From Verif Require Import Coeff MatSpec.
Definition mprod {K : CoefRing} (n : nat) (ss : list (list pauli)) : mat K := fold_right (fun s A => mmul n (pmat s) A) mone ss.
Fixpoint select {A} (bs : list bool) (l : list A) : list A :=
  match bs, l with b :: bs', x :: l' => if b then x :: select bs' l' else select bs' l' | _, _ => [] end.
Definition commuting (K : CoefRing) (n : nat) (a b : list pauli) : Prop := meq n (mmul n (@pmat K a) (pmat b)) (mmul n (pmat b) (pmat a)).
