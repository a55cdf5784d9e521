(** Specification for C116: the particles of a determinant in the orbitals of a list. *)
From Coq Require Import Bool List Arith.
Import ListNotations.
Definition particles (g : list nat) (d : list bool) : nat :=
  length (filter (fun k => existsb (Nat.eqb k) g && nth k d false) (seq 0 (length d))).
