(** Specification: encodings of occupation lists in which bit j stores the parity of a range of
    modes ending at j. *)
From Coq Require Import Bool List Arith.
From Verif Require Import Coeff MatSpec FockSpec.
Import ListNotations.

(** Bit j is the parity of the modes first(j), ..., j. *)
Definition range_enc (first : nat -> nat) (n : bits) : bits :=
  map (fun j => parity (skipn (first j) (firstn (S j) n))) (seq 0 (length n)).

(** Parity encoding: all modes up to j. *)
Definition parity_enc : bits -> bits := range_enc (fun _ => 0).
(** Bravyi-Kitaev (Fenwick tree) encoding: clear the lowest set bit of j+1 to get the first mode. *)
Definition bk_enc : bits -> bits := range_enc (fun j => Nat.land j (S j)).

(** [M'] is the matrix [M] written in the encoded basis. *)
Definition in_basis {K : CoefRing} (enc : bits -> bits) (N : nat) (M' M : mat K) : Prop :=
  forall r c, length r = N -> length c = N -> M' (enc r) (enc c) = M r c.

(** Number of ladder letters of a string. *)
Definition n_ladder (s : fstr) : nat :=
  length (filter (fun x => match x with Some o => ladder o | None => false end) s).
(** Sign of reversing a product of k anticommuting factors: (-1)^(k(k-1)/2). *)
Definition rev_odd (k : nat) : bool := Nat.odd (Nat.div2 (k * (k - 1))).
