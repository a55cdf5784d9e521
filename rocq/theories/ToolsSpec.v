(** Specification vocabulary for bitstring helpers.  Nothing here comes from the code. *)
From Coq Require Import Bool List Arith ZArith Permutation.
Import ListNotations.

(** Qubit q of a bitstring of N characters is character N-1-q.  The characters whose qubit is not traced out. *)
Definition marginal (trace : list nat) (k : list bool) : list bool :=
  map snd (filter (fun pb => negb (existsb (Nat.eqb (length k - 1 - fst pb)) trace)) (combine (seq 0 (length k)) k)).
(** Sum of the counts of the keys satisfying a condition. *)
Definition shots (P : list bool -> Prop) (D : forall k, {P k} + {~ P k}) (d : list (list bool * Z)) : Z :=
  fold_right (fun kv s => ((if D (fst kv) then snd kv else 0) + s)%Z) 0%Z d.
Definition total_shots (d : list (list bool * Z)) : Z := fold_right (fun kv s => (snd kv + s)%Z) 0%Z d.
Definition str_dec : forall a b : list bool, {a = b} + {a <> b} := list_eq_dec bool_dec.
Definition shots_at (b : list bool) : list (list bool * Z) -> Z := shots (fun k => k = b) (fun k => str_dec k b).
Definition shots_onto (trace : list nat) (b : list bool) : list (list bool * Z) -> Z :=
  shots (fun k => marginal trace k = b) (fun k => str_dec (marginal trace k) b).
Fixpoint ascending (l : list nat) : Prop :=
  match l with
  | [] => True
  | a :: l' => (forall b, In b l' -> a < b) /\ ascending l'
  end.

(** The mapping is a permutation of 0..n-1. *)
Definition permutes (n : nat) (m : nat -> option nat) : Prop :=
  (forall i, i < n -> exists j, m i = Some j /\ j < n) /\
  (forall i i' j, i < n -> i' < n -> m i = Some j -> m i' = Some j -> i = i').

(** Where logical qubits live after a sequence of swaps of physical qubits. *)
Definition transpose (q p i : nat) : nat := if Nat.eqb i q then p else if Nat.eqb i p then q else i.
Definition location (sw : list (nat * nat)) (i : nat) : nat := fold_left (fun i qp => transpose (fst qp) (snd qp) i) sw i.
