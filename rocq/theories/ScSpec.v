(** Strings read off from outcomes. *)
From Coq Require Import List.
From Verif Require Import MatSpec.
Import ListNotations.
(** Only I and Z. *)
Definition diagonal (s : list pauli) : Prop := forall p, In p s -> p = PI \/ p = PZ.
(** The number of Z. *)
Definition zcount (s : list pauli) : nat := length (filter (fun p => match p with PZ => true | _ => false end) s).
(** The rule of the filter for one, two or three symmetry strings, given which of them are measured as -1: the single one
    is; both or none are; exactly two are. *)
Definition kept (neg : list bool) : bool :=
  match neg with
  | [a] => a
  | [a; b] => Bool.eqb a b
  | [a; b; c] => Nat.eqb (length (filter (fun x => x) [a; b; c])) 2
  | _ => false
  end.
