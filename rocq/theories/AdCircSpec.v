(** Specification vocabulary for the ADAPT circuits.  Nothing here comes from the code. *)
From Coq Require Import List Arith.
From Verif Require Import RdmSpec.
Import ListNotations.
(** The indices of two creators and two annihilators, among [2 * No] spin orbitals of which the first [No] are spin up, with
    as many creators as annihilators of each spin.  They may coincide, unless the list is ascending. *)
Definition ansatz_term (No : nat) (t : list nat) : Prop :=
  exists i k l j, t = [i; k; l; j] /\ (forall x, In x t -> x < 2 * No) /\ intact t /\
    length (filter (fun x => x <? No) [i; k]) = length (filter (fun x => x <? No) [l; j]).
