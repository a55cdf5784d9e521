(** Model of [build_separable_operator] (hqca/hamiltonian/fermionic.py l.226-247): groups of strings of the qubit Hamiltonian. *)
From Coq Require Import Bool List.
From Verif Require Import Coeff OperatorModel.
Import ListNotations.
Section Sep.
  Variable K : CoefRing.
  Variable key : Type.
  Variable keqb : key -> key -> bool.
  (** l.240-246: copies of the strings of one group; a string that the Hamiltonian does not hold is passed over. *)
  Definition separated (H : list (key * K)) (group : list key) : list (key * K) :=
    fold_left (fun new item => match op_get keqb item H with Some c => op_add_string keqb new (item, c) | None => new end) group [].
  (** l.238-247; [known] says whether the ordering is 'given', 'specified' or 'default'. *)
  Definition build_separable_operator (known : bool) (H : list (key * K)) (grouping : list (list key)) : list (list (key * K)) :=
    if known then map (separated H) grouping else [].
End Sep.
Arguments separated {K key}. Arguments build_separable_operator {K key}.
