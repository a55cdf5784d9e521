(** Specification vocabulary for integrals between left and right orbitals.  Nothing here comes from the code. *)
From Coq Require Import Bool List Arith.
From Verif Require Import Coeff MatSpec FockSpec HamSpec IntsSpec.
Import ListNotations.
Section LrSpec.
  Variable K : CoefRing.
  Local Open Scope coef_scope.
  (** Left orbital [i]: a row of the left coefficients of its spin.  Right orbital [j]: a column of the right ones. *)
  Definition left_component (N : nat) (La Lb : nat -> nat -> K) (i a : nat) : K := (if down N i then Lb else La) (spatial N i) a.
  Definition right_component (N : nat) (Ra Rb : nat -> nat -> K) (j b : nat) : K := (if down N j then Rb else Ra) b (spatial N j).
  (** <i|h|j> between a left and a right orbital of one spin; none between opposite spins. *)
  Definition left_right (N : nat) La Ra Lb Rb (h : nat -> nat -> K) (i j : nat) : K :=
    if Bool.eqb (down N i) (down N j) then upto N (fun a => upto N (fun b => left_component N La Lb i a * h a b * right_component N Ra Rb j b)) else 0.
  (** Spin orbitals of N spatial orbitals whose spatial number is at least [lo] and below [hi]. *)
  Definition ranged (N lo hi i : nat) : bool := (i <? 2 * N) && (lo <=? spatial N i) && (spatial N i <? hi).
End LrSpec.
Arguments left_component {_}. Arguments right_component {_}. Arguments left_right {_}.
