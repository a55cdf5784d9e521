(** Specification vocabulary for spin-orbital integrals.  Nothing here comes from the code. *)
From Coq Require Import Bool List Arith.
From Verif Require Import Coeff MatSpec FockSpec HamSpec.
Import ListNotations.
Section IntsSpec.
  Variable K : CoefRing.
  Local Open Scope coef_scope.
  (** Spin orbitals of N spatial orbitals: spin up 0..N-1, spin down N..2N-1. *)
  Definition down (N i : nat) : bool := N <=? i.
  Definition spatial (N i : nat) : nat := if down N i then (i - N)%nat else i.
  (** Component of spin orbital [i] along basis function [a]: row [spatial i] of the coefficients of its spin. *)
  Definition component (N : nat) (Ua Ub : nat -> nat -> K) (i a : nat) : K := (if down N i then Ub else Ua) (spatial N i) a.
  (** <i|h|j> and (ij|kl), chemists' order, between spin orbitals. *)
  Definition one_electron (N : nat) Ua Ub (h : nat -> nat -> K) (i j : nat) : K :=
    if Bool.eqb (down N i) (down N j) then upto N (fun a => upto N (fun b => component N Ua Ub i a * component N Ua Ub j b * h a b)) else 0.
  Definition two_electron (N : nat) Ua Ub (V : nat -> nat -> nat -> nat -> K) (i j k l : nat) : K :=
    if Bool.eqb (down N i) (down N j) && Bool.eqb (down N k) (down N l) then
      upto N (fun a => upto N (fun b => upto N (fun c => upto N (fun d =>
        component N Ua Ub i a * component N Ua Ub j b * component N Ua Ub k c * component N Ua Ub l d * V a b c d))))
    else 0.
  (** Creation and annihilation of an electron in basis function [spatial a] with the spin of [a]. *)
  Definition basis_cre (N : nat) (Ua Ub : nat -> nat -> K) (a : nat) : mat K := fun x y =>
    upto (2 * N) (fun p => (if Bool.eqb (down N p) (down N a) then component N Ua Ub p (spatial N a) else 0) * cre p x y).
  Definition basis_ann (N : nat) (Ua Ub : nat -> nat -> K) (a : nat) : mat K := fun x y =>
    upto (2 * N) (fun p => (if Bool.eqb (down N p) (down N a) then component N Ua Ub p (spatial N a) else 0) * ann p x y).
  (** The electronic Hamiltonian written in the basis functions: h_ab and (ab|cd) act within each spin. *)
  Definition basis_ham (N : nat) (Ua Ub : nat -> nat -> K) (h : nat -> nat -> K) (V : nat -> nat -> nat -> nat -> K) : mat K := fun x y =>
    upto (2 * N) (fun a => upto (2 * N) (fun b =>
      (if Bool.eqb (down N a) (down N b) then h (spatial N a) (spatial N b) else 0) * mmul (2 * N) (basis_cre N Ua Ub a) (basis_ann N Ua Ub b) x y)) +
    chalf * upto (2 * N) (fun a => upto (2 * N) (fun c => upto (2 * N) (fun b => upto (2 * N) (fun d =>
      (if Bool.eqb (down N a) (down N b) && Bool.eqb (down N c) (down N d) then V (spatial N a) (spatial N b) (spatial N c) (spatial N d) else 0) *
      mmul (2 * N) (basis_cre N Ua Ub a) (mmul (2 * N) (basis_cre N Ua Ub c) (mmul (2 * N) (basis_ann N Ua Ub d) (basis_ann N Ua Ub b))) x y)))).
End IntsSpec.
Arguments component {_}. Arguments one_electron {_}. Arguments two_electron {_}. Arguments basis_cre {_}. Arguments basis_ann {_}. Arguments basis_ham {_}.
