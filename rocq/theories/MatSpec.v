(** Specification: matrices over bit lists.  Nothing here comes from the code. *)
From Coq Require Import Bool List Lia Ring.
From Verif Require Import Coeff.
Import ListNotations.
Local Open Scope coef_scope.

Definition bits := list bool.

Fixpoint bits_eqb (a b : bits) : bool :=
  match a, b with
  | [], [] => true
  | x :: a', y :: b' => Bool.eqb x y && bits_eqb a' b'
  | _, _ => false
  end.

(** Letters of a Pauli string. *)
Inductive pauli := PI | PX | PY | PZ.

Definition pauli_eqb (a b : pauli) : bool :=
  match a, b with
  | PI, PI | PX, PX | PY, PY | PZ, PZ => true
  | _, _ => false
  end.

Section Mat.
  Variable K : CoefRing.

  (** A matrix on n qubits: entry at row r and column c, r and c bit lists of length n. *)
  Definition mat := bits -> bits -> K.

  Definition meq (n : nat) (A B : mat) : Prop :=
    forall r c, length r = n -> length c = n -> A r c = B r c.

  (** Sum over all bit lists of length n. *)
  Fixpoint sumbits (n : nat) (f : bits -> K) : K :=
    match n with
    | O => f []
    | S m => sumbits m (fun b => f (false :: b)) + sumbits m (fun b => f (true :: b))
    end.

  Definition mmul (n : nat) (A B : mat) : mat := fun r c => sumbits n (fun k => A r k * B k c).
  Definition madd (A B : mat) : mat := fun r c => A r c + B r c.
  Definition mscal (x : K) (A : mat) : mat := fun r c => x * A r c.
  Definition mzero : mat := fun _ _ => 0.
  Definition mone : mat := fun r c => if bits_eqb r c then 1 else 0.
  Definition madj (A : mat) : mat := fun r c => cconj (A c r).
  (** Anticommutator and commutator. *)
  Definition anticomm (n : nat) (A B : mat) : mat := madd (mmul n A B) (mmul n B A).
  Definition comm (n : nat) (A B : mat) : mat := fun r c => mmul n A B r c - mmul n B A r c.

  (** The 2x2 Pauli matrices, [false] being the state 0. *)
  Definition pauli1 (p : pauli) (r c : bool) : K :=
    match p, r, c with
    | PI, false, false | PI, true, true => 1
    | PX, false, true | PX, true, false => 1
    | PY, false, true => - ci
    | PY, true, false => ci
    | PZ, false, false => 1
    | PZ, true, true => - (1)
    | _, _, _ => 0
    end.

  (** Kronecker product of the letters, first letter = first bit. *)
  Fixpoint pmat (s : list pauli) (r c : bits) : K :=
    match s, r, c with
    | [], [], [] => 1
    | p :: s', a :: r', b :: c' => pauli1 p a b * pmat s' r' c'
    | _, _, _ => 0
    end.

  (** Matrix of a formal sum of Pauli strings. *)
  Fixpoint omat (l : list (list pauli * K)) : mat :=
    match l with
    | [] => mzero
    | (s, x) :: l' => madd (mscal x (pmat s)) (omat l')
    end.
End Mat.

Arguments meq {_}. Arguments sumbits {_}. Arguments mmul {_}. Arguments madd {_}.
Arguments mscal {_}. Arguments mzero {_}. Arguments mone {_}. Arguments madj {_}. Arguments anticomm {_}. Arguments comm {_}.
Arguments pauli1 {_}. Arguments pmat {_}. Arguments omat {_}.

(** Kronecker product of arbitrary 2x2 matrices. *)
Section Kron.
  Variable K : CoefRing.
  Definition mat2 := bool -> bool -> K.
  Fixpoint kron (ms : list mat2) (r c : bits) : K :=
    match ms, r, c with
    | [], [], [] => 1
    | m :: ms', a :: r', b :: c' => m a b * kron ms' r' c'
    | _, _, _ => 0
    end.
  Definition mul2 (A B : mat2) : mat2 := fun a b => A a false * B false b + A a true * B true b.
  Definition eq2 (A B : mat2) : Prop := forall a b, A a b = B a b.
End Kron.
Arguments kron {_}. Arguments mul2 {_}. Arguments eq2 {_}.
