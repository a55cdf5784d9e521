(** Model of hqca/operators/quantum_strings/_pauli_string.py.

    A PauliString is modelled by its letters ([self.s]) and coefficient ([self.c]); the attribute
    [self.sym] (sympy coefficients) is not modelled.  The 0/1 numpy arrays [self.l], [self.r] are
    lists of booleans and are recomputed from the letters where the code reads the attribute; the
    two constructors agree on them (theorem in Prop_Pauli.v). *)
From Coq Require Import Bool List ZArith.
From Verif Require Import Coeff MatSpec.
Import ListNotations.

(** _pauli_string.py l.24: [int(pauli[i]=='X' or pauli[i]=='Y')]. *)
Definition lvec (s : list pauli) : list bool :=
  map (fun p => pauli_eqb p PX || pauli_eqb p PY) s.
(** _pauli_string.py l.25. *)
Definition rvec (s : list pauli) : list bool :=
  map (fun p => pauli_eqb p PZ || pauli_eqb p PY) s.

(** _pauli_string.py l.40-48 ([_construct]): the key table. *)
Definition construct1 (l r : bool) : pauli :=
  match l, r with
  | false, false => PI
  | true, false => PX
  | false, true => PZ
  | true, true => PY
  end.
Fixpoint construct (l r : list bool) : list pauli :=
  match l, r with
  | a :: l', b :: r' => construct1 a b :: construct l' r'
  | _, _ => []
  end.

(** Element-wise numpy operations used at l.82-87. *)
Fixpoint zipb (f : bool -> bool -> bool) (a b : list bool) : list bool :=
  match a, b with x :: a', y :: b' => f x y :: zipb f a' b' | _, _ => [] end.
Definition bz (b : bool) : Z := if b then 1%Z else 0%Z.
Fixpoint zipz (f : Z -> Z -> Z) (a b : list Z) : list Z :=
  match a, b with x :: a', y :: b' => f x y :: zipz f a' b' | _, _ => [] end.
Definition zsum (l : list Z) : Z := fold_right Z.add 0%Z l.

Section Pauli.
  Variable K : CoefRing.
  Local Open Scope coef_scope.

  Definition pstring : Type := (list pauli * K)%type.

  (** [1j**n] for an integer n (exact). *)
  Definition ipow (n : Z) : K :=
    match (n mod 4)%Z with
    | 0%Z => 1
    | 1%Z => ci
    | 2%Z => - (1)
    | _ => - ci
    end.

  (** _pauli_string.py l.76-112 ([__mul__] by a PauliString).  Strings of different length (numpy
      raises or broadcasts there) are outside the model's theorems. *)
  Definition pauli_mul (x y : pstring) : pstring :=
    let l1 := lvec (fst x) in let r1 := rvec (fst x) in
    let l2 := lvec (fst y) in let r2 := rvec (fst y) in
    let l := zipb xorb l1 l2 in
    let r := zipb xorb r1 r2 in
    let L := zipz Z.add (map bz l1) (map bz l2) in
    let R := zipz Z.add (map bz r1) (map bz r2) in
    let e1 := zsum (zipz Z.sub (map bz (zipb andb r1 l2)) (map bz (zipb andb l1 r2))) in
    let e2 := zsum (zipz Z.sub (zipz Z.mul L R) (map bz (zipb andb l r))) in
    let phase := ipow e1 * ipow e2 in
    (construct l r, snd x * snd y * phase).

  (** _pauli_string.py l.80-81 ([__mul__] by an int or a float). *)
  Definition pauli_scale (x : pstring) (a : K) : pstring :=
    (construct (lvec (fst x)) (rvec (fst x)), snd x * a).

  (** _pauli_string.py l.114-120 ([__add__]); [None] is the [sys.exit] branch. *)
  Fixpoint pauli_list_eqb (a b : list pauli) : bool :=
    match a, b with
    | [], [] => true
    | x :: a', y :: b' => pauli_eqb x y && pauli_list_eqb a' b'
    | _, _ => false
    end.
  Definition pauli_add (x y : pstring) : option pstring :=
    if pauli_list_eqb (fst y) (fst x) then Some (fst x, snd x + snd y) else None.

  (** _pauli_string.py l.54-59 ([__eq__], [__ne__]). *)
  Definition pauli_eq (x y : pstring) : bool := pauli_list_eqb (fst x) (fst y).
  Definition pauli_ne (x y : pstring) : bool := pauli_eq x y && ceqb (snd x) (snd y).

  (** _pauli_string.py l.134-144 ([partial_trace]).  The loop runs over the positions from the last
      to the first, prepending nothing: it appends the kept letters and the result is reversed at
      the end.  [qb] is only used through membership, so the sort at l.135 is left out.
      [pt_loop pos s acc c]: [s] holds the letters still to be visited, last position first. *)
  Fixpoint pt_loop (qb : list nat) (rs : list pauli) (acc : list pauli) (c : K)
    : list pauli * K :=
    match rs with
    | [] => (acc, c)
    | p :: rs' =>
        let q := length rs' in
        if existsb (Nat.eqb q) qb then
          pt_loop qb rs' acc (if pauli_eqb p PI then c else c * 0)
        else pt_loop qb rs' (acc ++ [p]) c
    end.
  Definition pauli_partial_trace (x : pstring) (qb : list nat) : pstring :=
    let '(acc, c) := pt_loop qb (rev (fst x)) [] (snd x) in (rev acc, c).
End Pauli.

Arguments ipow {_}. Arguments pauli_mul {_}. Arguments pauli_scale {_}. Arguments pauli_add {_}.
Arguments pauli_eq {_}. Arguments pauli_ne {_}. Arguments pt_loop {_}.
Arguments pauli_partial_trace {_}.
