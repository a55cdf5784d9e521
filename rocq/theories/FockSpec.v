(** Specification: the textbook action of fermionic and of qubit operators on occupation lists.
    Nothing here comes from the code. *)
From Coq Require Import Bool List.
From Verif Require Import Coeff MatSpec.
Import ListNotations.

(** Creation, annihilation, particle (a+ a) and hole (a a+) operator. *)
Inductive fop := Cre | Ann | Par | Hol.

Definition ladder (o : fop) : bool := match o with Cre | Ann => true | _ => false end.
Definition fadj (o : fop) : fop := match o with Cre => Ann | Ann => Cre | x => x end.

(** Parity of the number of occupied modes. *)
Definition parity (l : bits) : bool := fold_right xorb false l.

Fixpoint upd {A} (j : nat) (b : A) (l : list A) : list A :=
  match l, j with
  | [], _ => []
  | _ :: l', O => b :: l'
  | x :: l', S j' => x :: upd j' b l'
  end.

(** Local occupation rule: the new occupation, if the operator does not annihilate the state. *)
Definition local (o : fop) (b : bool) : option bool :=
  match o, b with
  | Cre, false => Some true
  | Ann, true => Some false
  | Par, true => Some true
  | Hol, false => Some false
  | _, _ => None
  end.

(** Operator [o] on mode [j] applied to the basis state [n]: [None] is the zero vector,
    [Some (s, m)] the state m with sign (-1)^s; ladder operators carry the parity of the modes
    before j. *)
Definition fock1 (o : fop) (j : nat) (n : bits) : option (bool * bits) :=
  match nth_error n j with
  | None => None
  | Some b =>
      match local o b with
      | None => None
      | Some b' => Some (ladder o && parity (firstn j n), upd j b' n)
      end
  end.

(** The product of a list of operators in the order written (rightmost acts first). *)
Fixpoint fock (l : list (fop * nat)) (n : bits) : option (bool * bits) :=
  match l with
  | [] => Some (false, n)
  | (o, j) :: l' =>
      match fock l' n with
      | None => None
      | Some (s, m) =>
          match fock1 o j m with
          | None => None
          | Some (s', m') => Some (xorb s s', m')
          end
      end
  end.

(** The same without fermionic signs: commuting local operators on qubits. *)
Definition qubit1 (o : fop) (j : nat) (n : bits) : option bits :=
  match nth_error n j with
  | None => None
  | Some b => match local o b with None => None | Some b' => Some (upd j b' n) end
  end.
Fixpoint qubits (l : list (fop * nat)) (n : bits) : option bits :=
  match l with
  | [] => Some n
  | (o, j) :: l' => match qubits l' n with None => None | Some m => qubit1 o j m end
  end.

(** A letter string: [None] is the identity letter.  It denotes the product of its letters from the
    first mode to the last. *)
Definition fstr := list (option fop).
Fixpoint flat (i : nat) (s : fstr) : list (fop * nat) :=
  match s with
  | [] => []
  | None :: s' => flat (S i) s'
  | Some o :: s' => (o, i) :: flat (S i) s'
  end.

(** The string with one operator. *)
Definition single (N i : nat) (o : fop) : fstr := repeat None i ++ Some o :: repeat None (N - i - 1).

Section FockMat.
  Variable K : CoefRing.
  Local Open Scope coef_scope.
  Definition sgn (s : bool) : K := if s then - (1) else 1.
  (** Matrix of a partial signed map on basis states. *)
  Definition pmap_mat (f : bits -> option (bool * bits)) : mat K := fun r c =>
    match f c with
    | Some (s, m) => if bits_eqb m r then sgn s else 0
    | None => 0
    end.
  Definition fock_mat (l : list (fop * nat)) : mat K := pmap_mat (fock l).
  Definition qubits_mat (l : list (fop * nat)) : mat K :=
    pmap_mat (fun n => match qubits l n with Some m => Some (false, m) | None => None end).
  (** 2x2 matrix of one operator. *)
  Definition local2 (o : fop) : mat2 K := fun r c =>
    match local o c with Some b => if Bool.eqb r b then 1 else 0 | None => 0 end.
  Definition fstr_mat (s : fstr) : mat K := fock_mat (flat 0 s).
  Definition qstr_mat (s : fstr) : mat K := qubits_mat (flat 0 s).
End FockMat.
Arguments sgn {_}. Arguments local2 {_}. Arguments pmap_mat {_}. Arguments fock_mat {_}. Arguments qubits_mat {_}.
Arguments fstr_mat {_}. Arguments qstr_mat {_}.
