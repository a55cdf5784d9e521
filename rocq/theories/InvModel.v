(** Model of the product of fermionic Operators (hqca/operators/_operator.py l.103-121 with FermiStrings) and of
    hqca/transforms/_inverse_jordan_wigner.py, value level. *)
From Coq Require Import Bool List Arith.
From Verif Require Import Coeff MatSpec FockSpec FermiModel OperatorModel.
Import ListNotations.
Local Open Scope coef_scope.

Section Inv.
  Variable K : CoefRing.
  Notation fop_ := (list (fstr * K)).

  Fixpoint all_some {A} (l : list (option A)) : option (list A) :=
    match l with
    | [] => Some []
    | None :: _ => None
    | Some x :: l' => match all_some l' with None => None | Some r => Some (x :: r) end
    end.
  (** _operator.py l.109-112: the products in loop order; [None]: a product raises. *)
  Definition f_products (o a : fop_) : option fop_ :=
    all_some (flat_map (fun x => map (fun s => fermi_mul true s x) o) a).
  (** l.109-121. *)
  Definition f_op_mul (o a : fop_) : option fop_ :=
    match f_products o a with
    | None => None
    | Some l => Some (op_clean (fold_left (op_add_string fstr_eqb) l []))
    end.

  Definition f_two (N q : nat) (a b : fop) (x y : K) : fop_ :=
    op_add_string fstr_eqb (op_add_string fstr_eqb [] (single N q a, x)) (single N q b, y).
  (** _inverse_jordan_wigner.py l.28-36: one factor h - p is multiplied from the left for every position of [qjs];
      the position is [Nq-qj-1-1].  With natural numbers the case Nq-qj-1-1 < 0 does not occur (qj < q < Nq, and
      q = 0 has no factors). *)
  Fixpoint chain (N : nat) (qjs : list nat) (t : fop_) : option fop_ :=
    match qjs with
    | [] => Some t
    | qj :: qjs' =>
        match f_op_mul (f_two N (N - qj - 1 - 1) Hol Par 1 (- (1))) t with
        | None => None
        | Some t' => chain N qjs' t'
        end
    end.
  (** l.17-43: the factor of one letter; [None] (outer): a product raises. *)
  Definition letter (N q : nat) (o : pauli) : option (option fop_) :=
    match o with
    | PI => Some None
    | PX => option_map Some (chain N (seq 0 q) (f_two N q Cre Ann 1 1))
    | PY => option_map Some (chain N (seq 0 q) (f_two N q Cre Ann ci (- ci)))
    | PZ => Some (Some (f_two N q Hol Par 1 (- (1))))
    end.
  (** l.14-45: [rs] are the remaining letters of [op.s[::-1]], the first one at position [length rs - 1]. *)
  Fixpoint inverse_loop (N : nat) (rs : list pauli) (new : fop_) : option fop_ :=
    match rs with
    | [] => Some new
    | o :: rs' =>
        match letter N (length rs') o with
        | None => None
        | Some None => inverse_loop N rs' new
        | Some (Some t) => match f_op_mul t new with None => None | Some new' => inverse_loop N rs' new' end
        end
    end.
  (** l.5-46. *)
  Definition inverse_string (x : list pauli * K) : option fop_ :=
    let N := length (fst x) in
    inverse_loop N (rev (fst x)) (op_add_string fstr_eqb [] (repeat None N, snd x)).
  (** l.48-57. *)
  Fixpoint inverse_ops (l : list (list pauli * K)) (new : fop_) : option fop_ :=
    match l with
    | [] => Some new
    | x :: l' => match inverse_string x with None => None | Some r => inverse_ops l' (op_add fstr_eqb new r) end
    end.
  Definition inverse_operator (l : list (list pauli * K)) : option fop_ := inverse_ops l [].
End Inv.
Arguments f_products {_}. Arguments f_op_mul {_}. Arguments f_two {_}. Arguments chain {_}. Arguments letter {_}.
Arguments inverse_loop {_}. Arguments inverse_string {_}. Arguments inverse_ops {_}. Arguments inverse_operator {_}.
