(** Model of hqca/transforms/_para_fermion.py: rewriting qubit strings as fermionic operators.  The loop with the
    factors h - p (l.26-35) is that of _inverse_jordan_wigner.py and shares its model [chain] (InvModel).  Letters
    other than +, -, p and h are skipped (l.18-19, 41-42). *)
From Coq Require Import Bool List Arith.
From Verif Require Import Coeff MatSpec FockSpec FermiModel OperatorModel InvModel.
Import ListNotations.
Local Open Scope coef_scope.

Section Para.
  Variable K : CoefRing.
  Notation fop_ := (list (fstr * K)).

  (** _para_fermion.py l.20-40: the factor of one letter. *)
  Definition para_letter (N q : nat) (o : fop) : option fop_ :=
    let t := op_add_string fstr_eqb [] (single N q o, 1) in
    if ladder o then chain N (seq 0 q) t else Some t.
  (** l.15-43: [rs] are the remaining letters of [op.s[::-1]], the first one at position [length rs - 1]. *)
  Fixpoint para_loop (N : nat) (rs : list (option fop)) (new : fop_) : option fop_ :=
    match rs with
    | [] => Some new
    | None :: rs' => para_loop N rs' new
    | Some o :: rs' =>
        match para_letter N (length rs') o with
        | None => None
        | Some t => match f_op_mul t new with None => None | Some new' => para_loop N rs' new' end
        end
    end.
  (** l.6-44. *)
  Definition para_string (x : fstr * K) : option fop_ :=
    let N := length (fst x) in
    para_loop N (rev (fst x)) (op_add_string fstr_eqb [] (repeat None N, snd x)).
  (** l.46-55. *)
  Fixpoint para_ops (l : fop_) (new : fop_) : option fop_ :=
    match l with
    | [] => Some new
    | x :: l' => match para_string x with None => None | Some r => para_ops l' (op_add fstr_eqb new r) end
    end.
  Definition para_operator (l : fop_) : option fop_ := para_ops l [].
End Para.
Arguments para_letter {_}. Arguments para_loop {_}. Arguments para_string {_}. Arguments para_ops {_}.
Arguments para_operator {_}.
