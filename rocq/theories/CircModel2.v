(** Model of the conversions between operators and arrays, hqca/tools/_operator_tools.py l.10-116. *)
From Coq Require Import Bool List Arith ZArith.
From Verif Require Import Coeff MatSpec CircuitSpec FockSpec PauliModel OperatorModel FermiModel TransformModel CircModel.
Import ListNotations.
Local Open Scope coef_scope.

Section Tools.
  Variable K : CoefRing.
  Notation pop := (opv K (list pauli)).
  Notation qop := (opv K fstr).

  (** l.20-28: the letter for a digit of the row and a digit of the column. *)
  Definition entry_letter (a b : bool) : fop :=
    match a, b with
    | false, false => Hol
    | false, true => Ann
    | true, false => Cre
    | true, true => Par
    end.
  (** l.29-30. *)
  Fixpoint entry_letters (e1 e2 : bits) : fstr :=
    match e1, e2 with
    | a :: e1', b :: e2' => Some (entry_letter a b) :: entry_letters e1' e2'
    | _, _ => []
    end.
  (** [big x]: abs(x)>1e-8 (l.17; a nonzero entry, l.15). *)
  Variable big : K -> bool.
  (** l.10-35 ([matrix_to_qubit]) and l.37-61: np.nonzero lists the positions row by row; op += string. *)
  Definition matrix_to_qubit (n : nat) (M : mat K) : qop :=
    fold_left (fun op e => op_add_string fstr_eqb op e)
      (flat_map (fun i => flat_map (fun j => if big (M i j) then [(entry_letters i j, M i j)] else []) (all_bits n))
         (all_bits n)) [].
  (** transforms/_qubit.py, the branch for an Operator, on strings of i,+,-,p,h. *)
  Definition letter_q (o : option fop) : qlet := match o with None => QI | Some o => QO o end.
  Definition qubit_transform (o : qop) : pop :=
    op_transform pauli_list_eqb (fun e => qubit_string (map letter_q (fst e)) (snd e)) o.
  (** l.37-62 ([matrix_to_pauli]). *)
  Definition matrix_to_pauli (n : nat) (M : mat K) : pop := qubit_transform (matrix_to_qubit n M).

  (** l.71-77 and l.85-91: the gates of a string; 'I' applies none. *)
  Definition letter_gate (q : nat) (p : pauli) : list (cgate K) :=
    match p with PI => [] | PX => c_x q | PY => c_y q | PZ => c_z q end.
  Fixpoint string_gates (q : nat) (s : list pauli) : list (cgate K) :=
    match s with [] => [] | p :: s' => letter_gate q p ++ string_gates (S q) s' end.
  (** l.66-78, a PauliString. *)
  Definition string_to_matrix (s : list pauli) (c : K) : option (mat K) :=
    option_map (fun m => fun r k => mzero r k + m r k * c)
      (apply_all (length s) (string_gates 0 s) (Some circ_init)).
  (** l.82-92: one string of the loop; arrays of different sizes cannot be added. *)
  Definition add_term (n : nat) (acc : option (mat K)) (e : list pauli * K) : option (mat K) :=
    match acc with
    | None => None
    | Some new =>
        if (length (fst e) =? n)%nat then
          option_map (fun m => fun r k => new r k + m r k * snd e)
            (apply_all n (string_gates 0 (fst e)) (Some circ_init))
        else None
    end.
  (** l.80-93, an Operator of PauliStrings: next(iter(op)) raises StopIteration on an empty one. *)
  Definition operator_to_matrix (o : pop) : option (nat * mat K) :=
    match o with
    | [] => None
    | e0 :: _ =>
        let n := length (fst e0) in
        option_map (fun m => (n, m)) (fold_left (add_term n) o (Some mzero))
    end.

  (** l.110-116 ([_partial_trace_operator]): the sum of the traced strings, cleaned. *)
  Definition pt_operator (qb : list nat) (o : pop) : pop :=
    op_clean (fold_left (fun new e => op_add_string pauli_list_eqb new (pauli_partial_trace e qb)) o []).
End Tools.
Arguments matrix_to_qubit {_}. Arguments matrix_to_pauli {_}. Arguments qubit_transform {_}.
Arguments string_to_matrix {_}. Arguments operator_to_matrix {_}. Arguments pt_operator {_}.
Arguments add_term {_}. Arguments letter_gate {_}. Arguments string_gates {_}.
