(** Model of one step of hqca/acse/acse.py with method 'euler' on a circuit backend: the truncation of the residual
    operator (acse.py [_get_A], l.556-571, for the settings without splitting), acse/_euler_acse.py ([_euler_step]) and
    the circuit of an ACSE ansatz (acse.py l.304-316 [_generate_circuit] with _ansatz_S.py l.52-53 [transform] and
    instructions/_instruct_pauli.py).  Coefficients are complex numbers without rounding.  [copy(acse.A)] in _euler_acse.py is
    shallow, so the step also scales the strings of [acse.A] itself; only the values in the step are modelled.  Printing
    and the norm are omitted. *)
From Coq Require Import Bool List Arith ZArith Reals.
From Verif Require Import Coeff ComplexR MatSpec FockSpec FermiModel OperatorModel CircuitSpec CircuitModel TransformModel StoreModel AcseModel ConsModel.
Import ListNotations.
Local Open Scope R_scope.

Notation cfop := (list (fstr * Cx)).
(** [abs(c)]. *)
Definition cabs (c : Cx) : R := sqrt (fst c * fst c + snd c * snd c).
(** acse.py l.560-565: [max_val], the last coefficient of largest magnitude. *)
Definition max_coeff (o : cfop) : Cx :=
  fold_left (fun m e => if Rle_dec (cabs m) (cabs (snd e)) then snd e else m) o c0.
(** l.566-568: the strings with [abs(op.c) >= abs(S_thresh_rel*max_val)], added to a new operator in order. *)
Definition truncate_rel (rel : R) (o : cfop) : cfop :=
  fold_left (op_add_string fstr_eqb)
    (filter (fun e => if Rle_dec (cabs (cmul ((rel, 0) : Cx) (max_coeff o))) (cabs (snd e)) then true else false) o) [].
(** _euler_acse.py l.14-16: [s.c *= -1*epsilon] for every string. *)
Definition euler_operator (eps : R) (o : cfop) : cfop := map (fun e => (fst e, cmul (snd e) ((- (1) * eps, 0) : Cx))) o.
(** _ansatz_S.py l.52-53, with the Jordan-Wigner map. *)
Definition ansatz_strings (layers : list cfop) : list (list pauli * Cx) := flat_map jw_operator layers.
(** acse.py l.304-316: the initial determinant, then one gadget for every string of every layer. *)
Definition acse_circuit (N : nat) (occ : list nat) (layers : list cfop) : option (list (gate Cx)) :=
  match initial_operator N occ, ansatz_gates 1 (ansatz_strings layers) with
  | Some o, Some gs => Some (initial_circuit Crt o ++ gs)
  | _, _ => None
  end.
(** _euler_acse.py l.14-19: the new ansatz and its circuit. *)
Definition euler_step (closed : Z) (N : nat) (occ : list nat) (eps : R) (layers : list cfop) (o : cfop) : list cfop * option (list (gate Cx)) :=
  let new := ans_add fstr_eqb closed layers (euler_operator eps o) in (new, acse_circuit N occ new).
