(** Model of hqca/core/primitives/_pauli_strings.py, of the gates appended by hqca/tomography/_tomography.py,
    of hqca/instructions/_instruct_pauli.py and of hqca/tools/_resources.py.

    A circuit is the list of the gate calls on [Q.qc] in order. *)
From Coq Require Import Bool List Arith ZArith.
From Verif Require Import Coeff MatSpec FockSpec PauliModel OperatorModel FermiModel TransformModel CircuitSpec.
Import ListNotations.
Local Open Scope coef_scope.

Section CircuitModel.
  Variable K : CoefRing.
  Notation gate := (gate K).
  Notation angle := (angle K).

  (** _pauli_strings.py l.26-54 ([pauliOp]). *)
  Definition pauli_op (loc : nat) (p : pauli) (inv : bool) : list gate :=
    match p with
    | PZ | PI => []
    | PX => [Gh loc]
    | PY => if inv then [Gh loc; Gs loc] else [Gsdg loc; Gh loc]
    end.

  (** Angle -2 v of a rotation, given v ([val*scaling], l.85, 90-94, 116). *)
  Definition scaled (v : angle) : angle :=
    (fst v * fst v - snd v * snd v, - ((1 + 1) * (fst v * snd v))).

  (** l.96-103: the lists [ind] and [terms], zipped. *)
  Fixpoint active (n : nat) (s : list pauli) : list (nat * pauli) :=
    match s with
    | [] => []
    | PI :: s' => active (S n) s'
    | p :: s' => (n, p) :: active (S n) s'
    end.
  (** l.113-114: the CNOTs between neighbours of [ind]. *)
  Fixpoint ladder_cx (ind : list nat) : list gate :=
    match ind with
    | a :: (b :: _) as t => Gcx a b :: ladder_cx t
    | _ => []
    end.

  (** l.76-122 ([pauli_gadget]). *)
  Definition pauli_gadget (v : angle) (s : list pauli) : list gate :=
    match s with
    | [p] =>
        match p with
        | PI => []
        | PX => [Grx (scaled v) 0]
        | PY => [Gry (scaled v) 0]
        | PZ => [Grz (scaled v) 0]
        end
    | _ =>
        match active 0 s with
        | [] => []
        | (q0, _) :: _ =>
            let a := active 0 s in
            let ind := map fst a in
            flat_map (fun e => pauli_op (fst e) (snd e) false) a
            ++ ladder_cx ind
            ++ [Grz (scaled v) (last ind q0)]
            ++ rev (ladder_cx ind)
            ++ flat_map (fun e => pauli_op (fst e) (snd e) true) a
        end
    end.

  (** _tomography.py l.192-196 (and processes/_simulate_iterative_unitary.py l.109-114): basis change of a
      measurement string.  [n0] is the position of the first letter. *)
  Fixpoint basis_gates (n0 : nat) (m : list pauli) : list gate :=
    match m with
    | [] => []
    | p :: m' => pauli_op n0 p false ++ basis_gates (S n0) m'
    end.

  (** _tomography.py l.774-782: undoing the basis change of the first circuit. *)
  Fixpoint undo_gates (n0 : nat) (m : list pauli) : list gate :=
    match m with
    | [] => []
    | p :: m' =>
        match p with
        | PX => [Gs n0; Gsx n0; Gs n0]
        | PY => [Gs n0; Gsx n0; Gz n0]
        | _ => []
        end ++ undo_gates (S n0) m'
    end.
  (** _tomography.py l.783-792: applying the basis change of another circuit. *)
  Fixpoint redo_gates (n0 : nat) (m : list pauli) : list gate :=
    match m with
    | [] => []
    | p :: m' =>
        match p with
        | PX => [Gs n0; Gsx n0; Gs n0]
        | PY => [Gsx n0; Gs n0]
        | _ => []
        end ++ redo_gates (S n0) m'
    end.

  (** _pauli_strings.py l.56-69 ([apply_pauli_string]), for a coefficient of modulus one (l.57-60 exits
      otherwise).  pi/2 and pi are given by their half-angle pairs. *)
  Variable rt : K.
  Definition half_pi : angle := (rt, rt).
  Definition full_pi : angle := (0, 1).
  Fixpoint apply_pauli (n0 : nat) (s : list pauli) : list gate :=
    match s with
    | [] => []
    | p :: s' =>
        match p with
        | PX => [Gx n0]
        | PY => [Grz half_pi n0; Gx n0; Grz half_pi n0]
        | PZ => [Grz full_pi n0]
        | PI => []
        end ++ apply_pauli (S n0) s'
    end.
End CircuitModel.
Arguments pauli_op {_}. Arguments scaled {_}. Arguments ladder_cx {_}. Arguments pauli_gadget {_}.
Arguments basis_gates {_}. Arguments undo_gates {_}. Arguments redo_gates {_}.
Arguments half_pi {_}. Arguments full_pi {_}. Arguments apply_pauli {_}.

(** * _instruct_pauli.py l.40-93 ([PauliSet._applyOp]) for items with [sym] false.

    [R] is the type of real numbers (Python floats) and [tiny x] is [abs(x)<1e-14].  An item is its
    string and the real and imaginary parts of its coefficient.  [depth] is left out: the division
    [c/depth] is applied to the value recorded here. *)
Section PauliSet.
  Variable R : Type.
  Variable tiny : R -> bool.
  (** The local variable [c] survives from one item to the next; [None]: not yet assigned, reading it
      raises UnboundLocalError (caught at l.90, [sys.exit]). *)
  Fixpoint pauli_set (c : option R) (items : list (list pauli * (R * R))) : option (list (R * list pauli)) :=
    match items with
    | [] => Some []
    | (s, (re, im)) :: items' =>
        let c' := if tiny im then Some re else if tiny re then Some im else c in
        match c' with
        | None => None
        | Some x =>
            match pauli_set c' items' with
            | None => None
            | Some gs => Some (if tiny x then gs else (x, s) :: gs)
            end
        end
    end.
End PauliSet.
Arguments pauli_set {_}.

(** * _resources.py l.7-29 ([count_cnot_resources], first component). *)
Definition weight (s : list pauli) : nat := length (filter (fun p => negb (pauli_eqb p PI)) s).
(** l.10-18: one Operator. *)
Definition cnot_operator (o : list (list pauli)) : Z :=
  fold_left (fun u s => if Nat.eqb (weight s) 0 then u else (u + 2 * (Z.of_nat (weight s) - 1))%Z) o 0%Z.
(** l.19-28: a list of Operators. *)
Definition cnot_list (l : list (list (list pauli))) : Z :=
  fold_left (fun u o => fold_left (fun u' s => (u' + 2 * (Z.of_nat (weight s) - 1))%Z) o u) l 0%Z.

(** * _tomography.py l.158-174 and l.186-187: the initial determinant, with [initial_transform] the
    Jordan-Wigner transform and no [initial_clifford]. *)
Section Initial.
  Variable K : CoefRing.
  Notation pop := (list (list pauli * K)).
  Definition initial_step (N : nat) (init : option pop) (item : nat) : option pop :=
    match init, fermi_new true 1 [(Cre, item)] N, fermi_new true (- (1)) [(Ann, item)] N with
    | Some o, Some a, Some b =>
        Some (pop_mul o (jw_operator (op_add_string fstr_eqb (op_add_string fstr_eqb [] a) b)))
    | _, _, _ => None
    end.
  Definition initial_operator (N : nat) (occ : list nat) : option pop :=
    fold_left (initial_step N) occ (Some (pop_add_string [] (repeat PI N, 1))).
  (** l.186-187. *)
  Definition initial_circuit (rt : K) (o : pop) : list (gate K) := flat_map (fun e => apply_pauli rt 0 (fst e)) o.
End Initial.
Arguments initial_operator {_}. Arguments initial_circuit {_}.
