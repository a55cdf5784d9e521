(** Model of hqca/transforms/_functions.py (qubit tapering), value level. *)
From Coq Require Import Bool List Arith.
From Verif Require Import Coeff MatSpec PauliModel OperatorModel TransformModel.
Import ListNotations.
Local Open Scope coef_scope.

Section Taper.
  Variable K : CoefRing.
  Notation pop := (list (list pauli * K)).

  (** l.28-34: the loop over (qubit, letter, eigenvalue) for one string; [None]: [s[q]] out of range.
      [zip] stops at the shortest list, so the model takes the zipped triples. *)
  Fixpoint trim_string (null : K) (ts : list (nat * pauli * K)) (s : list pauli) (c : K) : option (list pauli * K) :=
    match ts with
    | [] => Some (s, c)
    | (q, p, e) :: ts' =>
        match nth_error s q with
        | None => None
        | Some x => trim_string null ts' (firstn q s ++ skipn (S q) s)
                      (if pauli_eqb x p then c * e else if pauli_eqb x PI then c else c * null)
        end
    end.
  (** l.22: [qubits==sorted(qubits)[::-1]]. *)
  Fixpoint descending (l : list nat) : bool :=
    match l with
    | a :: (b :: _) as l' => (b <=? a)%nat && descending l'
    | _ => true
    end.
  Fixpoint trim_loop (null : K) (ts : list (nat * pauli * K)) (ops new : pop) : option pop :=
    match ops with
    | [] => Some new
    | (s, c) :: ops' =>
        match trim_string null ts s c with
        | None => None
        | Some sc => trim_loop null ts ops' (op_add_string pauli_list_eqb new sc)
        end
    end.
  (** l.12-36; [None] is also the [sys.exit]. *)
  Definition trim_operator (ops : pop) (ts : list (nat * pauli * K)) (null : K) : option pop :=
    if descending (map (fun t => fst (fst t)) ts) then trim_loop null ts ops [] else None.
  (** l.38-44. *)
  Definition change_basis (op U Ut : pop) : pop := pop_mul (pop_mul U op) Ut.
  (** l.46-67; [T] is [fermi(ops,initial=initial)]. *)
  Definition modify (T U Ut : pop) (ts : list (nat * pauli * K)) (initial : bool) : option pop :=
    trim_operator (change_basis T U Ut) ts (if initial then 1 else 0).

  (** l.84-90: the operator (S + X_q)/sqrt 2; [rt] is 1/sqrt 2. *)
  Definition taper_unitary (rt : K) (sym : list pauli) (q : nat) : pop :=
    let x := repeat PI (length sym) in
    op_of_list pauli_list_eqb [(sym, rt); (firstn q x ++ PX :: skipn (q + 1) x, rt)].
  (** l.77-101: the list of (symmetry, qubit, eigenvalue); [base] is the transform with its [initial] flag. *)
  Definition get_transform_from_symmetries {X : Type} (rt : K) (base : bool -> X -> option pop) (syms : list (list pauli * nat * K)) : bool -> X -> option pop :=
    fold_left (fun T t => let '(sym, q, e) := t in
       fun initial x => match T initial x with
                        | None => None
                        | Some T1 => modify T1 (taper_unitary rt sym q) (taper_unitary rt sym q) [(q, PX, e)] initial
                        end) syms base.
  (** l.103-111. *)
  Definition parity_free {X : Type} (rt : K) (Na Nb : nat) (paritya parityb : K) (base : bool -> X -> option pop) : bool -> X -> option pop :=
    get_transform_from_symmetries rt base
      [(repeat PI Na ++ repeat PZ Nb, (Na + Nb - 1)%nat, parityb); (repeat PZ Na ++ repeat PI (Nb - 1), (Na - 1)%nat, paritya)].
End Taper.
Arguments trim_string {_}. Arguments trim_loop {_}. Arguments trim_operator {_}. Arguments change_basis {_}. Arguments modify {_}.
Arguments taper_unitary {_}. Arguments get_transform_from_symmetries {_ _}. Arguments parity_free {_ _}.
