(** Model of the rest of hqca/operators/_operator.py: norm, null, multiplication by a number from the left, truncate and
    clifford.  [None]: an exception. *)
From Coq Require Import Bool List Arith.
From Verif Require Import Coeff MatSpec PauliModel OperatorModel.
Import ListNotations.
Local Open Scope coef_scope.

Section OpMore.
  Variable K : CoefRing.
  Variable key : Type.
  Notation op := (opv K key).
  (** l.33-40: the number of which [norm] returns the square root. *)
  Definition op_norm2 (o : op) : K := fold_left (fun n e => n + snd e * cconj (snd e)) o 0.
  (** l.123-127 ([null]); [tiny x] is [abs(x)<1e-10]. *)
  Definition op_null (tiny : K -> bool) (o : op) : bool := forallb (fun e => tiny (snd e)) o.
  (** Python values that are used as keys: letters, a string object (of which only the letters matter here), an integer. *)
  Variable keqb : key -> key -> bool.
  Inductive pyval := VStr (k : key) | VObj (k : key) | VInt (n : nat).
  (** [==]: [__eq__] of a string object reads the attribute [s] of the other operand, which letters and integers do not
      have ([None], quantum_strings/_pauli_string.py l.54-56). *)
  Definition pyeq (a b : pyval) : option bool :=
    match a, b with
    | VStr x, VStr y => Some (keqb x y)
    | VObj x, VObj y => Some (keqb x y)
    | VInt m, VInt n => Some (Nat.eqb m n)
    | VObj _, _ | _, VObj _ => None
    | VStr _, VInt _ | VInt _, VStr _ => Some false
    end.
  (** Equal hashes; the hash of a PauliString is that of its letters (_pauli_string.py l.51-52).  Accidental collisions are left
      out: they lead to a comparison, of which the outcome is [Some false] or an exception. *)
  Definition pyhash_eqb (a b : pyval) : bool :=
    match a, b with
    | VInt m, VInt n => Nat.eqb m n
    | VInt _, _ | _, VInt _ => false
    | (VStr x | VObj x), (VStr y | VObj y) => keqb x y
    end.
  (** [self.op[v]]: the entry of which hash and value agree; [KeyError] if there is none.  [hashable] is false for strings
      that define [__eq__] only (FermiString, QubitString). *)
  Fixpoint dict_get (o : op) (v : pyval) : option K :=
    match o with
    | [] => None
    | (k, c) :: o' => if pyhash_eqb (VStr k) v then match pyeq (VStr k) v with None => None | Some true => Some c | Some false => dict_get o' v end
                      else dict_get o' v
    end.
  Definition op_getv (hashable : bool) (o : op) (v : pyval) : option K :=
    match v with VObj _ => if hashable then dict_get o v else None | _ => dict_get o v end.
  (** l.93-100 ([__rmul__]) for a number: [self.op[o]] is asked for the string object [o] and not for its letters. *)
  Fixpoint rmul_loop (hashable : bool) (o l new : op) (x : K) : option op :=
    match l with
    | [] => Some new
    | e :: l' => match op_getv hashable o (VObj (fst e)) with
                 | None => None
                 | Some c => rmul_loop hashable o l' (new ++ [(fst e, c * x)]) x
                 end
    end.
  Definition op_rmul (hashable : bool) (x : K) (o : op) : option op := rmul_loop hashable o o [] x.
  (** l.189-192 ([truncate]): the keys tried are the integers below [len(self)], last first. *)
  Fixpoint truncate_loop (below : K -> bool) (n : nat) (o : op) : option op :=
    match n with
    | O => Some o
    | S i => match op_getv true o (VInt i) with None => None | Some _ => truncate_loop below i o end
    end.
  Definition op_truncate (below : K -> bool) (o : op) : option op := truncate_loop below (length o) o.
End OpMore.
Arguments op_norm2 {_ _}. Arguments op_null {_ _}. Arguments op_rmul {_ _}. Arguments op_truncate {_ _}.
Arguments VStr {_}. Arguments VObj {_}. Arguments VInt {_}. Arguments rmul_loop {_ _}. Arguments truncate_loop {_ _}. Arguments op_getv {_ _}. Arguments dict_get {_ _}.

Section Clifford.
  Variable K : CoefRing.
  Notation pop := (opv K (list pauli)).
  Inductive cliff_gate := GH | GS | GV.
  (** l.207-226: the table; the sign is the second component. *)
  Definition cliff (u : cliff_gate) (p : pauli) : pauli * K :=
    match u, p with
    | _, PI => (PI, 1)
    | GH, PX => (PZ, 1) | GH, PY => (PY, - (1)) | GH, PZ => (PX, 1)
    | GS, PX => (PY, - (1)) | GS, PY => (PX, - (1)) | GS, PZ => (PZ, 1)
    | GV, PX => (PX, - (1)) | GV, PY => (PZ, - (1)) | GV, PZ => (PY, - (1))
    end.
  (** l.232-236 *)
  Fixpoint cliff_string (s : list pauli) (U : list cliff_gate) (c : K) : list pauli * K :=
    match s, U with
    | p :: s', u :: U' => let r := cliff_string s' U' (c * snd (cliff u p)) in (fst (cliff u p) :: fst r, snd r)
    | _, _ => ([], c)
    end.
  (** l.21-31: the attributes of an Operator are [op] only; [self.sym] raises. *)
  Definition operator_sym : option bool := None.
  (** l.227-240 *)
  Fixpoint clifford_loop (U : list cliff_gate) (l new : pop) : option pop :=
    match l with
    | [] => Some new
    | (s, c) :: l' => let r := cliff_string s U c in
                      match operator_sym with None => None | Some _ => clifford_loop U l' (op_add_string pauli_list_eqb new r) end
    end.
  Definition op_clifford (U : list cliff_gate) (o : pop) : option pop := clifford_loop U o [].
End Clifford.
Arguments cliff {_}. Arguments cliff_string {_}. Arguments clifford_loop {_}. Arguments op_clifford {_}.
