(** Object-level model of hqca/operators/_operator.py: string objects live on a heap and an
    Operator's dictionary maps letter strings to addresses of string objects.

    [key] is the type of letter strings.  A string object is (letters, coefficient); its letters
    never change after construction.  [smul] is the product of two strings (a fresh object). *)
From Coq Require Import Bool List Arith.
From Verif Require Import Coeff OperatorModel.
Import ListNotations.

Section Heap.
  Variable K : CoefRing.
  Variable key : Type.
  Variable keqb : key -> key -> bool.
  Variable smul : key * K -> key * K -> key * K.
  Local Open Scope coef_scope.

  Local Notation addr := nat.
  Local Notation heap := (list (key * K)).
  Local Notation dict := (list (key * nat)).

  Record state := MkState { hp : heap; ops : list dict }.

  (** Dictionary lookup and assignment of OrderedDict. *)
  Fixpoint dget (k : key) (d : dict) : option addr :=
    match d with
    | [] => None
    | (k', a) :: d' => if keqb k k' then Some a else dget k d'
    end.
  Fixpoint dset (k : key) (a : addr) (d : dict) : dict :=
    match d with
    | [] => [(k, a)]
    | (k', b) :: d' => if keqb k k' then (k', a) :: d' else (k', b) :: dset k a d'
    end.

  (** [x.c *= -1] on the object at [a]. *)
  Fixpoint hneg (a : addr) (h : heap) : heap :=
    match h, a with
    | [], _ => []
    | (k, c) :: h', O => (k, c * - (1)) :: h'
    | x :: h', S a' => x :: hneg a' h'
    end.

  (** _operator.py l.29-31 ([__init__] with a list of strings; a single string, l.27-28, is the
      one-element list).  [None]: dangling address (cannot happen in Python). *)
  Fixpoint h_of_list (h : heap) (l : list addr) (d : dict) : option dict :=
    match l with
    | [] => Some d
    | a :: l' => match nth_error h a with
                 | Some (k, _) => h_of_list h l' (dset k a d)
                 | None => None
                 end
    end.

  (** _operator.py l.71-75: [self.op[A.s]+=A] calls the string's [__add__], which copies the stored
      string, adds the coefficient and stores the copy; otherwise the object A itself is stored. *)
  Definition h_add_str (hd : heap * dict) (a : addr) : option (heap * dict) :=
    let '(h, d) := hd in
    match nth_error h a with
    | None => None
    | Some (k, c) =>
        match dget k d with
        | Some b =>
            match nth_error h b with
            | Some (kb, cb) => Some (h ++ [(kb, cb + c)], dset k (length h) d)
            | None => None
            end
        | None => Some (h, dset k a d)
        end
    end.

  Fixpoint h_add_strs (hd : heap * dict) (l : list addr) : option (heap * dict) :=
    match l with
    | [] => Some hd
    | a :: l' => match h_add_str hd a with Some hd' => h_add_strs hd' l' | None => None end
    end.

  (** _operator.py l.157-167 ([clean], numeric branch). *)
  Definition h_clean (h : heap) (d : dict) : dict :=
    filter (fun e => match nth_error h (snd e) with Some (_, c) => negb (small c) | None => true end) d.

  (** _operator.py l.76-82.  The loop reads the dictionary of A; when A is self every key is already
      present and each key is rewritten in its own iteration, so the addresses read are those at
      loop entry. *)
  Definition h_add_op (h : heap) (d : dict) (dA : dict) : option (heap * dict) :=
    match h_add_strs (h, d) (map snd dA) with
    | Some (h', d') => Some (h', h_clean h' d')
    | None => None
    end.

  (** _operator.py l.153-154: negate every string of A in place. *)
  Definition h_neg_op (h : heap) (dA : dict) : heap := fold_left (fun h' e => hneg (snd e) h') dA h.

  (** _operator.py l.109-112: fresh product strings, in loop order. *)
  Definition deref (h : heap) (d : dict) : opv K key :=
    flat_map (fun e => match nth_error h (snd e) with Some (_, c) => [(fst e, c)] | None => [] end) d.
  Definition h_products (h : heap) (d dA : dict) : list (key * K) :=
    flat_map (fun x => map (fun s => smul s x) (deref h d)) (deref h dA).
  (** [new += s*a] for a list of fresh strings: allocate, then add. *)
  Fixpoint h_add_fresh (hd : heap * dict) (l : list (key * K)) : option (heap * dict) :=
    match l with
    | [] => Some hd
    | x :: l' =>
        match h_add_str (fst hd ++ [x], snd hd) (length (fst hd)) with
        | Some hd' => h_add_fresh hd' l'
        | None => None
        end
    end.
  Definition h_mul (h : heap) (d dA : dict) : option (heap * dict) :=
    match h_add_fresh (h, []) (h_products h d dA) with
    | Some (h', d') => Some (h', h_clean h' d')
    | None => None
    end.

  (** The calls a user program can make.  Operators and strings are named by creation order. *)
  Inductive cmd :=
  | NewString (k : key) (c : K)        (* PauliString(...), FermiString(...) *)
  | NewOp (l : list addr)              (* Operator([...]) *)
  | AddStr (i : nat) (a : addr)        (* op_i + string *)
  | AddOp (i j : nat)                  (* op_i + op_j *)
  | SubStr (i : nat) (a : addr)        (* op_i - string, l.149-151 *)
  | SubOp (i j : nat)                  (* op_i - op_j, l.152-155 *)
  | MulStr (i : nat) (a : addr)        (* op_i * string: new operator, l.103-108 *)
  | MulOp (i j : nat)                  (* op_i * op_j: new operator, l.109-121 *)
  | Clean (i : nat)                    (* op_i.clean(), l.157-167 *)
  | Remove (i : nat) (k : key).        (* op_i.remove(k), l.169-173 *)

  Fixpoint set_op (i : nat) (d : dict) (l : list dict) : list dict :=
    match l, i with
    | [], _ => []
    | _ :: l', O => d :: l'
    | x :: l', S i' => x :: set_op i' d l'
    end.

  (** One call; [None] when a name does not exist. *)
  Definition step (c : cmd) (st : state) : option state :=
    let h := hp st in
    match c with
    | NewString k x => Some (MkState (h ++ [(k, x)]) (ops st))
    | NewOp l => match h_of_list h l [] with
                 | Some d => Some (MkState h (ops st ++ [d]))
                 | None => None
                 end
    | AddStr i a =>
        match nth_error (ops st) i with
        | Some d => match h_add_str (h, d) a with
                    | Some (h', d') => Some (MkState h' (set_op i d' (ops st)))
                    | None => None
                    end
        | None => None
        end
    | AddOp i j =>
        match nth_error (ops st) i, nth_error (ops st) j with
        | Some d, Some dA => match h_add_op h d dA with
                             | Some (h', d') => Some (MkState h' (set_op i d' (ops st)))
                             | None => None
                             end
        | _, _ => None
        end
    | SubStr i a =>
        match nth_error (ops st) i with
        | Some d => match h_add_str (hneg a h, d) a with
                    | Some (h', d') => Some (MkState h' (set_op i d' (ops st)))
                    | None => None
                    end
        | None => None
        end
    | SubOp i j =>
        match nth_error (ops st) i, nth_error (ops st) j with
        | Some d, Some dA => match h_add_op (h_neg_op h dA) d dA with
                             | Some (h', d') => Some (MkState h' (set_op i d' (ops st)))
                             | None => None
                             end
        | _, _ => None
        end
    | MulStr i a =>
        match nth_error (ops st) i, nth_error h a with
        | Some d, Some (k, _) => match h_mul h d [(k, a)] with
                                 | Some (h', d') => Some (MkState h' (ops st ++ [d']))
                                 | None => None
                                 end
        | _, _ => None
        end
    | MulOp i j =>
        match nth_error (ops st) i, nth_error (ops st) j with
        | Some d, Some dA => match h_mul h d dA with
                             | Some (h', d') => Some (MkState h' (ops st ++ [d']))
                             | None => None
                             end
        | _, _ => None
        end
    | Clean i =>
        match nth_error (ops st) i with
        | Some d => Some (MkState h (set_op i (h_clean h d) (ops st)))
        | None => None
        end
    | Remove i k =>
        match nth_error (ops st) i with
        | Some d => Some (MkState h (set_op i (filter (fun e => negb (keqb k (fst e))) d) (ops st)))
        | None => None
        end
    end.

  (** A program: a finite history of calls from the empty heap. *)
  Fixpoint run (cs : list cmd) (st : state) : option state :=
    match cs with
    | [] => Some st
    | c :: cs' => match step c st with Some st' => run cs' st' | None => None end
    end.
  Definition init : state := MkState [] [].

  (** _operator.py l.194-196: [self*A - A*self] on operators i and j; returns the result's name. *)
  Definition h_commutator (i j : nat) (st : state) : option (nat * state) :=
    let p := length (ops st) in
    match run [MulOp i j; MulOp j i; SubOp p (S p)] st with
    | Some st' => Some (p, st')
    | None => None
    end.
End Heap.

Arguments MkState {_ _}. Arguments hp {_ _}. Arguments ops {_ _}.
Arguments NewString {_ _}. Arguments NewOp {_ _}. Arguments AddStr {_ _}. Arguments AddOp {_ _}.
Arguments SubStr {_ _}. Arguments SubOp {_ _}. Arguments MulStr {_ _}. Arguments MulOp {_ _}.
Arguments Clean {_ _}. Arguments Remove {_ _}. Arguments init {_ _}.
Arguments dget {_}. Arguments dset {_}. Arguments hneg {_ _}. Arguments h_of_list {_ _}.
Arguments h_add_str {_ _}. Arguments h_add_strs {_ _}. Arguments h_clean {_ _}. Arguments h_add_op {_ _}.
Arguments h_neg_op {_ _}. Arguments deref {_ _}. Arguments h_products {_ _}. Arguments h_add_fresh {_ _}.
Arguments h_mul {_ _}. Arguments set_op {_}. Arguments step {_ _}. Arguments run {_ _}.
Arguments h_commutator {_ _}.
