(** Value-level model of hqca/operators/_operator.py.

    An Operator is the OrderedDict [self.op]; here it is the list of (string, coefficient) pairs in
    insertion order.  Object identity (aliasing, in-place mutation) is the subject of OperatorHeap.v.
    [key] is the type of letter strings and [keqb] their equality ([A.s in self.op]). *)
From Coq Require Import Bool List.
From Verif Require Import Coeff.
Import ListNotations.
Local Open Scope coef_scope.

Section Op.
  Variable K : CoefRing.
  Variable key : Type.
  Variable keqb : key -> key -> bool.

  Definition opv : Type := list (key * K).

  (** _operator.py l.61-65 ([__getitem__], [__contains__]). *)
  Fixpoint op_get (k : key) (o : opv) : option K :=
    match o with
    | [] => None
    | (k', x) :: o' => if keqb k k' then Some x else op_get k o'
    end.

  (** Dictionary assignment [self.op[k]=v]: replaces in place or appends. *)
  Fixpoint op_set (k : key) (x : K) (o : opv) : opv :=
    match o with
    | [] => [(k, x)]
    | (k', y) :: o' => if keqb k k' then (k', x) :: o' else (k', y) :: op_set k x o'
    end.

  (** _operator.py l.21-31 ([__init__] with a list): later strings overwrite earlier ones. *)
  Definition op_of_list (l : list (key * K)) : opv :=
    fold_left (fun o e => op_set (fst e) (snd e) o) l [].

  (** _operator.py l.71-75: adding a string; no cleaning. *)
  Definition op_add_string (o : opv) (e : key * K) : opv :=
    match op_get (fst e) o with
    | Some y => op_set (fst e) (y + snd e) o
    | None => op_set (fst e) (snd e) o
    end.

  (** _operator.py l.157-167 ([clean], numeric branch). *)
  Definition op_clean (o : opv) : opv := filter (fun e => negb (small (snd e))) o.

  (** _operator.py l.76-82: adding an Operator, then cleaning. *)
  Definition op_add (o a : opv) : opv := op_clean (fold_left op_add_string a o).

  (** _operator.py l.148-155 ([__sub__]), value of the result for operands sharing no object. *)
  Definition op_neg (a : opv) : opv := map (fun e => (fst e, snd e * - (1))) a.
  Definition op_sub (o a : opv) : opv := op_add o (op_neg a).

  (** _operator.py l.169-173 ([remove]). *)
  Definition op_remove (k : key) (o : opv) : opv := filter (fun e => negb (keqb k (fst e))) o.

  (** The product of two strings of the class ([s*a]). *)
  Variable smul : key * K -> key * K -> key * K.

  (** _operator.py l.103-108 ([__mul__] by a string). *)
  Definition op_mul_string (o : opv) (a : key * K) : opv :=
    op_clean (fold_left (fun new i => op_add_string new (smul i a)) o []).

  (** _operator.py l.109-112, 120-121 ([__mul__] by an Operator). *)
  Definition op_mul (o a : opv) : opv :=
    op_clean (fold_left (fun new x =>
      fold_left (fun new' s => op_add_string new' (smul s x)) o new) a []).

  (** _operator.py l.113-121 ([__mul__] by a number; PauliString accepts int and float,
      FermiString any number). *)
  Definition op_scale (o : opv) (x : K) : opv :=
    op_clean (fold_left (fun new e => op_add_string new (fst e, snd e * x)) o []).

  (** _operator.py l.194-200 ([commutator]); both products are fresh objects. *)
  Definition op_commutator (o a : opv) : opv := op_sub (op_mul o a) (op_mul a o).
End Op.

Arguments op_get {_ _}. Arguments op_set {_ _}. Arguments op_of_list {_ _}.
Arguments op_add_string {_ _}. Arguments op_clean {_ _}. Arguments op_add {_ _}.
Arguments op_neg {_ _}. Arguments op_sub {_ _}. Arguments op_remove {_ _}.
Arguments op_mul_string {_ _}. Arguments op_mul {_ _}. Arguments op_scale {_ _}.
Arguments op_commutator {_ _}.

(** _operator.py l.129-146 ([transform]), and the loops of the transforms over an Operator
    (e.g. transforms/_jordan_wigner.py l.60-64): images are added one after the other with a clean
    after each.  [pool.map] returns the images in order, so both branches compute this. *)
Definition op_transform {K : CoefRing} {key key' : Type} (keqb' : key' -> key' -> bool)
    (T : key * K -> opv K key') (o : opv K key) : opv K key' :=
  fold_left (fun new r => op_add keqb' new r) (map T o) [].

(** _operator.py l.137-140: [pool.map] hands consecutive chunks to the workers and returns the images
    in order (documented behaviour of multiprocessing.Pool.map; process failures are not modelled). *)
Definition op_transform_pool {K : CoefRing} {key key' : Type} (keqb' : key' -> key' -> bool)
    (T : key * K -> opv K key') (chunks : list (list (key * K))) : opv K key' :=
  fold_left (fun new r => op_add keqb' new r) (concat (map (map T) chunks)) [].
