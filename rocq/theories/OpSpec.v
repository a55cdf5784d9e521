(** Specification vocabulary for Operators, independent of the model's dictionary functions. *)
From Coq Require Import Bool List.
From Verif Require Import Coeff.
Import ListNotations.

Section OpSpec.
  Variable K : CoefRing.
  Variable key : Type.
  Variable keq : forall a b : key, {a = b} + {a <> b}.
  Local Open Scope coef_scope.

  (** The strings held by an operator. *)
  Definition keys (o : list (key * K)) : list key := map fst o.
  (** The total coefficient of string [k]. *)
  Fixpoint total (k : key) (o : list (key * K)) : K :=
    match o with
    | [] => 0
    | (k', x) :: o' => if keq k k' then x + total k o' else total k o'
    end.
  (** Sum of a list. *)
  Definition sumK (l : list K) : K := fold_right cadd 0 l.
End OpSpec.
Arguments keys {_ _}. Arguments total {_ _}. Arguments sumK {_}.

(** Decidable equality of strings. *)
From Verif Require Import MatSpec FockSpec.
Definition pauli_dec : forall a b : pauli, {a = b} + {a <> b}.
Proof. decide equality. Defined.
Definition pstr_dec : forall a b : list pauli, {a = b} + {a <> b} := list_eq_dec pauli_dec.
Definition fop_dec : forall a b : fop, {a = b} + {a <> b}.
Proof. decide equality. Defined.
Definition fstr_dec : forall a b : fstr, {a = b} + {a <> b}.
Proof. apply list_eq_dec. decide equality. apply fop_dec. Defined.
