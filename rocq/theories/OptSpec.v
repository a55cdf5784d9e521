(** What an optimiser user relies on, stated without the optimiser's own helpers. *)
From Coq Require Import Bool List Arith QArith.
From Verif Require Import OptModel.
Import ListNotations.
Local Open Scope nat_scope.

Section Spec.
  Context {O : Ord}.
  (** [v] is below every element of [l]. *)
  Definition lower_bound (v : O) (l : list O) : Prop := forall w, In w l -> oleb v w = true.
  (** Ascending. *)
  Definition ascending (l : list O) : Prop :=
    forall i j a b, i < j -> nth_error l i = Some a -> nth_error l j = Some b -> oleb a b = true.
  (** The reported pair belongs to the objective. *)
  Definition on_graph (f : point -> O) (p : point * O) : Prop := snd p = f (fst p).
End Spec.
