(** Specification: the effect of the methods of the Circ class on its array. *)
From Coq Require Import Bool List Arith.
From Verif Require Import Coeff MatSpec CircuitSpec CircSpec2 CircModel.
Import ListNotations.
Local Open Scope coef_scope.

Section Spec.
  Variable K : CoefRing.
  (** The calls succeed on every array and multiply it from the left by M. *)
  Definition multiplies (n : nat) (l : list (cgate K)) (M : mat K) : Prop :=
    forall m, exists m', apply_all n l (Some m) = Some m' /\ meq n m' (mmul n M m).
  (** The cosine and sine of an angle. *)
  Definition unit_angle (t : angle K) : Prop := fst t * fst t + snd t * snd t = 1.
  (** [[c, s], [s, -c]]: the Hadamard gate for c = s = 1/sqrt 2. *)
  Definition reflect (c s : K) : mat2 K := m2 c s s (- c).
  (** The gate acts on different qubits of the register, and single-qubit matrices are unitary. *)
  Definition gate_unitary (n : nat) (g : cgate K) : Prop :=
    match g with
    | Sqg g i => (i < n)%nat /\ unitary2 g
    | Held cs j => (j < n)%nat /\ (forall i, In i cs -> i < n)%nat /\ ~ In j cs
    end.
  (** The array with the entries that are not big set to zero. *)
  Definition cut (big : K -> bool) (M : mat K) : mat K := fun r c => if big (M r c) then M r c else 0.
End Spec.
Arguments multiplies {_}. Arguments unit_angle {_}. Arguments reflect {_}. Arguments gate_unitary {_}. Arguments cut {_}.
