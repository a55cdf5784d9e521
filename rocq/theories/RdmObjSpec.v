(** Specification vocabulary for arrays stored as tensors or as matrices.  Only the array type and its indexing
    ([shape], [get]) come from the model. *)
From Coq Require Import List Arith.
From Verif Require Import Coeff MatSpec CircuitSpec HamSpec RdmObjModel RdmSpec.
Import ListNotations.

(** The number written with the digits l in base r. *)
Definition rank (r : nat) (l : list nat) : nat := fold_left (fun a x => a * r + x) l 0.
(** p orbital numbers below r. *)
Definition orbital_list (r p : nat) (l : list nat) : Prop := length l = p /\ Forall (fun x => x < r) l.

Section Stores.
  Variable K : CoefRing.
  (** The array stores T as a tensor with 2p axes. *)
  Definition stores_tensor (r p : nat) (a : nda K) (T : list nat -> list nat -> K) : Prop :=
    shape a = repeat r (2 * p) /\
    forall c d, orbital_list r p c -> orbital_list r p d -> get a (c ++ d) = Some (T c d).
  (** The array stores T as a matrix. *)
  Definition stores_matrix (r p : nat) (a : nda K) (T : list nat -> list nat -> K) : Prop :=
    shape a = [r ^ p; r ^ p] /\
    forall c d, orbital_list r p c -> orbital_list r p d -> get a [rank r c; rank r d] = Some (T c d).
  Definition stores (r p : nat) (a : nda K) (T : list nat -> list nat -> K) : Prop :=
    stores_tensor r p a T \/ stores_matrix r p a T.
End Stores.
Arguments stores_tensor {_}. Arguments stores_matrix {_}. Arguments stores {_}.

(** Spatial orbital i has spin-up mode i and spin-down mode N+i. *)
Definition spin_pairs (N : nat) : list (nat * nat) := map (fun i => (i, N + i)) (seq 0 N).
(** A singlet: annihilated by the raising and the lowering operator. *)
Definition singlet (K : CoefRing) (N : nat) (psi : bits -> K) : Prop :=
  (forall x, length x = 2 * N -> mvec (2 * N) (S_plus (2 * N) (spin_pairs N)) psi x = 0%K) /\
  (forall x, length x = 2 * N -> mvec (2 * N) (S_minus (2 * N) (spin_pairs N)) psi x = 0%K).

(** Minors of an array with two axes. *)
Definition det2 {K : CoefRing} (D : list nat -> K) (i k j l : nat) : K := (D [i; j] * D [k; l] - D [i; l] * D [k; j])%K.
Definition det3 {K : CoefRing} (D : list nat -> K) (i j k l m n : nat) : K :=
  (D [i; l] * det2 D j k m n - D [i; m] * det2 D j k l n + D [i; n] * det2 D j k l m)%K.
