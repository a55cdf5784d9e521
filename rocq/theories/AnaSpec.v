(** Vocabulary for the spectra of the blocks of a reduced density matrix.  Nothing here refers to the model. *)
From Coq Require Import List Arith Reals.
From Verif Require Import Coeff ComplexR.
Import ListNotations.

(** The pairs of different orbitals of a list, each once and in order; the pairs of one orbital of each list. *)
Definition pairs_within (l : list nat) (B : list (list nat)) : Prop :=
  NoDup B /\ forall p, In p B <-> exists i j, p = [i; j] /\ In i l /\ In j l /\ i < j.
Definition pairs_between (a b : list nat) (B : list (list nat)) : Prop :=
  NoDup B /\ forall p, In p B <-> exists i j, p = [i; j] /\ In i a /\ In j b.
(** The matrix of T in the basis B. *)
Definition matrix_of {K : CoefRing} (B : list (list nat)) (T : list nat -> list nat -> K) : list (list K) :=
  map (fun I => map (fun J => T I J) B) B.

Section Spectra.
  Local Open Scope coef_scope.
  Fixpoint dotp {K : CoefRing} (u v : list K) : K :=
    match u, v with x :: u', y :: v' => x * y + dotp u' v' | _, _ => 0 end.
  Definition matvec {K : CoefRing} (M : list (list K)) (v : list K) : list K := map (fun row => dotp row v) M.
  Definition hermitian_matrix {K : CoefRing} (M : list (list K)) : Prop :=
    (forall row, In row M -> length row = length M) /\
    forall i j, (i < length M)%nat -> (j < length M)%nat -> nth j (nth i M []) 0 = cconj (nth i (nth j M []) 0).
  (** mu is an eigenvalue: a vector that is not zero is scaled by it. *)
  Definition eigenvalue (M : list (list Cx)) (mu : R) : Prop :=
    exists v : list Cx, length v = length M /\ (exists x, In x v /\ x <> c0) /\ matvec M v = map (cmul ((mu, 0%R) : Cx)) v.
End Spectra.
