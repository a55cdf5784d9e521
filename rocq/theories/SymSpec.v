(** States with a definite number of particles in a set of modes.  Nothing here comes from the code. *)
From Coq Require Import Bool List Arith.
From Verif Require Import Coeff MatSpec.
Import ListNotations.

(** Number of occupied modes i of x with [sel i]. *)
Fixpoint occ_on (sel : nat -> bool) (x : bits) : nat :=
  match x with
  | [] => 0
  | b :: x' => (if sel 0 && b then 1 else 0) + occ_on (fun i => sel (S i)) x'
  end.
Section Spec.
  Variable K : CoefRing.
  Local Open Scope coef_scope.
  (** psi is zero on every determinant of R modes that has not n particles in the modes of [sel]. *)
  Definition has_on (R : nat) (sel : nat -> bool) (n : nat) (psi : bits -> K) : Prop :=
    forall x, length x = R -> occ_on sel x <> n -> psi x = 0.
  (** A solver of linear systems, given by columns: whatever it returns solves the system. *)
  Definition dot_row (cols : list (list K)) (x : list K) (i : nat) : K :=
    fold_right (fun e s => snd e * nth i (fst e) 0 + s) 0 (combine cols x).
  Definition solves (solve : list (list K) -> list K -> option (list K)) : Prop :=
    forall cols v x, solve cols v = Some x -> length x = length cols /\ forall i, (i < length v)%nat -> dot_row cols x i = nth i v 0.
End Spec.
Arguments has_on {_}. Arguments dot_row {_}. Arguments solves {_}.
