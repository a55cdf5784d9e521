(** Specification vocabulary for excitation rotations.  Nothing here comes from the code. *)
From Coq Require Import List Arith Reals.
From Verif Require Import Coeff ComplexR MatSpec VqeSpec RdmSpec.
Import ListNotations.
Local Open Scope R_scope.
(** The rotation by x generated by a matrix G with G^3 = - G. *)
Definition rotation (N : nat) (G : mat Cx) (x : R) : mat Cx :=
  madd mone (madd (mscal ((sin x, 0) : Cx) G) (mscal ((1 - cos x, 0) : Cx) (mmul N G G))).
(** The rotations of a list of excitations, the first one applied first; the angles are the parameters over [depth]. *)
Fixpoint rotations (N depth : nat) (l : list (list nat * Cx)) : mat Cx :=
  match l with
  | [] => mone
  | (t, p) :: l' => mmul N (rotations N depth l') (rotation N (generator (Nat.div2 (length t)) t c1) (fst p / INR depth))
  end.
(** The reference determinant: the first a spin-up and the first b spin-down orbitals are occupied. *)
Definition reference_bits (No a b : nat) : bits :=
  repeat true a ++ repeat false (No - a) ++ repeat true b ++ repeat false (No - b).
(** Excitations of any rank with indices below N, not both ascending and with one of them twice, and real parameters, each zero or above the cutoff of the code. *)
Definition usable (N : nat) (l : list (list nat * Cx)) : Prop :=
  forall t p, In (t, p) l -> Nat.even (length t) = true /\ (forall i, In i t -> (i < N)%nat) /\ intact t /\ snd p = 0 /\ (fst p = 0 \/ 2 ^ length t / 10 ^ 12 < Rabs (fst p)).
