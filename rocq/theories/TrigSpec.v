(** Specification vocabulary for energies as functions of the parameters of an ansatz.  Nothing here comes from the code. *)
From Coq Require Import List Arith Reals.
From Verif Require Import Coeff ComplexR MatSpec CircuitSpec RdmSpec VqeSpec RotSpec.
Import ListNotations.
Local Open Scope R_scope.
(** The state: the rotations of the excitations applied to a determinant; and its energy. *)
Definition ansatz_state (N depth : nat) (ref : bits) (l : list (list nat * Cx)) : bits -> Cx := fun x => rotations N depth l x ref.
Definition ansatz_energy (N depth : nat) (H : mat Cx) (ref : bits) (l : list (list nat * Cx)) : R := fst (expect N H (ansatz_state N depth ref l)).
(** Trigonometric polynomials of degree two and their derivative. *)
Definition trig2 (a : nat -> R) (x : R) : R := a 0%nat + a 1%nat * cos x + a 2%nat * sin x + a 3%nat * cos (2 * x) + a 4%nat * sin (2 * x).
Definition trig2' (a : nat -> R) (x : R) : R := - a 1%nat * sin x + a 2%nat * cos x - 2 * a 3%nat * sin (2 * x) + 2 * a 4%nat * cos (2 * x).
(** Real parameters as complex numbers; the vector with its i-th entry replaced. *)
Definition reals (x : list R) : list Cx := map (fun y => ((y, 0) : Cx)) x.
Definition put (i : nat) (y : R) (x : list R) : list R := firstn i x ++ y :: skipn (S i) x.
(** The data of a real two-body Hamiltonian for [n] electrons: [w] is 1 / (4 (n - 1)). *)
Definition real_data (n : nat) (w : Cx) (h : nat -> nat -> Cx) (V : nat -> nat -> nat -> nat -> Cx) : Prop :=
  cmul (cmul (cadd (cadd (cadd c1 c1) c1) c1) w) (ofnat (n - 1)) = c1 /\ snd w = 0 /\ (forall i j, snd (h i j) = 0) /\ (forall i j, h i j = h j i) /\
  (forall p q s t, snd (V p q s t) = 0) /\ (forall p q s t, V p q s t = V q p t s) /\ (forall p q s t, V p q s t = V s t p q).
