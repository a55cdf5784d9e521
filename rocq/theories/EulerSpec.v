(** Specification vocabulary for a step along the residual.  Nothing here comes from the code. *)
From Coq Require Import Bool List Arith Reals.
From Verif Require Import Coeff ComplexR MatSpec FockSpec CircuitSpec.
Import ListNotations.
Local Open Scope R_scope.

(** The sum of the magnitudes of the real and imaginary parts, and the sum of the squared magnitudes, of the coefficients. *)
Definition n1 (c : Cx) : R := Rabs (fst c) + Rabs (snd c).
Definition wt {A} (o : list (A * Cx)) : R := fold_right (fun e t => n1 (snd e) + t) 0 o.
Definition sq {A} (o : list (A * Cx)) : R := fold_right (fun e t => fst (snd e) * fst (snd e) + snd (snd e) * snd (snd e) + t) 0 o.
(** The sum of the magnitudes of the entries of a real array of four indices below N. *)
Definition rsum (n : nat) (f : nat -> R) : R := fold_right (fun i t => f i + t) 0 (seq 0 n).
Definition size4 (N : nat) (K2 : nat -> nat -> nat -> nat -> Cx) : R := rsum N (fun p => rsum N (fun q => rsum N (fun s => rsum N (fun t => Rabs (fst (K2 p q s t)))))).
(** Every string has N letters; no coefficient is below the cutoff. *)
Definition sized_layers (N : nat) (layers : list (list (fstr * Cx))) : Prop := forall P e, In P layers -> In e P -> length (fst e) = N.
Definition not_small (o : list (fstr * Cx)) : Prop := forall e, In e o -> small (snd e) = false.
