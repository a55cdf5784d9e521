(** Independent shots.  [p] is the probability of each outcome of one shot; outcomes are strings of N bits. *)
From Coq Require Import Bool List Arith ZArith Reals.
From Verif Require Import Coeff ComplexR MatSpec CircuitSpec.
Import ListNotations.
Local Open Scope R_scope.

(** The sum over all strings of N bits. *)
Fixpoint osum (N : nat) (f : list bool -> R) : R :=
  match N with
  | O => f []
  | S n => osum n (fun b => f (false :: b)) + osum n (fun b => f (true :: b))
  end.
Definition distribution (N : nat) (p : list bool -> R) : Prop := (forall b, 0 <= p b) /\ osum N p = 1.

(** The mean of a function of n independent shots, and of n shots from each distribution of a list. *)
Fixpoint mean (N n : nat) (p : list bool -> R) (f : list (list bool) -> R) : R :=
  match n with
  | O => f []
  | S m => osum N (fun b => p b * mean N m p (fun l => f (b :: l)))
  end.
Fixpoint means (N n : nat) (ps : list (list bool -> R)) (f : list (list (list bool)) -> R) : R :=
  match ps with
  | [] => f []
  | p :: ps' => mean N n p (fun l => means N n ps' (fun ls => f (l :: ls)))
  end.
(** The mean of a complex quantity. *)
Definition cmeans (N n : nat) (ps : list (list bool -> R)) (f : list (list (list bool)) -> Cx) : Cx :=
  (means N n ps (fun w => fst (f w)), means N n ps (fun w => snd (f w))).

(** n shots of N bits. *)
Definition sample (N n : nat) (l : list (list bool)) : Prop := length l = n /\ forall b, In b l -> length b = N.
Definition samples (N n k : nat) (ws : list (list (list bool))) : Prop := length ws = k /\ forall l, In l ws -> sample N n l.
(** The dictionary of counts of a list of shots: every outcome that occurred, once, with its number. *)
Definition tallies (l : list (list bool)) (counts : list (list bool * Z)) : Prop :=
  NoDup (map fst counts) /\
  forall d k, In (d, k) counts <-> (k = Z.of_nat (count_occ (list_eq_dec bool_dec) l d) /\ 0 < k)%Z.

(** Born's rule; the last character of an outcome is qubit 0. *)
Definition born (phi : bits -> Cx) (det : list bool) : R := fst (phi (rev det)) * fst (phi (rev det)) + snd (phi (rev det)) * snd (phi (rev det)).
(** The average of a string over the outcomes of one shot. *)
Definition average (N : nat) (p : list bool -> R) (s : list pauli) : R := osum N (fun b => p b * IZR (eigenvalue s b)).
