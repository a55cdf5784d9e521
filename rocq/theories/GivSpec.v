(** Specification vocabulary for plane rotations of the rows of a real matrix.  Nothing here comes from the code. *)
From Coq Require Import List Arith Reals.
From Verif Require Import CholSpec.
Import ListNotations.
Local Open Scope R_scope.
(** Rows r-1 and r rotated by an angle t: row r-1 becomes cos t (row r-1) + sin t (row r), row r becomes cos t (row r) - sin t (row r-1). *)
Definition rotated (r : nat) (t : R) (A : nat -> nat -> R) (i j : nat) : R :=
  if Nat.eq_dec i r then cos t * A r j - sin t * A (r - 1)%nat j
  else if Nat.eq_dec i (r - 1) then cos t * A (r - 1)%nat j + sin t * A r j
  else A i j.
(** Rotations one after the other, the first of the list first. *)
Definition rotated_all (l : list (nat * R)) (A : nat -> nat -> R) : nat -> nat -> R := fold_left (fun B e => rotated (fst e) (snd e) B) l A.
(** Inner product of two columns. *)
Definition columns (n : nat) (A : nat -> nat -> R) (j k : nat) : R := rsum n (fun i => A i j * A i k).
(** The generators t (a_p^+ a_q - a_q^+ a_p) of a list of rotations, for orbitals with spin up and with spin down: coefficients and indices p, q. *)
Definition generators (n : nat) (l : list (nat * R)) : list (R * (nat * nat)) :=
  flat_map (fun e => let '(r, t) := e in [(t, (r, r - 1)); (- t, (r - 1, r)); (t, (n + r, n + (r - 1))); (- t, (n + (r - 1), n + r))]%nat) l.
