(** Model of [build_cholesky_operator_Vp] (hqca/hamiltonian/molecular.py l.502-589) over the real numbers: the loop of
    rotations (l.510-554).  [np.linalg.eig] is external: the eigenvalues and the matrix U of eigenvectors are given. *)
From Coq Require Import Bool List Arith Reals.
Import ListNotations.
Local Open Scope R_scope.
Definition cut8 : R := / 10 ^ 8.
(** l.513-522: the angle, [None] for [continue]. *)
Definition angle (temp : nat -> nat -> R) (r c : nat) : option R :=
  if Rlt_dec (Rabs (temp r c)) cut8 then None
  else if Rlt_dec (Rabs (temp (r - 1)%nat c)) cut8 then Some (PI / 2)
  else Some (atan (temp r c / temp (r - 1)%nat c)).
(** l.523-527: the matrix [givens]. *)
Definition givens (r : nat) (theta : R) (i j : nat) : R :=
  if Nat.eqb i r && Nat.eqb j r || Nat.eqb i (r - 1) && Nat.eqb j (r - 1) then cos theta
  else if Nat.eqb i (r - 1) && Nat.eqb j r then sin theta
  else if Nat.eqb i r && Nat.eqb j (r - 1) then - sin theta
  else if Nat.eqb i j then 1 else 0.
(** l.529: [np.dot]. *)
Definition dot (n : nat) (A B : nat -> nat -> R) (i j : nat) : R := fold_right Rplus 0 (map (fun k => A i k * B k j) (seq 0 n)).
(** l.530-553: the four strings a+ a- added to [Uf]: coefficient and indices. *)
Definition rotation_terms (n r : nat) (theta : R) : list (R * (nat * nat)) :=
  [(theta, (r, r - 1)); (- theta, (r - 1, r)); (theta, (r + n, r + n - 1)); (- theta, (r + n - 1, r + n))]%nat.
(** l.513-553: one turn of the two loops. *)
Definition giv_step (n : nat) (st : (nat -> nat -> R) * list (R * (nat * nat))) (rc : nat * nat) : (nat -> nat -> R) * list (R * (nat * nat)) :=
  let '(temp, uf) := st in
  let '(r, c) := rc in
  match angle temp r c with
  | None => st
  | Some theta => (dot n (givens r theta) temp, uf ++ rotation_terms n r theta)
  end.
(** l.510-511: the positions in order. *)
Definition positions (n : nat) : list (nat * nat) := flat_map (fun c => map (fun r => (r, c)) (rev (seq (c + 1) (n - (c + 1))))) (seq 0 n).
Definition giv_loop (n : nat) (U : nat -> nat -> R) : (nat -> nat -> R) * list (R * (nat * nat)) := fold_left (giv_step n) (positions n) (U, []).
