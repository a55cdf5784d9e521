(** Model of [pivoted_chol] of hqca/hamiltonian/molecular.py (l.383-446) over the real numbers, for a given matrix V.  The
    lines that obtain V (l.396-397) call [rotate_spatial_ei2], which no module defines: as pinned the method raises there.
    [None] stands for the maximum of an empty list (an exception) and for a square root or a quotient that is not a number. *)
From Coq Require Import List Arith Reals.
Import ListNotations.
Local Open Scope R_scope.
(** Assignments to one entry of an array. *)
Definition upd (f : nat -> R) (k : nat) (x : R) : nat -> R := fun j => if Nat.eqb j k then x else f j.
Definition updn (f : nat -> nat) (k : nat) (x : nat) : nat -> nat := fun j => if Nat.eqb j k then x else f j.
(** l.423: [np.argmax], the first of the largest entries. *)
Fixpoint largest (best : R) (at_ i : nat) (l : list R) : nat :=
  match l with
  | [] => at_
  | x :: l' => if Rlt_dec best x then largest x i (S i) l' else largest best at_ (S i) l'
  end.
Definition rargmax (l : list R) : option nat := match l with [] => None | x :: l' => Some (largest x 0 1 l') end.
(** The variables m, pi, d, the rows R[:m], err. *)
Record chol := MkChol { ch_m : nat; ch_pi : nat -> nat; ch_d : nat -> R; ch_R : list (nat -> R); ch_err : R }.
Definition rlsum (l : list R) : R := fold_right Rplus 0 l.
(** l.410-420; [np.inner] of two columns of R[:m] is the sum in [column]. *)
Definition chol_start (N : nat) (V : nat -> nat -> R) : chol :=
  MkChol 0 (fun i => i) (fun i => V i i) [] (rlsum (map (fun i => Rabs (V i i)) (seq 0 N))).
Definition column (rows : list (nat -> R)) (p q : nat) : R := rlsum (map (fun r => r p * r q) rows).
(** l.432-437: the body of the loop over i. *)
Definition chol_entry (V : nat -> nat -> R) (rows : list (nat -> R)) (pi : nat -> nat) (m : nat) (st : (nat -> R) * (nat -> R)) (i : nat) : (nat -> R) * (nat -> R) :=
  let '(row, d) := st in
  let ip := if Nat.ltb 0 m then column rows (pi m) (pi i) else 0 in
  let x := (V (pi m) (pi i) - ip) / row (pi m) in
  (upd row (pi i) x, upd d (pi i) (d (pi i) - x * x)).
(** l.423-440: one turn of the loop. *)
Definition chol_step (N : nat) (V : nat -> nat -> R) (s : chol) : option chol :=
  let m := ch_m s in
  match rargmax (map (fun j => ch_d s (ch_pi s j)) (seq m (N - m))) with
  | None => None
  | Some k =>
      let i := (m + k)%nat in
      let pi := updn (updn (ch_pi s) m (ch_pi s i)) i (ch_pi s m) in
      if Rle_dec (ch_d s (pi m)) 0 then None
      else
        let '(row, d) := fold_left (chol_entry V (ch_R s) pi m) (seq (m + 1) (N - (m + 1))) (upd (fun _ => 0) (pi m) (sqrt (ch_d s (pi m))), ch_d s) in
        Some (MkChol (m + 1) pi d (ch_R s ++ [row]) (rlsum (map (fun i => d (pi i)) (seq (m + 1) (N - (m + 1))))))
  end.
(** l.421-442.  A turn raises m by one, so M turns are enough. *)
Fixpoint chol_loop (N : nat) (V : nat -> nat -> R) (M : nat) (tol : R) (fuel : nat) (s : chol) : option chol :=
  if Nat.ltb (ch_m s) M then
    if Rlt_dec tol (ch_err s) then
      match fuel with
      | O => None
      | S f => match chol_step N V s with None => None | Some s' => chol_loop N V M tol f s' end
      end
    else Some s
  else Some s.
Definition pivoted_chol (N : nat) (V : nat -> nat -> R) (M : nat) (tol : R) : option chol := chol_loop N V M tol M (chol_start N V).
