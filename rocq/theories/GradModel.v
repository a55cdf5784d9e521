(** Model of the numerical gradients of the variational solvers over the real numbers: vqe/vqe.py l.124-154 and
    vqe/adapt.py l.141-171 (the two methods are the same). *)
From Coq Require Import List Arith Reals.
Import ListNotations.
Local Open Scope R_scope.
(** vqe.py l.129-134, adapt.py l.146-151: the list [tpara]. *)
Fixpoint rbump (i : nat) (d : R) (x : list R) : list R :=
  match x with
  | [] => []
  | c :: x' => match i with O => c + d :: x' | S i' => c :: rbump i' d x' end
  end.
(** vqe.py l.124-154, adapt.py l.141-171. *)
Definition real_gradient (E : list R -> R) (forward : bool) (diff : R) (x : list R) : list R :=
  map (fun i =>
    if forward then (E (rbump i diff x) - E x) / diff
    else (E (rbump i diff x) - E (rbump i (- diff) x)) / (2 * diff)) (seq 0 (length x)).
