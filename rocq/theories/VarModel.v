(** hqca/acse/acse.py l.810-819 ([check_variance]) for the density matrix that the iterative simulator leaves (ItModel.v, l.366-374
    of acse.py).  The printing of l.817 is left out.  A density matrix is set in [__init__] (l.127, None), so the branch of l.811-814 is
    never taken; without be_type 'rho' it stays None, on which numpy raises: [None]. *)
From Coq Require Import List Arith Reals.
From Verif Require Import Coeff ComplexR MatSpec CircuitSpec ItModel ItSpec PlanSpec.
Import ListNotations.

(** l.815-818. *)
Definition check_variance (N : nat) (rho : option (mat Cx)) (H : mat Cx) : option R :=
  match rho with
  | None => None
  | Some rho =>
      let E := mtrace N (mmul N rho H) in
      let v1 := mtrace N (mmul N rho (mmul N H H)) in
      Some (fst (csub v1 (cmul E E)))
  end.
(** l.366-374 and l.302: [rho[0,0] = 1], then one simulation per circuit of the run; [root] is not used by the density matrix. *)
Definition run_rho (root : Cx -> Cx) (N : nat) (circuits : list (list (gate Cx))) : mat Cx := it_run Crt root N circuits (pure (zero_state N)).
