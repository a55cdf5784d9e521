(** Model of the density-matrix mode ([be_type='rho']) of acse/acse.py with Euler steps: [build] l.362-373,
    [_generate_circuit] l.282-303, [_run_acse] l.592-622 and _euler_acse.py l.14-22.  The ansatz is that of AcseModel,
    the simulator that of ItModel.

    [G l] are the gates for the strings of one layer (transform and instructions).  An ansatz transforms into the
    strings of its layers one after the other (_ansatz_S.py l.52-53), and the gates of a sequence of strings are
    taken to be those of its parts in order (PauliSet's stale value, C27, is left out).  The operators of the steps are
    an arbitrary sequence.  Arrays with the entry 1 at 0,0, energies, printing and the truncation of the residual
    are not part of the model; [_psi_old] is never read and is omitted. *)
From Coq Require Import Bool List Arith ZArith.
From Verif Require Import Coeff MatSpec CircuitSpec OperatorModel AcseModel ItModel.
Import ListNotations.
Local Open Scope nat_scope.

(** _ansatz_S.py l.25-31: the attribute [p] of an Ansatz made without [p_depth]. *)
Definition ans_p (closed : Z) : nat :=
  if (closed =? 1)%Z then 0 else if (closed =? 0)%Z then 1000 else Z.to_nat (- closed).

Section Rho.
  Variable K : CoefRing.
  Variable key : Type.
  Variable keqb : key -> key -> bool.
  Notation layer := (opv K key).
  Variable rt : K.
  Variable N : nat.
  Variable G : layer -> list (gate K).

  (** acse.py l.283-294: with [p==0] only the last layer of a non-empty ansatz is applied. *)
  Definition rho_gates (p : nat) (op : list layer) : list (gate K) :=
    match p with
    | 0 => match rev op with [] => [] | l :: _ => G l end
    | S _ => flat_map G op
    end.
  (** l.295-303: the density matrix of the circuit. *)
  Definition rho_apply (p : nat) (op : list layer) (rho : mat K) : mat K :=
    it_step N (cmat rt N (rho_gates p op)) rho.

  (** [self.rho], [self.psi], the density matrix in which the energy of the last step was measured and the one in
      which the residual after it was measured. *)
  Record rstate := MkRho { rs_rho : mat K; rs_psi : list layer; rs_energy : mat K; rs_resid : mat K }.

  (** l.362-373 and l.398; [prep] are the gates of [initial=True], [rho0] the array of l.367-370. *)
  Definition rho_build (closed : Z) (prep : list (gate K)) (rho0 : mat K) (psi : list layer) : rstate :=
    let rho := it_step N (cmat rt N (prep ++ rho_gates (ans_p closed) psi)) rho0 in
    MkRho rho psi rho (rho_apply (ans_p closed) psi rho).

  (** _euler_acse.py l.17-22, acse.py l.600-601 and 614-622; [P] is the operator added. *)
  Definition rho_step (closed : Z) (s : rstate) (P : layer) : rstate :=
    let p := ans_p closed in
    let psi := ans_add keqb closed (rs_psi s) P in
    let circ := rho_apply p psi (rs_rho s) in
    match p with
    | 0 => MkRho circ psi circ circ
    | S _ =>
        match psi with
        | a :: psi' =>
            if p <? length psi then MkRho (it_step N (cmat rt N (G a)) (rs_rho s)) psi' circ circ
            else MkRho (rs_rho s) psi circ circ
        | [] => MkRho (rs_rho s) psi circ circ
        end
    end.
  Definition rho_run (closed : Z) (Ps : list layer) (s : rstate) : rstate := fold_left (rho_step closed) Ps s.

  (** l.641-647 ([reset]) and [build]: the run is built again from the ansatz it has. *)
  Definition rho_reset (closed : Z) (prep : list (gate K)) (rho0 : mat K) (s : rstate) : rstate :=
    rho_build closed prep rho0 (rs_psi s).
End Rho.
Arguments rho_gates {_ _}. Arguments rho_apply {_ _}. Arguments MkRho {_ _}. Arguments rs_rho {_ _}. Arguments rs_psi {_ _}.
Arguments rs_energy {_ _}. Arguments rs_resid {_ _}. Arguments rho_build {_ _}. Arguments rho_step {_ _}. Arguments rho_run {_ _}.
Arguments rho_reset {_ _}.
