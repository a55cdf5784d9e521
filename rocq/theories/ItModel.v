(** processes/_simulate_iterative_unitary.py: the simulator that carries a density matrix through one circuit
    after the other and fills the counts of a tomography from the diagonal of the rotated density matrix.
    Indices of matrices are outcome strings in qubit order (the SDK orders them with qubit 0 last, hence
    [rev] below). *)
From Coq Require Import Bool List Arith.
From Verif Require Import Coeff MatSpec FockSpec PauliModel CircuitSpec TomoModel.
Import ListNotations.

Section ItModel.
  Variable K : CoefRing.
  Local Open Scope coef_scope.
  Variable rt : K.
  (** np.sqrt on the entries of the diagonal (external). *)
  Variable root : K -> K.
  (** [abs(counts[n])<1e-14] of processes/_process_counts.py l.25. *)
  Variable tiny : K -> bool.

  (** l.97: [self.rho = np.dot(U,np.dot(rho_i,np.conj(U.T)))]. *)
  Definition it_step (N : nat) (U rho : mat K) : mat K := mmul N U (mmul N rho (madj U)).

  (** l.107-112: the rotations of one setting. *)
  Fixpoint it_gates (n : nat) (c : list pauli) : list (gate K) :=
    match c with
    | [] => []
    | i :: c' =>
        match i with
        | PX => [Gh n]
        | PY => [Gsdg n; Gh n]
        | _ => []
        end ++ it_gates (S n) c'
    end.

  (** l.119-123: square roots of the diagonal of the rotated density matrix. *)
  Definition it_diag (N : nat) (rho : mat K) (c : list pauli) : list K :=
    let V := cmat rt N (it_gates 0 c) in
    map (fun b => root (it_step N V rho (rev b) (rev b))) (bin_strings N).

  (** l.127: [tomo.counts = {i:j for i,j in zip(self.circuit_list,counts)}]; a repeated key keeps the last
      value. *)
  Definition it_counts (N : nat) (rho : mat K) (settings : list (list pauli)) : list (list pauli * list K) :=
    map (fun c => (c, it_diag N rho c)) settings.
  Fixpoint last_value (c : list pauli) (d : list (list pauli * list K)) : option (list K) :=
    match d with
    | [] => None
    | (k, v) :: d' =>
        match last_value c d' with
        | Some w => Some w
        | None => if pauli_list_eqb k c then Some v else None
        end
    end.

  (** l.73-128: [simulate]; the new density matrix (l.128, [tomo.rho]) and the counts. *)
  Definition it_simulate (N : nat) (gates : list (gate K)) (settings : list (list pauli)) (rho : mat K)
    : mat K * list (list pauli * list K) :=
    let rho' := it_step N (cmat rt N gates) rho in
    (rho', it_counts N rho' settings).

  (** The loop a caller runs: every step starts from the density matrix the step before left in [tomo.rho]. *)
  Fixpoint it_run (N : nat) (circuits : list (list (gate K))) (rho : mat K) : mat K :=
    match circuits with
    | [] => rho
    | g :: r => it_run N r (fst (it_simulate N g [] rho))
    end.

  (** processes/_process_counts.py l.17-36 on the counts of setting [c]; None is the KeyError. *)
  Definition it_measure (N : nat) (counts : list (list pauli * list K)) (c p : list pauli) : option K :=
    match last_value c counts with
    | Some l => Some (measure_sv tiny N p l)
    | None => None
    end.
End ItModel.
Arguments it_step {_}. Arguments it_gates {_}. Arguments it_diag {_}. Arguments it_counts {_}.
Arguments last_value {_}. Arguments it_simulate {_}. Arguments it_run {_}. Arguments it_measure {_}.
