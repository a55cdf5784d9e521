(** Model of the quantum solver of the contracted Schroedinger equation: hqca/acse/_quant_A_acse.py (solveqACSE, _runexpiH)
    and the part of hqca/instructions/_instruct_pauli.py (PauliSet._applyH) that it uses.

    Circuit and tomography are exact: the RDM is that of the state the gates prepare ([rdm_of]; C59, C112).  The operator
    that is built from the array, and its norm, are in ResModel and ResNorm. *)
From Coq Require Import Bool List Arith.
From Verif Require Import Coeff MatSpec CircuitSpec CircuitModel RdmSpec ResModel.
Import ListNotations.
Local Open Scope coef_scope.

Section Quant.
  Variable K : CoefRing.
  Variable rt : K.
  (** cos(v/2) and sin(v/2) for a number v. *)
  Variable half : K -> angle K.
  Notation pop := (list (list pauli * K)).
  (** np.imag. *)
  Definition im (x : K) : K := chalf * (- ci * (x - cconj x)).
  (** _instruct_pauli.py l.95-108: one round, then [trotter_steps] rounds; [inv] is [1/trotter_steps]. *)
  Definition apply_h_round (inv scaleH : K) (H : pop) : list (angle K * list pauli) :=
    map (fun e => (half (inv * scaleH * re (snd e)), fst e)) H.
  Definition apply_h (steps : nat) (inv scaleH : K) (H : pop) : list (angle K * list pauli) :=
    concat (repeat (apply_h_round inv scaleH H) steps).
  (** l.25-28: the gates of the ansatz, then those of the Hamiltonian. *)
  Definition quant_gates (ansatz : list (gate K)) (steps : nat) (inv scaleH : K) (H : pop) : list (gate K) :=
    ansatz ++ flat_map (fun e => pauli_gadget (fst e) (snd e)) (apply_h steps inv scaleH H).
  (** _quant_A_acse.py l.70-106 ([_runexpiH]): [hss] is [1/hamiltonian_step_size]; [phi] is the state before the gates. *)
  Definition run_expiH (N : nat) (phi : bits -> K) (ansatz : list (gate K)) (steps : nat) (inv scaleH hss : K) (H : pop)
      : nat -> nat -> nat -> nat -> K :=
    fun i k j l => im (rdm_of N (mvec N (cmat rt N (quant_gates ansatz steps inv scaleH H)) phi) [i; k] [j; l]) * hss.
  (** l.41-46: one Operator, or the sum over a list of Operators.  [None]: an empty list, [H[0]] raises. *)
  Definition quant_array (N : nat) (phi : bits -> K) (ansatz : list (gate K)) (steps : nat) (inv scaleH hss : K) (Hs : list pop)
      : option (nat -> nat -> nat -> nat -> K) :=
    match Hs with
    | [] => None
    | H :: Hs' => Some (fold_left (fun A H' => fun i k j l => A i k j l + run_expiH N phi ansatz steps inv scaleH hss H' i k j l) Hs'
                          (run_expiH N phi ansatz steps inv scaleH hss H))
    end.
End Quant.
Arguments im {_}. Arguments apply_h_round {_}. Arguments apply_h {_}. Arguments quant_gates {_}. Arguments run_expiH {_}. Arguments quant_array {_}.
