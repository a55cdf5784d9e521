(** Model of the circuit of a variational ansatz: instructions/_instruct_pauli.py ([PauliSet]) applied to the list of
    strings returned by vqe/_ansatz.py ([assign]), and the circuit of one evaluation (vqe/vqe.py l.100-116 with
    tomography/_tomography.py l.158-191).  Angles are real numbers, given by the cosine and sine of their halves. *)
From Coq Require Import Bool List Arith Reals.
From Verif Require Import Coeff ComplexR MatSpec CircuitSpec CircuitModel QuantSpec VqeModel StoreModel.
Import ListNotations.
Local Open Scope R_scope.

(** The cutoffs of the code: [abs(p)<1e-10] (_ansatz.py l.22) and [abs(c)<1e-14] (_instruct_pauli.py l.73-77). *)
Definition below10 (p : Cx) : bool := if Rlt_dec (fst p * fst p + snd p * snd p) (/ 10 ^ 20) then true else false.
Definition below14 (x : R) : bool := if Rlt_dec (Rabs x) (/ 10 ^ 14) then true else false.

(** _instruct_pauli.py l.48-95 with [sym] false: one rotation by [c/depth] for each recorded item (a division by zero raises). *)
Definition ansatz_gates (depth : nat) (psi : list (list pauli * Cx)) : option (list (gate Cx)) :=
  match pauli_set below14 None psi, depth with
  | None, _ => None
  | Some (_ :: _), O => None
  | Some gs, _ => Some (flat_map (fun e => pauli_gadget (chalf_angle (fst e / INR depth, 0)) (snd e)) gs)
  end.

(** vqe.py l.100-116: the circuit of one evaluation for the default mapping of orbitals to qubits; [s d tr q] are the
    options of the ansatz, [a] and [b] the numbers of electrons. *)
Definition vqe_circuit (depth : nat) (s d tr q : bool) (No a b : nat) (ps : list Cx)
  : option (list (gate Cx)) :=
  let g := qs_groups Default No in
  match qs_initial Default No a b with
  | None => None
  | Some occ =>
      match initial_operator (2 * No)%nat occ, ucc s d tr q (fst g) (snd g) occ with
      | Some o, Some L =>
          match assign below10 (2 * No)%nat (combine L ps) with
          | None => None
          | Some psi =>
              match ansatz_gates depth psi with
              | None => None
              | Some gs => Some (initial_circuit Crt o ++ gs)
              end
          end
      | _, _ => None
      end
  end.
