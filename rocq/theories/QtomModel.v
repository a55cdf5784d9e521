(** A whole run of hqca/tomography/_qubit_tomography.py with tomo_type='rdm' and with tomo_type='pauli', on a state vector
    backend.  The lists of elements, [simulate] and the transfer between settings are inherited from StandardTomography
    (RdmEnum, PlanModel); left out are the same parts as there, and simplify='comparison'. *)
From Coq Require Import Bool List Arith.
From Verif Require Import Coeff MatSpec FockSpec PauliModel OperatorModel CircuitSpec CircuitModel TomoModel
  RdmModel RdmEnum ItModel PlanModel QRdmModel CircModel2.
Import ListNotations.

Section Qtom.
  Variable K : CoefRing.
  Local Open Scope coef_scope.
  Notation pop := (list (list pauli * K)).
  Variable rt : K.
  Variable tiny : K -> bool.

  (** l.366-377: the strings are grouped as they are, without the setting Z..Z of StandardTomography. *)
  Definition qubit_plan (simp : simplify_option) (paulis : list (list pauli)) : option (list (list pauli) * pdict) :=
    match simp with
    | Simplify rel colour => simplify_tomography rel paulis (colour paulis)
    | Plain => Some (paulis, fold_left (fun d p => pset p p d) paulis [])
    end.

  (** l.221-238: as in _tomography.py.  l.335-365, l.102-149, l.215-265: generate, set, simulate and construct in turn, for 2*N
      qubits, alpha first.  [prep] are the gates of l.110-140.  [None]: the call raises. *)
  Definition qubit_values (simp : simplify_option) (p : nat) (real imag : bool) (N : nat) (prep : list (gate K)) : option (list K) :=
    let elements := rdm_elements p real imag (seq 0 N) (seq N N) in
    match option_seq (map (fun r => generate_qrdme r real imag (2 * N)) elements) with
    | None => None
    | Some ops =>
        let qops := map qubit_transform ops in
        match qubit_plan simp (collect qops) with
        | None => None
        | Some (settings, mapping) =>
            match run_settings rt (2 * N) prep settings with
            | None => None
            | Some counts => option_seq (map (fun op => element_value tiny (2 * N) mapping counts op 0) qops)
            end
        end
    end.
  (** l.216-265 ([construct()]). *)
  Definition qubit_tomography (simp : simplify_option) (p : nat) (real imag : bool) (N : nat) (prep : list (gate K)) : option (tensor K) :=
    match qubit_values simp p real imag N prep with
    | None => None
    | Some values =>
        Some (fold_left (fun t e => add_qelement p (fst e) (snd e) t) (combine (rdm_elements p real imag (seq 0 N) (seq N N)) values) (tzero (K := K)))
    end.
  (** l.267-301 ([construct(compact=True)]): the vector of the values. *)
  Definition qubit_compact := qubit_values.

  (** tomo_type='pauli': l.313-333 (generate), l.180-194 (construct with vector=True: a list) and l.195-212 (an Operator).
      [1j**imag] is i for imag=True. *)
  Definition pauli_factor (imag : bool) : K := if imag then ci else 1.
  Definition pauli_values (simp : simplify_option) (imag : bool) (Nq : nat) (paulis : list (list pauli)) (prep : list (gate K)) : option (list K) :=
    match qubit_plan simp paulis with
    | None => None
    | Some (settings, mapping) =>
        match run_settings rt Nq prep settings with
        | None => None
        | Some counts =>
            option_seq (map (fun s =>
              match pget s mapping with
              | None => None
              | Some get => match it_measure tiny Nq counts get s with None => None | Some z => Some (pauli_factor imag * z) end
              end) paulis)
        end
    end.
  Definition pauli_operator (simp : simplify_option) (imag : bool) (Nq : nat) (paulis : list (list pauli)) (prep : list (gate K)) : option pop :=
    match pauli_values simp imag Nq paulis prep with
    | None => None
    | Some values => Some (fold_left (fun o e => op_add_string pauli_list_eqb o e) (combine paulis values) [])
    end.
End Qtom.
Arguments qubit_values {_}. Arguments qubit_tomography {_}. Arguments qubit_compact {_}. Arguments pauli_factor {_}.
Arguments pauli_values {_}. Arguments pauli_operator {_}.
