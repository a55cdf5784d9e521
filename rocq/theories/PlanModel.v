(** A whole run of hqca/tomography/_tomography.py on a state vector backend: the measurement plan
    ([_generate_pauli_measurements]), the circuits ([set], [simulate]), the values of the elements and the array
    ([construct], [_build_fermionic_RDM]), and the energy acse/_store_acse.py ([evaluate]) computes from it.

    Left out: layout and transpilation, ancillas ([Nq_tot] is [Nq]), the post-processing of l.227-243, [initial_clifford]
    and the option simplify='comparison'.  A state vector is indexed by outcome strings in qubit order, so the
    array of the SDK is [map (fun b => psi (rev b)) (bin_strings N)]. *)
From Coq Require Import Bool List Arith.
From Verif Require Import Coeff MatSpec FockSpec PauliModel OperatorModel TransformModel CircuitSpec CircuitModel TomoModel
  RdmModel RdmEnum HamModel ItModel.
Import ListNotations.

(** l.607-611 ([ztype]). *)
Definition ztype (s : list pauli) : bool := forallb (fun p => pauli_eqb p PI || pauli_eqb p PZ) s.

(** [paulis.pop(n)]. *)
Fixpoint pop_at {A} (n : nat) (l : list A) : list A :=
  match l, n with
  | [], _ => []
  | _ :: l', O => l'
  | x :: l', S n' => x :: pop_at n' l'
  end.
(** l.614-616: [for n in reversed(range(len(paulis)))]; [n] positions are left. *)
Fixpoint pop_z (n : nat) (paulis zpauli : list (list pauli)) : list (list pauli) * list (list pauli) :=
  match n with
  | O => (paulis, zpauli)
  | S m =>
      match nth_error paulis m with
      | Some p => if ztype p then pop_z m (pop_at m paulis) (zpauli ++ [p]) else pop_z m paulis zpauli
      | None => pop_z m paulis zpauli
      end
  end.

(** The options of l.618-628: simplify=True with a relation and the colouring of the graph library, as a function
    of the vertices, or no simplification. *)
Inductive simplify_option := Simplify (rel : relation) (colour : list (list pauli) -> list nat) | Plain.

(** l.618-632: the list [self.op] and the dictionary [self.mapping]. *)
Definition measurement_plan (simp : simplify_option) (real : bool) (Nq : nat) (paulis : list (list pauli))
  : option (list (list pauli) * pdict) :=
  let (ps, zs) := if real then pop_z (length paulis) paulis [] else (paulis, []) in
  match match simp with
        | Simplify rel colour => simplify_tomography rel ps (colour ps)
        | Plain => Some (ps, fold_left (fun d p => pset p p d) ps [])
        end with
  | None => None
  | Some (ops, d) =>
      if real then Some (ops ++ [repeat PZ Nq], fold_left (fun d z => pset z (repeat PZ Nq) d) zs d)
      else Some (ops, d)
  end.

Section Plan.
  Variable K : CoefRing.
  Local Open Scope coef_scope.
  Notation pop := (list (list pauli * K)).

  (** l.600-605: the strings of all elements, each once, in order of appearance. *)
  Definition collect (qops : list pop) : list (list pauli) :=
    fold_left (fun paulis op =>
      fold_left (fun ps e => if existsb (pstr_eqb (fst e)) ps then ps else ps ++ [fst e]) op paulis) qops [].

  Variable rt : K.
  Variable tiny : K -> bool.

  (** The state vector of a circuit started in |0..0>, as an SDK array. *)
  Definition sdk_array (N : nat) (psi : bits -> K) : list K := map (fun b => psi (rev b)) (bin_strings N).

  (** l.144-203 and l.753-802: one circuit is run, the first one; the others are obtained from its state vector by
      undoing its basis change and applying theirs.  [prep] are the gates of l.151-188 ([init] and [Q.apply]).
      [None]: IndexError of [self.circuits[0]]. *)
  Definition run_settings (N : nat) (prep : list (gate K)) (settings : list (list pauli))
    : option (list (list pauli * list K)) :=
    match settings with
    | [] => None
    | c0' :: rest =>
        let psi := mvec N (cmat rt N (prep ++ basis_gates 0 c0')) (fun x => if bits_eqb (repeat false N) x then 1 else 0) in
        Some ((c0', sdk_array N psi)
              :: map (fun c => (c, sdk_array N (mvec N (cmat rt N (undo_gates 0 c0' ++ redo_gates 0 c)) psi))) rest)
    end.

  (** l.256-270: the value of one element; [None] is a KeyError. *)
  Fixpoint element_value (N : nat) (mapping : pdict) (counts : list (list pauli * list K)) (op : pop) (temp : K) : option K :=
    match op with
    | [] => Some temp
    | (s, c) :: op' =>
        if forallb (fun p => pauli_eqb p PI) s then element_value N mapping counts op' (temp + c)
        else
          match pget s mapping with
          | None => None
          | Some get =>
              match it_measure tiny N counts get s with
              | None => None
              | Some z => element_value N mapping counts op' (temp + z * c)
              end
          end
    end.

  (** generate, set, simulate and construct in turn, for 2*N spin orbitals, alpha first; [tr] is the transform. *)
  Definition tomography (tr : list (fstr * K) -> pop) (simp : simplify_option) (p : nat) (real imag : bool) (N : nat)
      (prep : list (gate K)) : option (tensor K) :=
    let elements := rdm_elements p real imag (seq 0 N) (seq N N) in
    match option_seq (map (fun r => generate_rdme r real imag (2 * N)) elements) with
    | None => None
    | Some ops =>
        let qops := map tr ops in
        match measurement_plan simp real (2 * N) (collect qops) with
        | None => None
        | Some (settings, mapping) =>
            match run_settings (2 * N) prep settings with
            | None => None
            | Some counts =>
                match option_seq (map (fun op => element_value (2 * N) mapping counts op 0) qops) with
                | None => None
                | Some values => Some (fold_left (fun t e => add_element p (fst e) (snd e) t) (combine elements values) (tzero (K := K)))
                end
            end
        end
    end.

  (** acse/_store_acse.py l.68-71: [rdm.observable(self.H.matrix) + self.H._en_c]; the call [rdm.contract()] before it
      fixes the layout of the array that [observable] reads (see C90). *)
  Definition evaluate (r : nat) (H : nat -> nat -> nat -> nat -> K) (en_c : K) (rdm : tensor K) : K :=
    observable r H (fun a b c d => rdm [a; b; c; d]) + en_c.
End Plan.
Arguments collect {_}. Arguments sdk_array {_}. Arguments run_settings {_}. Arguments element_value {_}.
Arguments tomography {_}. Arguments evaluate {_}.
