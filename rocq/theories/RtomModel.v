(** A whole run of hqca/tomography/_constant_tomography.py (class ReducedTomography, l.86-150) on a state vector backend.  The
    class inherits everything but [_generate_pauli_measurements] from StandardTomography (PlanModel.v), and that method differs only
    in the operators of the elements: generate_sp_rdme (SymModel.v) in place of generate_rdme followed by the transform.
    [reassign_z] (l.132-139) ends in the [**kw] of simplify_tomography and has no effect.

    Left out: the same parts as in PlanModel.v; the transform is Jordan-Wigner (as in SymModel.v). *)
From Coq Require Import Bool List Arith.
From Verif Require Import Coeff MatSpec FockSpec PauliModel OperatorModel TransformModel CircuitSpec CircuitModel TomoModel
  RdmModel RdmEnum SymModel ItModel PlanModel.
Import ListNotations.

Section Reduced.
  Variable K : CoefRing.
  Local Open Scope coef_scope.
  Variable rt : K.
  (** The threshold of the processor; the threshold, rank test and solver of the projection. *)
  Variable tiny_p tiny : K -> bool.
  Variable rank_ok : list (list K) -> bool.
  Variable solve : list (list K) -> list K -> option (list K).

  (** l.95-150, then [set], [simulate] and [construct] of _tomography.py; [alp] are the alpha qubits of the QuantumStorage, here
      the first N of 2*N. *)
  Definition reduced_tomography (simp : simplify_option) (p : nat) (real imag : bool) (N : nat) (prep : list (gate K)) : option (tensor K) :=
    let elements := rdm_elements p real imag (seq 0 N) (seq N N) in
    match option_seq (map (fun r => generate_sp_rdme tiny rank_ok solve r real imag (fun q => q <? N)%nat (2 * N)) elements) with
    | None => None
    | Some qops =>
        match measurement_plan simp real (2 * N) (collect qops) with
        | None => None
        | Some (settings, mapping) =>
            match run_settings rt (2 * N) prep settings with
            | None => None
            | Some counts =>
                match option_seq (map (fun op => element_value tiny_p (2 * N) mapping counts op 0) qops) with
                | None => None
                | Some values => Some (fold_left (fun t e => add_element p (fst e) (snd e) t) (combine elements values) (tzero (K := K)))
                end
            end
        end
    end.
End Reduced.
Arguments reduced_tomography {_}.
