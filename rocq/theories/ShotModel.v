(** A tomography run on a backend that returns counts: hqca/tomography/_tomography.py with the counts branch of
    processes/_process_counts.py.  The plan is that of PlanModel.v.  Left out as there; the printing of l.829-835
    and the measurement filter of l.840-847 (C117) are left out too. *)
From Coq Require Import Bool List Arith ZArith QArith Reals Qreals.
From Verif Require Import Coeff ComplexR MatSpec FockSpec PauliModel OperatorModel TransformModel CircuitSpec CircuitModel TomoModel
  RdmModel RdmEnum HamModel ItModel PlanModel PlanSpec ShotSpec.
Import ListNotations.
Local Open Scope nat_scope.

Notation counts_dict := (list (list bool * Z)).
(** l.849: [self.counts = {i:j for i,j in zip(self.circuit_list,counts)}]: a repeated key keeps the last value. *)
Fixpoint last_counts (c : list pauli) (d : list (list pauli * counts_dict)) : option counts_dict :=
  match d with
  | [] => None
  | (k, v) :: d' =>
      match last_counts c d' with
      | Some w => Some w
      | None => if pauli_list_eqb k c then Some v else None
      end
  end.

(** l.256-270: the value of one element; [None] is a KeyError, an IndexError or a division by zero. *)
Fixpoint element_counts (N : nat) (mapping : pdict) (counts : list (list pauli * counts_dict)) (op : list (list pauli * Cx)) (temp : Cx) : option Cx :=
  match op with
  | [] => Some temp
  | (s, c) :: op' =>
      if forallb (fun p => pauli_eqb p PI) s then element_counts N mapping counts op' (cadd temp c)
      else
        match pget s mapping with
        | None => None
        | Some get =>
            match last_counts get counts with
            | None => None
            | Some d =>
                match measure_counts N s d with
                | None => None
                | Some z => element_counts N mapping counts op' (cadd temp (cmul ((Q2R z, 0%R) : Cx) c))
                end
            end
        end
  end.

(** l.590-632: the operators of the elements, the settings and the mapping. *)
Definition plan_of (tr : list (fstr * Cx) -> list (list pauli * Cx)) (simp : simplify_option) (p : nat) (real imag : bool) (N : nat)
  : option (list (list (list pauli * Cx)) * (list (list pauli) * pdict)) :=
  match option_seq (map (fun r => generate_rdme r real imag (2 * N)) (rdm_elements p real imag (seq 0 N) (seq N N))) with
  | None => None
  | Some ops =>
      let qops := map tr ops in
      match measurement_plan simp real (2 * N) (collect qops) with
      | None => None
      | Some pl => Some (qops, pl)
      end
  end.
(** The settings a run measures. *)
Definition settings_of tr simp p real imag N : option (list (list pauli)) :=
  match plan_of tr simp p real imag N with Some (_, (settings, _)) => Some settings | None => None end.

(** construct (l.246-310) after [simulate] has returned one dictionary per setting. *)
Definition tomography_counts (tr : list (fstr * Cx) -> list (list pauli * Cx)) (simp : simplify_option) (p : nat) (real imag : bool) (N : nat)
    (counts : list counts_dict) : option (tensor Cx) :=
  match plan_of tr simp p real imag N with
  | None => None
  | Some (qops, (settings, mapping)) =>
      match option_seq (map (fun op => element_counts (2 * N) mapping (combine settings counts) op c0) qops) with
      | None => None
      | Some values => Some (fold_left (fun t e => add_element p (fst e) (snd e) t) (combine (rdm_elements p real imag (seq 0 N) (seq N N)) values) (tzero (K := Cx)))
      end
  end.

(** The outcomes of the circuit of a setting (l.151-203: the gates of the ansatz, then the basis change). *)
Definition outcomes (N : nat) (prep : list (gate Cx)) (m : list pauli) : list bool -> R := born (prepared Crt N (prep ++ basis_gates 0 m)).
(** [est] is what the processor returns for each list of n shots. *)
Definition estimates (N n : nat) (s : list pauli) (est : list (list bool) -> R) : Prop :=
  forall l, sample N n l -> exists counts q, tallies l counts /\ measure_counts N s counts = Some q /\ est l = Q2R q.
