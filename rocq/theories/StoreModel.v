(** Model of hqca/storage/_quantum_storage.py: the mapping of spin orbitals to qubits made by [set_algorithm] and
    the schedule of the measurement filter.  [None]: an exception. *)
From Coq Require Import Bool List Arith ZArith.
Import ListNotations.

(** * set_algorithm, l.53-83, for the molecular and fermionic models *)
Inductive rdm_to_qubit := Default | Alternating | Custom (alp bet : list nat).
(** l.59-67. *)
Definition qs_groups (m : rdm_to_qubit) (No : nat) : list nat * list nat :=
  match m with
  | Default => (map (fun i => i) (seq 0 No), map (fun i => i + No) (seq 0 No))
  | Alternating => (map (fun i => 2 * i) (seq 0 No), map (fun i => 2 * i + 1) (seq 0 No))
  | Custom alp bet => (alp, bet)
  end.
(** l.76-80: [for i in range(n): initial.append(g[i])]. *)
Fixpoint take_from (g : list nat) (i n : nat) (initial : list nat) : option (list nat) :=
  match n with
  | 0 => Some initial
  | S n' =>
      match nth_error g i with
      | None => None
      | Some x => take_from g (S i) n' (initial ++ [x])
      end
  end.
Definition qs_initial (m : rdm_to_qubit) (No Ne_alp Ne_bet : nat) : option (list nat) :=
  let g := qs_groups m No in
  match take_from (fst g) 0 Ne_alp [] with
  | None => None
  | Some i => take_from (snd g) 0 Ne_bet i
  end.

(** * The measurement filter, l.324-403 *)
(** [self.freq], [self.n] and the number of calibrations made; [self._meas_filter] is the last one. *)
Record mfilter := MkFilter { mf_freq : Z; mf_n : Z; mf_made : nat }.
(** l.336-395 when [n==0] (the calibration runs are external), l.397-398 otherwise. *)
Definition mf_update (f : mfilter) : mfilter :=
  if Z.eqb (mf_n f) 0 then MkFilter (mf_freq f) (mf_freq f - 1) (S (mf_made f))
  else MkFilter (mf_freq f) (mf_n f - 1) (mf_made f).
(** l.331-335: [_get_measurement_filter(initial=True, frequency=freq)]. *)
Definition mf_initial (freq : Z) (made : nat) : mfilter := mf_update (MkFilter freq 0 made).
(** l.400-403: reading the property; the result is the number of the calibration that is used. *)
Definition mf_read (f : mfilter) : mfilter * nat := let f' := mf_update f in (f', mf_made f').
(** A number of reads: the calibrations used, in order. *)
Fixpoint mf_reads (n : nat) (f : mfilter) : list nat :=
  match n with
  | 0 => []
  | S n' => let (f', k) := mf_read f in k :: mf_reads n' f'
  end.
