(** C55, C56: partial trace and comparison of strings. *)
From Coq Require Import Bool List ZArith.
From Verif Require Import Coeff MatSpec FockSpec PauliModel FermiModel TraceSpec TraceProofs.
Import ListNotations.

(** C55 is false of the code: tracing out the only qubit of the identity string gives the number 1,
    while the trace of the 2x2 identity is 2. *)
Theorem C55_partial_trace_refuted :
  exists (x : list pauli * GaussQ) (qb : list nat),
    let mask := mask_of qb (length (fst x)) in
    let y := pauli_partial_trace x qb in
    ~ meq (n_kept mask) (mscal (snd y) (pmat (fst y))) (ptrace mask (mscal (snd x) (pmat (fst x)))).
Proof.
  exists ([PI], gz 1), [0]. cbn zeta. intro H. specialize (H [] [] eq_refl eq_refl).
  vm_compute in H. discriminate H.
Qed.
Print Assumptions C55_partial_trace_refuted.

(** C55 up to the factor: for every string and every set of qubits the partial trace of its matrix is
    2^k times the returned string, k being the number of traced qubits.  Missing: the factor. *)
Theorem C55_partial_trace_partial :
  forall (K : CoefRing) (x : list pauli * K) (qb : list nat),
    let mask := mask_of qb (length (fst x)) in
    let y := pauli_partial_trace x qb in
    length (fst y) = n_kept mask /\
    meq (n_kept mask) (mscal (cpow (c1 + c1)%K (n_traced mask)) (mscal (snd y) (pmat (fst y))))
      (ptrace mask (mscal (snd x) (pmat (fst x)))).
Proof. exact partial_trace_spec. Qed.
Print Assumptions C55_partial_trace_partial.

Example C55_case : pauli_partial_trace (K := GaussQ) ([PX; PI; PY; PI], gz 3) [3; 1] = ([PX; PY], gz 3)
  /\ pauli_partial_trace (K := GaussQ) ([PX; PI; PY; PI], gz 3) [2] = ([PX; PI; PI], gz 0).
Proof. split; vm_compute; reflexivity. Qed.

(** C56 is false of the code: a string differs from itself. *)
Theorem C56_inequality_refuted :
  exists (x : list pauli * GaussQ) (y : fstr * GaussQ),
    pauli_eq x x = true /\ pauli_ne x x = true /\ fermi_eq y y = true /\ fermi_ne y y = true.
Proof. exists ([PX], gz 1), ([Some Cre], gz 1). repeat split; vm_compute; reflexivity. Qed.
Print Assumptions C56_inequality_refuted.

(** C56, exactly what holds: [==] compares the letters, and [!=] is its negation only for strings with
    equal letters and different coefficients.  Missing: all other pairs. *)
Theorem C56_pauli_partial :
  forall (K : CoefRing) (x y : list pauli * K),
    (pauli_eq x y = true <-> fst x = fst y) /\
    (pauli_ne x y = negb (pauli_eq x y) <-> fst x = fst y /\ snd x <> snd y).
Proof. exact pauli_ne_spec. Qed.
Print Assumptions C56_pauli_partial.

Theorem C56_fermi_partial :
  forall (K : CoefRing) (x y : fstr * K),
    (fermi_eq x y = true <-> fst x = fst y) /\
    (fermi_ne x y = negb (fermi_eq x y) <-> fst x = fst y /\ snd x <> snd y).
Proof. exact fermi_ne_spec. Qed.
Print Assumptions C56_fermi_partial.

Example C56_case : pauli_ne (K := GaussQ) ([PX], gz 1) ([PX], gz 2) = false
  /\ pauli_eq (K := GaussQ) ([PX], gz 1) ([PX], gz 2) = true
  /\ pauli_ne (K := GaussQ) ([PX], gz 1) ([PZ], gz 1) = false.
Proof. repeat split; vm_compute; reflexivity. Qed.
