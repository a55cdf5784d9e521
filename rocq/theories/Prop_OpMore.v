(** C125-C127: the constructor of Operator, its norm, and the methods that nothing else in the package calls. *)
From Coq Require Import Bool List Arith.
From Verif Require Import Coeff MatSpec OpSpec PauliModel PauliProofs OperatorModel OpMoreModel OpMoreSpec OpMoreProofs.
Import ListNotations.
From Coq Require Import ZArith.
Local Open Scope nat_scope.

(** An operator made from a list of distinct strings has exactly these terms. *)
Theorem C125_distinct_partial :
  forall (K : CoefRing) (key : Type) (keqb : key -> key -> bool), (forall a b, keqb a b = true <-> a = b) ->
  forall l : list (key * K), NoDup (map fst l) -> op_of_list keqb l = l.
Proof. exact of_list_distinct. Qed.
Print Assumptions C125_distinct_partial.

(** A string that occurs twice keeps its last coefficient: the operator is not the sum of the list (here X + X). *)
Theorem C125_list_refuted :
  exists l : list (list pauli * GaussQ), ~ meq 1 (omat (op_of_list pauli_list_eqb l)) (omat l).
Proof.
  exists [([PX], gz 1%Z); ([PX], gz 1%Z)]. intro H. specialize (H [true] [false] eq_refl eq_refl).
  apply (f_equal (fun x => ceqb x (gz 2%Z))) in H. vm_compute in H. discriminate H.
Qed.
Print Assumptions C125_list_refuted.

(** [norm]: the sum of the |c|^2 of which the root is returned, times 2^N, is the squared Hilbert-Schmidt norm of the
    matrix, so that [norm] does not depend on how the operator came about. *)
Theorem C126_norm :
  forall (K : CoefRing) (N : nat) (o : list (list pauli * K)),
    NoDup (map fst o) -> (forall e, In e o -> length (fst e) = N) ->
    hs N (omat o) (omat o) = (pow2 N * op_norm2 o)%K.
Proof. exact norm_spec. Qed.
Print Assumptions C126_norm.

(** [null], with an exact test for zero: true for exactly the operators whose matrix is zero. *)
Theorem C126_null :
  forall (K : CoefRing) (tiny : K -> bool) (N : nat) (o : list (list pauli * K)), (forall x, tiny x = true <-> x = c0) ->
    NoDup (map fst o) -> (forall e, In e o -> length (fst e) = N) -> (op_null tiny o = true <-> meq N (omat o) mzero).
Proof. exact null_spec. Qed.
Print Assumptions C126_null.

(** number*operator, [truncate] and [clifford] raise on every operator that has a term. *)
Theorem C127_raises :
  forall (K : CoefRing) (key : Type) (keqb : key -> key -> bool) (hashable : bool) (x : K) (below : K -> bool) (o : opv K key),
    o <> [] -> op_rmul keqb hashable x o = None /\ op_truncate keqb below o = None.
Proof. intros K key keqb h x below o H. split; [exact (rmul_raises K key keqb h x o H)|exact (truncate_raises K key keqb below o H)]. Qed.
Print Assumptions C127_raises.

Theorem C127_clifford_raises :
  forall (K : CoefRing) (U : list cliff_gate) (o : opv K (list pauli)), o <> [] -> op_clifford U o = None.
Proof. exact clifford_raises. Qed.
Print Assumptions C127_clifford_raises.

(** Its table for S belongs to no change of basis: a matrix that takes every letter to what the table says is zero. *)
Theorem C127_table :
  forall (K : CoefRing) (U : mat K),
    (forall p, meq 1 (mmul 1 U (pmat [p])) (mscal (snd (cliff GS p)) (mmul 1 (pmat [fst (@cliff K GS p)]) U))) -> meq 1 U mzero.
Proof. exact no_S. Qed.
Print Assumptions C127_table.

(** Cases: (1+2i) XY + 3 ZZ; its norm is the root of 14, and the look-up by letters works. *)
Definition c126_op : list (list pauli * GaussQ) := [([PX; PY], gzi 1%Z 2%Z); ([PZ; PZ], gz 3%Z)].
Example C126_case :
  NoDup (map fst c126_op) /\ (forall e, In e c126_op -> length (fst e) = 2) /\
  ceqb (op_norm2 c126_op) (gz 14%Z) = true /\ ceqb (hs 2 (omat c126_op) (omat c126_op)) (gz 56%Z) = true.
Proof.
  split; [|split; [|split; vm_compute; reflexivity]].
  - repeat constructor; cbn; intuition discriminate.
  - intros e [<- | [<- | []]]; reflexivity.
Qed.
Example C125_case : op_of_list pauli_list_eqb c126_op = c126_op.
Proof. reflexivity. Qed.
Example C127_case :
  c126_op <> [] /\ op_rmul pauli_list_eqb true (gz 2%Z) c126_op = None /\ op_truncate pauli_list_eqb (fun x => ceqb x c0) c126_op = None /\
  op_clifford [GH; GH] c126_op = None /\ op_getv pauli_list_eqb true c126_op (VStr [PZ; PZ]) = Some (gz 3%Z).
Proof. split; [discriminate|]. repeat split. Qed.
(** The tables for H and V are those of a change of basis: (X+Z) takes X to Z, Y to -Y, Z to X; (Y-Z) X to -X, Y to -Z, Z to -Y. *)
Theorem C127_H : forall (K : CoefRing) p, let U : mat K := madd (pmat [PX]) (pmat [PZ]) in
  meq 1 (mmul 1 U (pmat [p])) (mscal (snd (cliff GH p)) (mmul 1 (pmat [fst (@cliff K GH p)]) U)) /\ meq 1 (mmul 1 U U) (mscal (cadd c1 c1) mone).
Proof. exact table_H. Qed.
Print Assumptions C127_H.
Theorem C127_V : forall (K : CoefRing) p, let U : mat K := madd (pmat [PY]) (mscal (copp c1) (pmat [PZ])) in
  meq 1 (mmul 1 U (pmat [p])) (mscal (snd (cliff GV p)) (mmul 1 (pmat [fst (@cliff K GV p)]) U)) /\ meq 1 (mmul 1 U U) (mscal (cadd c1 c1) mone).
Proof. exact table_V. Qed.
Print Assumptions C127_V.

Theorem C127_raise_refuted :
  exists o : opv GaussQ (list pauli), o <> [] /\ op_rmul pauli_list_eqb true (gz 2%Z) o = None /\ op_truncate pauli_list_eqb (fun x => ceqb x c0) o = None /\ op_clifford [GH; GH] o = None.
Proof. exists c126_op. split; [discriminate|]. repeat split. Qed.
Print Assumptions C127_raise_refuted.
