(** C121: the matrix of a qubit Hamiltonian. *)
From Coq Require Import Bool List Arith ZArith Lia.
From Verif Require Import Coeff MatSpec PauliModel QHamModel QHamProofs Sqrt2.
Import ListNotations.
Local Open Scope nat_scope.

(** With the order equal to the number of qubits the stored matrix is the matrix of the given operator, shorter
    strings being completed with identities. *)
Theorem C121_matrix : forall (K : CoefRing) (N : nat) (o : list (list pauli * K)),
  (forall e, In e o -> length (fst e) <= N) ->
  exists M, qham_matrix N N o = Some M /\
    meq N M (omat (map (fun e => (fst e ++ repeat PI (N - length (fst e)), snd e)) o)).
Proof. exact qham_spec. Qed.
Print Assumptions C121_matrix.

(** A letter X, Y or Z past the last qubit is refused. *)
Theorem C121_too_long : forall (K : CoefRing) (N order : nat) (o : list (list pauli * K)) s c,
  In (s, c) o -> (exists k, N <= k /\ nth k s PI <> PI) -> qham_matrix N order o = None.
Proof. exact qham_long. Qed.
Print Assumptions C121_too_long.

Example C121_case :
  match qham_matrix (K := GaussQ) 2 2 [([PX; PZ], gz 3); ([PY], gz 2)] with
  | Some M => ceqb (M [false; true] [true; true]) (gzi (-3) (-2)) && ceqb (M [true; false] [false; false]) (gzi 3 2)
  | None => false
  end = true
  /\ qham_matrix (K := GaussQ) 2 2 [([PX; PI; PZ], gz 3)] = None.
Proof. split; [vm_compute; reflexivity|reflexivity]. Qed.
