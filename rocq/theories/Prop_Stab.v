(** C40, C41, C64: the stabilizer routine. *)
From Coq Require Import Bool List ZArith.
From Verif Require Import Coeff MatSpec PauliModel StabModel StabSpec StabProofs4.
Import ListNotations.

(** C41. Check vectors. *)
Theorem C41_string_round_trip : forall N s, length s = N -> check_to_pauli N (pauli_to_check s) = s.
Proof. exact check_round_trip. Qed.
Print Assumptions C41_string_round_trip.
Theorem C41_vector_round_trip : forall N v, length v = 2 * N -> pauli_to_check (check_to_pauli N v) = v.
Proof. exact pauli_round_trip. Qed.
Print Assumptions C41_vector_round_trip.
(** The symplectic product is 0 exactly when the matrices commute. *)
Theorem C41_symplectic_product : forall (K : CoefRing) N a b, length a = N -> length b = N ->
  dot2 (pauli_to_check a) (exchange N (pauli_to_check b)) = false <->
  meq N (mmul N (@pmat K a) (pmat b)) (mmul N (pmat b) (pmat a)).
Proof. exact symplectic_commute. Qed.
Print Assumptions C41_symplectic_product.
Example C41_case : pauli_to_check [PX; PY; PZ] = [false; true; true; true; true; false]
  /\ check_to_pauli 3 [false; true; true; true; true; false] = [PX; PY; PZ]
  /\ dot2 (pauli_to_check [PX; PX]) (exchange 2 (pauli_to_check [PZ; PZ])) = false
  /\ dot2 (pauli_to_check [PX; PX]) (exchange 2 (pauli_to_check [PZ; PI])) = true.
Proof. repeat split. Qed.

(** C40. The strings found commute with every input string, ... *)
Theorem C40_generators_commute : forall (K : CoefRing) N ps, (forall p, In p ps -> length p = N) ->
  forall q p, In q (null_basis N ps) -> In p ps -> meq N (mmul N (@pmat K q) (pmat p)) (mmul N (pmat p) (pmat q)).
Proof. exact null_basis_commutes. Qed.
Print Assumptions C40_generators_commute.
(** ... every string that commutes with the whole input is, up to a power of i, a product of some of them, ... *)
Theorem C40_generators_complete : forall (K : CoefRing) N ps, (forall p, In p ps -> length p = N) ->
  forall q, length q = N -> (forall p, In p ps -> meq N (mmul N (@pmat K q) (pmat p)) (mmul N (pmat p) (pmat q))) ->
  exists bs (x : K), length bs = length (null_basis N ps) /\ cmul (cmul (cmul x x) x) x = c1 /\
    meq N (mprod N (select bs (null_basis N ps))) (mscal x (pmat q)).
Proof. exact null_basis_complete. Qed.
Print Assumptions C40_generators_complete.
(** ... and no product of some of them is a multiple of the identity. *)
Theorem C40_generators_independent : forall (K : CoefRing) N ps, (forall p, In p ps -> length p = N) ->
  forall bs (x : K), length bs = length (null_basis N ps) ->
  meq N (mprod N (select bs (null_basis N ps))) (mscal x mone) -> forall b, In b bs -> b = false.
Proof. exact null_basis_independent. Qed.
Print Assumptions C40_generators_independent.
(** The elimination keeps the row space. *)
Theorem C40_row_space : forall N E, shape (2 * N) E -> forall v, span (2 * N) E v <-> span (2 * N) (fst (gaussian_elimination N E)) v.
Proof. exact row_space. Qed.
Print Assumptions C40_row_space.
(** The second input needs row exchanges and has a free column of each kind. *)
Example C40_case : null_basis 2 [[PI; PI]; [PZ; PI]; [PI; PZ]; [PX; PX]] = [[PZ; PZ]] /\
  null_basis 3 [[PX; PX; PI]; [PI; PX; PX]; [PZ; PZ; PZ]] = [[PZ; PZ; PZ]; [PX; PX; PI]; [PX; PI; PX]].
Proof. split; reflexivity. Qed.

(** C65. The strings found need not commute with each other, so they are not in general a set of symmetries that can be
    used together: for the single input ZI the list is ZI, IZ, IX. *)
Theorem C65_generators_mutually_commute_refuted : exists N ps q q', (forall p, In p ps -> length p = N) /\
  In q (null_basis N ps) /\ In q' (null_basis N ps) /\ ~ meq N (mmul N (@pmat GaussQ q) (pmat q')) (mmul N (pmat q') (pmat q)).
Proof.
  exists 2, [[PZ; PI]], [PI; PZ], [PI; PX]. split; [intros p [<-|[]]; reflexivity|].
  split; [vm_compute; tauto|]. split; [vm_compute; tauto|]. intro H.
  apply (symplectic_commute GaussQ 2 [PI; PZ] [PI; PX] eq_refl eq_refl) in H. vm_compute in H. discriminate.
Qed.
Print Assumptions C65_generators_mutually_commute_refuted.

(** C64. Every input string is written as a product of the reduced strings: the loop stops (three passes suffice, however
    large the input), only reduced strings are used, and their product in the stored order is the stored coefficient times
    the string.  Every string other than the identity gets an entry. *)
Theorem C64_decomposition : forall (K : CoefRing) N ps fuel, (forall p, In p ps -> length p = N) -> 3 <= fuel ->
  (forall e, In e (@paulis_table K fuel N ps) -> exists s ss x, e = Some (s, (ss, x)) /\
     (s = repeat PI N \/ In s ps) /\
     (forall s', In s' ss -> In s' (map (check_to_pauli N) (reduced N (fst (gaussian_elimination N (parity_matrix N ps)))))) /\
     meq N (mprod N ss) (mscal x (pmat s))) /\
  (forall p, In p ps -> negb (forallb (fun x => pauli_eqb x PI) p) = true -> exists ss x, In (Some (p, (ss, x))) (@paulis_table K fuel N ps)).
Proof. exact paulis_table_spec. Qed.
Print Assumptions C64_decomposition.

(** YYZ = i . ZZZ . XZI . IYI, and likewise for the others. *)
Example C64_case : map (fun e => match e with Some (s, (ss, _)) => Some (s, ss) | None => None end)
    (@paulis_table GaussQ 3 3 [[PX; PX; PI]; [PI; PX; PX]; [PZ; PZ; PZ]; [PY; PY; PZ]; [PY; PI; PZ]]) =
  [Some ([PX; PX; PI], [[PX; PZ; PI]; [PI; PY; PI]]); Some ([PI; PX; PX], [[PI; PY; PI]; [PI; PZ; PX]]);
   Some ([PZ; PZ; PZ], [[PZ; PZ; PZ]]); Some ([PY; PY; PZ], [[PZ; PZ; PZ]; [PX; PZ; PI]; [PI; PY; PI]]);
   Some ([PY; PI; PZ], [[PZ; PZ; PZ]; [PX; PZ; PI]])].
Proof. vm_compute. reflexivity. Qed.
