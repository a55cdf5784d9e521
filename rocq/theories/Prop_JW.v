(** C12-C15: Jordan-Wigner and Qubit transforms. *)
From Coq Require Import Bool List ZArith Arith.
From Verif Require Import Coeff MatSpec OpSpec FockSpec OperatorModel TransformModel
  JWProofs QubitProofs AdjProofs TransformLin PauliModel.
Import ListNotations.

(** C12. The Jordan-Wigner image of a fermionic string has the Fock-space matrix of the string.  The
    hypothesis says that c / 2^k (k letters) is above the cleaning threshold. *)
Theorem C12_jordan_wigner_exact :
  forall (K : CoefRing) (s : fstr) (c : K),
    small (cpow chalf (length (flat 0 s)) * c)%K = false ->
    meq (length s) (omat (jw_string (s, c))) (mscal c (fstr_mat s)).
Proof. exact jw_exact. Qed.
Print Assumptions C12_jordan_wigner_exact.

(** It has 2^k distinct strings. *)
Theorem C12_jordan_wigner_size :
  forall (K : CoefRing) (s : fstr) (c : K),
    small (cpow chalf (length (flat 0 s)) * c)%K = false ->
    NoDup (keys (jw_string (s, c))) /\ length (jw_string (s, c)) = 2 ^ length (flat 0 s).
Proof. exact jw_size. Qed.
Print Assumptions C12_jordan_wigner_size.

Example C12_case :
  small (cpow chalf (length (flat 0 [Some Cre; None; Some Ann])) * gz 4)%K = false
  /\ jw_string (K := GaussQ) ([Some Cre; None; Some Ann], gz 4)
     = [([PY; PZ; PX], gzi 0 (-1)); ([PX; PZ; PX], gz 1); ([PY; PZ; PY], gz 1); ([PX; PZ; PY], gzi 0 1)].
Proof. split; vm_compute; reflexivity. Qed.

(** C13. Canonical anticommutation relations of the images of the ladder operators. *)
Theorem C13_jordan_wigner_CAR :
  forall (K : CoefRing) (N i j : nat), i < N -> j < N ->
    let a k : mat K := omat (jw_string (single N k Ann, c1)) in
    let a' k : mat K := omat (jw_string (single N k Cre, c1)) in
    meq N (anticomm N (a i) (a j)) mzero /\
    meq N (anticomm N (a' i) (a' j)) mzero /\
    meq N (anticomm N (a i) (a' j)) (if Nat.eqb i j then mone else mzero) /\
    meq N (madj (a i)) (a' i).
Proof. exact jw_car. Qed.
Print Assumptions C13_jordan_wigner_CAR.

Example C13_case : 1 < 3 /\ 2 < 3.
Proof. split; repeat constructor. Qed.

(** C14. Operator.transform adds the images of the strings, up to small dropped terms. *)
Theorem C14_transform_is_linear :
  forall (K : CoefRing) (key key' : Type) (keqb : key' -> key' -> bool)
    (keqb_spec : forall a b, keqb a b = true <-> a = b)
    (keq : forall a b : key', {a = b} + {a <> b})
    (T : key * K -> list (key' * K)) (o : list (key * K)),
    exists D : list (key' * K),
      (forall e, In e D -> small (snd e) = true) /\
      (length D <= list_sum (map (fun e => length (T e)) o))%nat /\
      NoDup (keys (op_transform keqb T o)) /\
      (forall e, In e (op_transform keqb T o) -> small (snd e) = false) /\
      (forall k, total keq k (op_transform keqb T o) + total keq k D
                 = sumK (map (fun e => total keq k (T e)) o))%K.
Proof. exact op_transform_spec. Qed.
Print Assumptions C14_transform_is_linear.

(** The parallel branch: whatever consecutive chunks the pool hands to its workers, the result is the
    one of the serial loop. *)
Theorem C14_pool_equals_serial :
  forall (K : CoefRing) (key key' : Type) (keqb : key' -> key' -> bool)
    (T : key * K -> list (key' * K)) (chunks : list (list (key * K))),
    op_transform_pool keqb T chunks = op_transform keqb T (concat chunks).
Proof. exact op_transform_pool_eq. Qed.
Print Assumptions C14_pool_equals_serial.

(** Jordan-Wigner of a fermionic Operator on N modes. *)
Theorem C14_jordan_wigner_operator :
  forall (K : CoefRing) (N : nat) (o : list (fstr * K)),
    (forall e, In e o -> length (fst e) = N /\ small (cpow chalf (length (flat 0 (fst e))) * snd e)%K = false) ->
    exists D : list (list pauli * K),
      (forall e, In e D -> small (snd e) = true) /\
      (length D <= list_sum (map (fun e => 2 ^ length (flat 0 (fst e))) o))%nat /\
      meq N (madd (omat (jw_operator o)) (omat D))
            (fun r c => sumK (map (fun e => snd e * fstr_mat (fst e) r c)%K o)).
Proof. exact jw_operator_spec. Qed.
Print Assumptions C14_jordan_wigner_operator.

Example C14_case :
  let o : list (fstr * GaussQ) := [([Some Cre; Some Ann], gz 4); ([Some Ann; Some Cre], gz (-4))] in
  (forall e, In e o -> length (fst e) = 2 /\ small (cpow chalf (length (flat 0 (fst e))) * snd e)%K = false)
  /\ jw_operator o = [([PX; PX], gz 2); ([PY; PY], gz 2)].
Proof. split; [intros e [<-|[<-|[]]]; split; vm_compute; reflexivity|vm_compute; reflexivity]. Qed.

(** C15. The Qubit transform denotes the Kronecker product of the local matrices. *)
Theorem C15_qubit_transform_exact :
  forall (K : CoefRing) (s : list qlet) (c : K),
    small (cpow chalf (length (filter (fun x => match x with QO _ => true | _ => false end) s)) * c)%K = false ->
    meq (length s) (omat (qubit_string s c))
      (mscal c (kron (map (fun x => match x with QI => pauli1 PI | QZ => pauli1 PZ | QO o => local2 o end) s))).
Proof. exact qubit_string_spec. Qed.
Print Assumptions C15_qubit_transform_exact.

Example C15_case :
  small (cpow chalf (length (filter (fun x => match x with QO _ => true | _ => false end) [QZ; QO Cre; QI])) * gz 4)%K = false
  /\ qubit_string (K := GaussQ) [QZ; QO Cre; QI] (gz 4) = [([PZ; PX; PI], gz 2); ([PZ; PY; PI], gzi 0 (-2))].
Proof. split; vm_compute; reflexivity. Qed.
