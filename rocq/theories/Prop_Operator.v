(** C03, C04: Operator sums and products (value level). *)
From Coq Require Import Bool List ZArith Arith.
From Verif Require Import Coeff MatSpec OpSpec PauliModel PauliProofs OperatorModel OperatorProofs OpTotal
  TransformModel TwoTerm.
Import ListNotations.
Local Open Scope coef_scope.

(** C03. The sum of two Operators holds exactly the strings of the operands whose summed coefficient
    is not small, each once, with that sum as coefficient.  [key] is any string class, [keqb] its
    equality. *)
Theorem C03_operator_addition :
  forall (K : CoefRing) (key : Type) (keqb : key -> key -> bool)
    (keqb_spec : forall a b, keqb a b = true <-> a = b)
    (keq : forall a b : key, {a = b} + {a <> b}) (A B : list (key * K)),
    NoDup (keys A) -> NoDup (keys B) ->
    NoDup (keys (op_add keqb A B)) /\
    forall k c, In (k, c) (op_add keqb A B) <->
      (In k (keys A) \/ In k (keys B)) /\ c = total keq k A + total keq k B /\ small c = false.
Proof. exact op_add_spec. Qed.
Print Assumptions C03_operator_addition.

Example C03_case :
  op_add pauli_list_eqb [([PX], gz 1); ([PY], gz 2)] [([PZ], gz 3); ([PX], gz (-1))]
  = [([PY], gz 2); ([PZ], gz 3)]
  /\ NoDup (keys [([PX], gz 1); ([PY], gz 2)]).
Proof. split; [vm_compute; reflexivity|]. repeat constructor; cbn; intuition discriminate. Qed.

(** C04. The product of two Pauli Operators on n qubits denotes the matrix product, up to the terms
    [D] removed by the final clean: each is small, they are disjoint from the kept strings and there
    are at most |A| |B| of them. *)
Theorem C04_operator_product :
  forall (K : CoefRing) (n : nat) (A B : list (list pauli * K)),
    (forall e, In e A -> length (fst e) = n) -> (forall e, In e B -> length (fst e) = n) ->
    exists D : list (list pauli * K),
      (forall e, In e D -> small (snd e) = true) /\
      NoDup (map fst (pop_mul A B ++ D)) /\ (forall e, In e (pop_mul A B ++ D) -> length (fst e) = n) /\
      (length D <= length A * length B)%nat /\
      meq n (madd (omat (pop_mul A B)) (omat D)) (mmul n (omat A) (omat B)).
Proof. exact pop_mul_residual. Qed.
Print Assumptions C04_operator_product.

Example C04_case :
  let A : list (list pauli * GaussQ) := [([PX; PZ], gz 1); ([PY; PI], gz 2)] in
  pop_mul A A = [([PI; PI], gz 5)].
Proof. vm_compute. reflexivity. Qed.
