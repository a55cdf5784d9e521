(** C08-C11: FermiString and QubitString. *)
From Coq Require Import Bool List ZArith Arith.
From Verif Require Import Coeff MatSpec FockSpec FermiModel FermiProofs QubitProofs AdjProofs.
Import ListNotations.

(** C08. The constructor returns a string of length N; coefficient times string is the coefficient
    given times the product of the listed operators on Fock space. *)
Theorem C08_fermi_constructor :
  forall (K : CoefRing) (c : K) (l : list (fop * nat)) (N : nat),
    (forall e, In e l -> snd e < N) ->
    exists s c', fermi_new true c l N = Some (s, c') /\ length s = N
      /\ (forall row col, c' * fstr_mat s row col = c * fock_mat l row col)%K
      /\ (c' = c \/ c' = - c \/ c' = 0)%K.
Proof. exact fermi_new_spec. Qed.
Print Assumptions C08_fermi_constructor.

Example C08_case :
  fermi_new (K := GaussQ) true (gz 5) [(Cre, 3); (Ann, 1); (Cre, 1); (Ann, 0)] 4
  = Some ([Some Ann; Some Hol; None; Some Cre], gz (-5))
  /\ fermi_new (K := GaussQ) true (gz 5) [(Cre, 2); (Ann, 1); (Cre, 2)] 4 = Some ([None; None; None; None], gz 0).
Proof. split; vm_compute; reflexivity. Qed.

(** C09. The product of two FermiStrings on N modes denotes the matrix product. *)
Theorem C09_fermi_product :
  forall (K : CoefRing) (x y : fstr * K) (N : nat),
    length (fst x) = N -> length (fst y) = N ->
    exists s c, fermi_mul true x y = Some (s, c) /\ length s = N /\
      meq N (mscal c (fstr_mat s))
            (mmul N (mscal (snd x) (fstr_mat (fst x))) (mscal (snd y) (fstr_mat (fst y)))).
Proof. exact fermi_mul_spec. Qed.
Print Assumptions C09_fermi_product.

Example C09_case :
  fermi_mul (K := GaussQ) true ([Some Cre; None; Some Ann], gz 2) ([Some Ann; Some Cre; None], gzi 0 1)
  = Some ([Some Par; Some Cre; Some Ann], gzi 0 2).
Proof. vm_compute. reflexivity. Qed.

(** C10. H is the adjoint on Fock space... *)
Theorem C10_H_is_adjoint :
  forall (K : CoefRing) (s : fstr) (c : K),
    exists s' c', fermi_H (s, c) = Some (s', c') /\ length s' = length s
      /\ meq (length s) (mscal c' (fstr_mat s')) (madj (mscal c (fstr_mat s))).
Proof. exact fermi_H_adjoint. Qed.
Print Assumptions C10_H_is_adjoint.

(** ...its letters are the adjoint letters, and applying H twice returns the same string and
    coefficient, for every non-zero coefficient. *)
Theorem C10_H_involution :
  forall (K : CoefRing) (s : fstr) (c : K), c <> c0 ->
    exists g, fermi_H (s, c) = Some (map (option_map fadj) s, (cconj c * sgn g)%K)
      /\ fermi_H (map (option_map fadj) s, (cconj c * sgn g)%K) = Some (s, c).
Proof. exact fermi_H_eq. Qed.
Print Assumptions C10_H_involution.

Example C10_case :
  fermi_H (K := GaussQ) ([Some Cre; Some Hol; Some Ann], gzi 1 2) = Some ([Some Ann; Some Hol; Some Cre], gzi (-1) 2).
Proof. vm_compute. reflexivity. Qed.

(** C11. QubitString: the constructor for a non-empty operator list, and the product. *)
Theorem C11_qubit_constructor :
  forall (K : CoefRing) (c : K) (l : list (fop * nat)) (N : nat),
    l <> [] -> (forall e, In e l -> snd e < N) ->
    exists s c', qubit_new c l N = Some (s, c') /\ length s = N
      /\ (forall row col, c' * qstr_mat s row col = c * qubits_mat l row col)%K
      /\ (c' = c \/ c' = 0)%K.
Proof. exact qubit_new_spec. Qed.
Print Assumptions C11_qubit_constructor.

Theorem C11_qubit_product :
  forall (K : CoefRing) (x y : fstr * K) (N : nat),
    length (fst x) = N -> length (fst y) = N -> flat 0 (fst x) ++ flat 0 (fst y) <> [] ->
    exists s c, qubit_mul x y = Some (s, c) /\ length s = N /\
      meq N (mscal c (qstr_mat s))
            (mmul N (mscal (snd x) (qstr_mat (fst x))) (mscal (snd y) (qstr_mat (fst y)))).
Proof. exact qubit_mul_spec. Qed.
Print Assumptions C11_qubit_product.

(** A letter string denotes the Kronecker product of its local matrices. *)
Theorem C11_qubit_string_is_tensor_product :
  forall (K : CoefRing) (s : fstr) (row col : bits),
    length row = length s -> length col = length s ->
    @qstr_mat K s row col =
    kron (map (fun x => match x with None => pauli1 PI | Some o => local2 o end) s) row col.
Proof. exact qstr_kron. Qed.
Print Assumptions C11_qubit_string_is_tensor_product.

(** The excluded case raises in the code. *)
Theorem C11_empty_product_raises :
  forall (K : CoefRing) (N : nat) (c d : K), (c * d)%K <> c0 ->
    qubit_mul (repeat None N, c) (repeat None N, d) = None.
Proof. exact qubit_mul_empty. Qed.
Print Assumptions C11_empty_product_raises.

Example C11_case :
  qubit_mul (K := GaussQ) ([Some Cre; None; Some Ann], gz 2) ([Some Ann; Some Cre; None], gzi 0 1)
  = Some ([Some Par; Some Cre; Some Ann], gzi 0 2)
  /\ qubit_new (K := GaussQ) (gz 1) [(Cre, 2); (Ann, 0)] 3 = Some ([Some Ann; None; Some Cre], gz 1).
Proof. split; vm_compute; reflexivity. Qed.
