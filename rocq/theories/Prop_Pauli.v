(** C01, C02: PauliString. *)
From Coq Require Import Bool List ZArith.
From Verif Require Import Coeff MatSpec PauliModel PauliProofs.
Import ListNotations.

(** C01. Multiplying two PauliStrings multiplies the matrices they denote, phase included. *)
Theorem C01_pauli_product_is_matrix_product :
  forall (K : CoefRing) (n : nat) (x y : list pauli * K),
    length (fst x) = n -> length (fst y) = n ->
    length (fst (pauli_mul x y)) = n /\
    meq n (mscal (snd (pauli_mul x y)) (pmat (fst (pauli_mul x y))))
          (mmul n (mscal (snd x) (pmat (fst x))) (mscal (snd y) (pmat (fst y)))).
Proof. exact pauli_mul_matrix. Qed.
Print Assumptions C01_pauli_product_is_matrix_product.

(** A phase different from 1: (2 XYZ)(3i YYX) = 6 XYZ.YYX = 6i.i.i... computed by the model. *)
Example C01_case :
  pauli_mul (K := GaussQ) ([PX; PY; PZ], gz 2) ([PY; PY; PX], gzi 0 3) = ([PZ; PI; PY], gzi 0 (-6))
  /\ length [PX; PY; PZ] = 3 /\ length [PY; PY; PX] = 3.
Proof. repeat split; vm_compute; reflexivity. Qed.

(** C02. Letters -> vectors -> letters, and vectors -> letters -> vectors. *)
Theorem C02_letters_round_trip : forall s : list pauli, construct (lvec s) (rvec s) = s.
Proof. exact construct_vecs. Qed.
Print Assumptions C02_letters_round_trip.

Theorem C02_vectors_round_trip : forall l r : list bool, length l = length r ->
  lvec (construct l r) = l /\ rvec (construct l r) = r.
Proof. exact vecs_construct. Qed.
Print Assumptions C02_vectors_round_trip.

Example C02_case : lvec [PX; PY; PZ; PI] = [true; true; false; false]
  /\ rvec [PX; PY; PZ; PI] = [false; true; true; false]
  /\ construct [true; true; false; false] [false; true; true; false] = [PX; PY; PZ; PI].
Proof. repeat split. Qed.

(** C60. Adding two PauliStrings with the same letters adds the matrices; with different letters it stops. *)
Theorem C60_string_sum :
  forall (K : CoefRing) (n : nat) (x y : list pauli * K), length (fst x) = n ->
    (fst x = fst y -> exists z, pauli_add x y = Some z /\
       meq n (mscal (snd z) (pmat (fst z))) (madd (mscal (snd x) (pmat (fst x))) (mscal (snd y) (pmat (fst y))))) /\
    (fst x <> fst y -> pauli_add x y = None).
Proof. exact pauli_add_matrix. Qed.
Print Assumptions C60_string_sum.
(** C60. Multiplying by a number scales the matrix. *)
Theorem C60_string_scale :
  forall (K : CoefRing) (n : nat) (x : list pauli * K) (a : K),
    meq n (mscal (snd (pauli_scale x a)) (pmat (fst (pauli_scale x a)))) (mscal a (mscal (snd x) (pmat (fst x)))).
Proof. exact pauli_scale_matrix. Qed.
Print Assumptions C60_string_scale.
(** C60. == compares the letters. *)
Theorem C60_string_eq :
  forall (K : CoefRing) (x y : list pauli * K), pauli_eq x y = true <-> fst x = fst y.
Proof. exact pauli_eq_letters. Qed.
Print Assumptions C60_string_eq.
Example C60_case : pauli_add (K := GaussQ) ([PX; PY], gz 2) ([PX; PY], gzi 1 3) = Some ([PX; PY], gzi 3 3)
  /\ pauli_add (K := GaussQ) ([PX; PY], gz 2) ([PX; PX], gz 1) = None.
Proof. split; vm_compute; reflexivity. Qed.
