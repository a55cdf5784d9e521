(** C16, C17, C19: Parity, Bravyi-Kitaev and parity-qubit-particle transforms. *)
From Coq Require Import Bool List ZArith Arith.
From Verif Require Import Coeff MatSpec OpSpec FockSpec OperatorModel TransformModel
  PauliModel EncSpec EncProofs ParityProofs BKProofs ParityMore.
Import ListNotations.

(** The encodings are changes of basis: they keep the length and are injective. *)
Theorem C16_encoding_is_a_basis_partial :
  forall n m : bits, length (parity_enc n) = length n /\
    (length n = length m -> parity_enc n = parity_enc m -> n = m).
Proof. exact parity_enc_basis. Qed.
Print Assumptions C16_encoding_is_a_basis_partial.

Theorem C17_encoding_is_a_basis_partial :
  forall n m : bits, length (bk_enc n) = length n /\
    (length n = length m -> bk_enc n = bk_enc m -> n = m).
Proof. exact bk_enc_basis. Qed.
Print Assumptions C17_encoding_is_a_basis_partial.

Example C16_encoding_case :
  parity_enc [true; false; true; true; false] = [true; true; false; true; true]
  /\ bk_enc [true; false; true; true; false; true; true] = [true; true; true; true; false; true; true].
Proof. split; reflexivity. Qed.

(** C16 is false: the factors are multiplied in the wrong order, so two ladder letters give the
    negative of the string. *)
Theorem C16_parity_refuted :
  exists (s : fstr) (c : GaussQ),
    small (cpow chalf (length (flat 0 s)) * c)%K = false /\
    ~ in_basis parity_enc (length s) (omat (parity_string (s, c))) (mscal c (fstr_mat s)).
Proof. exact parity_refuted. Qed.
Print Assumptions C16_parity_refuted.

(** What holds: the result is right up to the sign (-1)^(k(k-1)/2), k the number of '+' and '-'; and
    it has 2^(letters) distinct strings.  Missing for C16: the sign. *)
Theorem C16_parity_partial :
  forall (K : CoefRing) (s : fstr) (c : K),
    small (cpow chalf (length (flat 0 s)) * c)%K = false ->
    in_basis parity_enc (length s) (omat (parity_string (s, c)))
      (mscal (sgn (rev_odd (n_ladder s)) * c)%K (fstr_mat s)) /\
    NoDup (keys (parity_string (s, c))) /\
    (forall e, In e (parity_string (s, c)) -> length (fst e) = length s) /\
    length (parity_string (s, c)) = 2 ^ length (flat 0 s).
Proof. exact parity_string_spec. Qed.
Print Assumptions C16_parity_partial.

Example C16_case :
  small (cpow chalf (length (flat 0 [Some Cre; Some Par; Some Ann])) * gz 8)%K = false
  /\ rev_odd (n_ladder [Some Cre; Some Par; Some Ann]) = true
  /\ length (parity_string (K := GaussQ) ([Some Cre; Some Par; Some Ann], gz 8)) = 8.
Proof. repeat split; vm_compute; reflexivity. Qed.

(** C17 is false for the same reason. *)
Theorem C17_bravyi_kitaev_refuted :
  exists (s : fstr) (c : GaussQ) (R : list (list pauli * GaussQ)),
    small (cpow chalf (length (flat 0 s)) * c)%K = false /\ bk_string (s, c) = Some R /\
    ~ in_basis bk_enc (length s) (omat R) (mscal c (fstr_mat s)).
Proof. exact bk_refuted. Qed.
Print Assumptions C17_bravyi_kitaev_refuted.

(** Every size, powers of two or not.  Missing for C17: the sign. *)
Theorem C17_bravyi_kitaev_partial :
  forall (K : CoefRing) (s : fstr) (c : K),
    s <> [] -> small (cpow chalf (length (flat 0 s)) * c)%K = false ->
    exists R, bk_string (s, c) = Some R /\
      in_basis bk_enc (length s) (omat R) (mscal (sgn (rev_odd (n_ladder s)) * c)%K (fstr_mat s)) /\
      NoDup (keys R) /\
      (forall e, In e R -> length (fst e) = length s) /\
      length R = 2 ^ length (flat 0 s).
Proof. exact bk_string_spec. Qed.
Print Assumptions C17_bravyi_kitaev_partial.

Example C17_case :
  small (cpow chalf (length (flat 0 [None; None; Some Cre; None; None])) * gz 2)%K = false
  /\ bk_string (K := GaussQ) ([None; None; Some Cre; None; None], gz 2)
     = Some [([PI; PZ; PX; PX; PI], gz 1); ([PI; PZ; PY; PX; PI], gzi 0 (-1))].
Proof. split; vm_compute; reflexivity. Qed.

(** C19 is false: '-' is mapped to (X + 3iY)/2, whose square is not zero. *)
Theorem C19_ladder_refuted :
  exists (N q : nat), q < N /\
    ~ meq N (mmul N (omat (parity_qp_string (single N q Ann, @c1 GaussQ)))
                    (omat (parity_qp_string (single N q Ann, @c1 GaussQ)))) mzero.
Proof. exact qp_refuted. Qed.
Print Assumptions C19_ladder_refuted.

(** What holds, for every string without '-': the result is the one of the parity transform with every
    '+' read as '-'.  So a '+' is mapped to a ladder matrix, but the one of the lowering operator, and
    the letters 'p' and 'h' are right.  Missing: '-', and '+' as a raising operator. *)
Theorem C19_without_minus_partial :
  forall (K : CoefRing) (s : fstr) (c : K),
    (forall x, In x s -> x <> Some Ann) ->
    parity_qp_string (s, c) = parity_string (map (option_map (fun o => match o with Cre => Ann | x => x end)) s, c).
Proof. exact qp_string. Qed.
Print Assumptions C19_without_minus_partial.

Theorem C19_plus_is_lowering_partial :
  forall (K : CoefRing) (N q : nat), q < N ->
    in_basis parity_enc N (omat (parity_qp_string (single N q Cre, @c1 K))) (fock_mat [(Ann, q)]).
Proof. exact qp_plus. Qed.
Print Assumptions C19_plus_is_lowering_partial.

Example C19_case :
  (forall x, In x [Some Cre; None; Some Par] -> x <> Some Ann)
  /\ parity_qp_string (K := GaussQ) ([Some Cre; None], gz 2) = [([PX; PX], gz 1); ([PY; PX], gzi 0 1)].
Proof. split; [intros x [<-|[<-|[<-|[]]]]; discriminate|vm_compute; reflexivity]. Qed.
