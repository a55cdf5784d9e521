(** C18: inverse Jordan-Wigner transform; C09: products of fermionic operators. *)
From Coq Require Import Bool List Arith ZArith.
From Verif Require Import Coeff MatSpec FockSpec FermiModel OperatorModel InvModel InvSpec InvProofs TaperSpec Sqrt2.
Import ListNotations.
Local Open Scope nat_scope.

(** Products of fermionic Operators are total; the result is the matrix product up to dropped terms. *)
Theorem C09_operator_product : forall (K : CoefRing) n (o a : list (fstr * K)),
  (forall e, In e o -> length (fst e) = n) -> (forall e, In e a -> length (fst e) = n) ->
  exists R D, f_op_mul o a = Some R /\ (forall e, In e R -> length (fst e) = n) /\ (forall e, In e D -> small (snd e) = true) /\
    req n n (madd (fmat R) (fmat D)) (mmul n (fmat o) (fmat a)).
Proof. exact f_op_mul_spec. Qed.
Print Assumptions C09_operator_product.
Example C09_operator_case :
  f_op_mul (K := GaussQ) [([Some Cre; None], gz 2); ([Some Ann; None], gz 3)] [([None; Some Ann], gz 1); ([Some Cre; None], gz 1)]
  = Some [([Some Cre; Some Ann], gz 2); ([Some Ann; Some Ann], gz 3); ([Some Hol; None], gz 3)].
Proof. vm_compute. reflexivity. Qed.

(** Exact coefficients.  Missing: X or Y on a qubit that is neither the first nor the last. *)
Theorem C18_inverse_partial : forall (K : CoefRing), (forall x : K, small x = true -> x = c0) -> forall (s : list pauli) (c : K),
  (forall q, q < length s -> nth q s PI = PX \/ nth q s PI = PY -> q = 0 \/ q = length s - 1) ->
  exists R, inverse_string (s, c) = Some R /\ (forall e, In e R -> length (fst e) = length s) /\
    req (length s) (length s) (fmat R) (mscal c (pmat s)).
Proof. exact inverse_string_spec. Qed.
Print Assumptions C18_inverse_partial.
Theorem C18_inverse_operator_partial : forall (K : CoefRing), (forall x : K, small x = true -> x = c0) -> forall n (l : list (list pauli * K)),
  (forall e, In e l -> length (fst e) = n /\
     forall q, q < length (fst e) -> nth q (fst e) PI = PX \/ nth q (fst e) PI = PY -> q = 0 \/ q = length (fst e) - 1) ->
  exists R, inverse_operator l = Some R /\ (forall e, In e R -> length (fst e) = n) /\ req n n (fmat R) (omat l).
Proof. exact inverse_operator_spec. Qed.
Print Assumptions C18_inverse_operator_partial.
Example C18_case : (forall x : GaussR, small x = true -> x = c0)
  /\ (forall q, q < 3 -> nth q [PX; PZ; PY] PI = PX \/ nth q [PX; PZ; PY] PI = PY -> q = 0 \/ q = 3 - 1)
  /\ option_map (map (fun e => (fst e, if ceqb (snd e) (gzi 0 2) then true else false))) (inverse_string (K := GaussQ) ([PX; PZ; PY], gz 2))
     = Some [([Some Cre; Some Hol; Some Cre], true); ([Some Ann; Some Hol; Some Cre], false); ([Some Cre; Some Par; Some Cre], true); ([Some Ann; Some Par; Some Cre], false);
             ([Some Cre; Some Hol; Some Ann], false); ([Some Ann; Some Hol; Some Ann], true); ([Some Cre; Some Par; Some Ann], false); ([Some Ann; Some Par; Some Ann], true)].
Proof.
  split; [intros x H; apply (seqb_spec GaussQ); exact H|]. split; [|vm_compute; reflexivity].
  intros q Hq H. destruct q as [|[|[|q]]]; [now left|cbn in H; destruct H; discriminate|now right|]. exfalso. apply (Nat.nlt_0_r q). now apply Nat.succ_lt_mono, Nat.succ_lt_mono, Nat.succ_lt_mono.
Qed.

(** An X in the middle of three qubits gives another matrix. *)
Theorem C18_inverse_refuted : exists (K : CoefRing) (s : list pauli) (c : K) R,
  inverse_string (s, c) = Some R /\ ~ req (length s) (length s) (fmat R) (mscal c (pmat s)).
Proof.
  exists GaussQ, [PI; PX; PI], c1, [([None; Some Cre; None], gz (-1)); ([None; Some Ann; None], gz 1)].
  split; [vm_compute; reflexivity|].
  intro H. specialize (H [false; true; false] [false; false; false] eq_refl eq_refl). apply (f_equal (fun x => ceqb x c1)) in H. vm_compute in H. discriminate.
Qed.
Print Assumptions C18_inverse_refuted.
