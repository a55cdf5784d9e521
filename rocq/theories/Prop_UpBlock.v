(** C183: the spin-up block of the 2-RDM (symmetric_block). *)
From Coq Require Import Bool List ZArith Arith Lia Ring.
From Verif Require Import Coeff MatSpec MatLemmas FockSpec OpSpec CircuitSpec RdmModel RdmSpec RdmFock RdmWedge HamModel HamSpec
  RdmObjModel RdmObjSpec RdmObjProofs4 RdmObjProofs5 UpBlockModel UpBlockProofs Prop_RdmObj.
Import ListNotations.
Local Open Scope nat_scope.

(** With the spin-up orbitals numbered 0..R-1, for every array: the block is the array on the spin-up indices, and has
    nothing elsewhere. *)
Theorem C183_block_partial : forall (K : CoefRing) (R : nat) (t : nat -> nat -> nat -> nat -> K) (i k j l : nat),
  symmetric_block R (seq 0 R) t i k j l = if (i <? R) && (k <? R) && (j <? R) && (l <? R) then t i k j l else c0.
Proof. exact sym_block_get. Qed.
Print Assumptions C183_block_partial.
Lemma sym_inside (K : CoefRing) R (t : nat -> nat -> nat -> nat -> K) i k j l : i < R -> k < R -> j < R -> l < R -> symmetric_block R (seq 0 R) t i k j l = t i k j l.
Proof. intros Hi Hk Hj Hl. rewrite sym_block_get. apply Nat.ltb_lt in Hi, Hk, Hj, Hl. now rewrite Hi, Hk, Hj, Hl. Qed.

(** For the 2-RDM of any state the block is antisymmetric in its first pair and in its last pair of indices, whatever
    its name says. *)
Theorem C183_state : forall (K : CoefRing) (R n : nat) (psi : bits -> K) (i k j l : nat), i < R -> k < R -> j < R -> l < R ->
  let B := symmetric_block R (seq 0 R) (fun a b c d => rdm_of n psi [a; b] [c; d]) in
  B i k j l = rdm_of n psi [i; k] [j; l] /\ B k i j l = copp (B i k j l) /\ B i k l j = copp (B i k j l).
Proof.
  intros K R n psi i k j l Hi Hk Hj Hl B. unfold B. rewrite !sym_inside by assumption. split; [reflexivity|]. split.
  - exact (rdm_antisym_cre K n psi [] k i [] [j; l]).
  - exact (rdm_antisym_ann K n psi [] l j [] [i; k]).
Qed.
Print Assumptions C183_state.

(** An array rebuilt from an alpha-beta block has the antisymmetrised block as its spin-up block. *)
Theorem C183_rebuilt : forall (K : CoefRing) (R : nat) (f : nat -> nat -> nat -> nat -> K) (i k j l : nat), i < R -> k < R -> j < R -> l < R ->
  symmetric_block R (seq 0 R) (from_ab R f) i k j l = csub (f i k j l) (f k i j l).
Proof. intros K R f i k j l Hi Hk Hj Hl. rewrite sym_inside by assumption. apply (from_ab_blocks K R f i k j l Hi Hk Hj Hl). Qed.
Print Assumptions C183_rebuilt.

(** For a singlet state the two blocks are related: the spin-up block is the antisymmetrised alpha-beta block. *)
Theorem C183_singlet : forall (K : CoefRing) (N : nat) (psi : bits -> K), singlet K N psi ->
  forall i k j l, i < N -> k < N -> j < N -> l < N ->
  let D := fun a b c d => rdm_of (2 * N) psi [a; b] [c; d] in
  let A := antisymmetric_block N (seq 0 N) (seq N N) D in
  symmetric_block N (seq 0 N) D i k j l = csub (A i k j l) (A k i j l).
Proof.
  intros K N psi S i k j l Hi Hk Hj Hl D A. rewrite <- (C183_rebuilt K N A i k j l) by assumption. rewrite !sym_inside by assumption. symmetry. unfold A, D.
  apply C94_singlet_rebuilt; [exact S|lia..].
Qed.
Print Assumptions C183_singlet.

(** With another numbering of the spin-up orbitals the entries fall together: two electrons in the spin-up orbitals 0 and
    2 of four, numbered alternately.  The entry of the two spatial orbitals is 1 in the 2-RDM and 0 in the block, whose
    only written entry is the sum 1 + 1 - 1 - 1. *)
Definition psi183b : bits -> GaussQ := fun x => if bits_eqb x [true; false; true; false] then gz 1 else gz 0.
Theorem C183_numbering_refuted : exists (psi : bits -> GaussQ),
  let D := fun a b c d => rdm_of 4 psi [a; b] [c; d] in
  D 0 2 0 2 = gz 1 /\ symmetric_block 2 [0; 2] D 0 1 0 1 = gz 0 /\ symmetric_block 2 [0; 2] D 0 0 0 0 = gz 0.
Proof. exists psi183b. cbn zeta. repeat split; apply (proj1 (ceqb_spec GaussQ _ _)); vm_compute; reflexivity. Qed.
Print Assumptions C183_numbering_refuted.

(** Two spin-up electrons in the orbitals 0 and 1 of two: the four entries of the block. *)
Definition psi183 : bits -> GaussQ := fun x => if bits_eqb x [true; true; false; false] then gz 1 else gz 0.
Example C183_case :
  let B := symmetric_block 2 (seq 0 2) (fun a b c d => rdm_of 4 psi183 [a; b] [c; d]) in
  @ceqb GaussQ (B 0 1 0 1) (gz 1) && @ceqb GaussQ (B 1 0 0 1) (gz (-1)) && @ceqb GaussQ (B 0 1 1 0) (gz (-1)) && @ceqb GaussQ (B 1 0 1 0) (gz 1)
  && @ceqb GaussQ (B 0 0 0 0) (gz 0) = true.
Proof. vm_compute. reflexivity. Qed.
(** The singlet of C94. *)
Example C183_singlet_case : singlet GaussQ 2 psi94 /\
  let D := fun a b c d => rdm_of 4 psi94 [a; b] [c; d] in let A := antisymmetric_block 2 (seq 0 2) (seq 2 2) D in
  @ceqb GaussQ (A 0 1 1 0) (gz 1) && @ceqb GaussQ (A 1 0 1 0) (gz 1) && @ceqb GaussQ (symmetric_block 2 (seq 0 2) D 0 1 1 0) (gz 0) = true.
Proof. split; [exact (proj1 C94_case)|vm_compute; reflexivity]. Qed.
