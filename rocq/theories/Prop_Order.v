(** C21: normal ordering of a fermionic string. *)
From Coq Require Import Bool List Arith ZArith.
From Verif Require Import Coeff MatSpec FockSpec FermiModel OrderModel OrderSpec OrderProofs.
Import ListNotations.
Local Open Scope nat_scope.

(** Missing: strings with 'h', and strings with only creators or only annihilators (both false, below). *)
Theorem C21_order_partial : forall (K : CoefRing) (s : fstr) (c : K),
  ~ In (Some Hol) s -> (In (Some Par) s \/ (In (Some Cre) s /\ In (Some Ann) s)) ->
  exists fuel R, order_as_D_matrix fuel (s, c) = Some R /\ (forall e, In e R -> normal_ordered (snd e)) /\
    (forall r d, words_mat R r d = cmul c (fstr_mat s r d)).
Proof. exact order_spec_sum. Qed.
Print Assumptions C21_order_partial.
Theorem C21_identity_partial : forall (K : CoefRing) (s : fstr) (c : K), (forall o, ~ In (Some o) s) ->
  forall fuel, order_as_D_matrix fuel (s, c) = Some [(c, [])] /\ (forall r d, words_mat [(c, [])] r d = cmul c (fstr_mat s r d)).
Proof. exact order_identity. Qed.
Print Assumptions C21_identity_partial.
Example C21_case : ~ In (Some Hol) [Some Ann; None; Some Par; Some Cre] /\
  order_as_D_matrix (K := GaussQ) 10 ([Some Ann; None; Some Par; Some Cre], gz 5) = Some [(gz (-5), [(Cre, 2); (Cre, 3); (Ann, 0); (Ann, 2)])].
Proof. split; [intros [H|[H|[H|[H|[]]]]]; discriminate|vm_compute; reflexivity]. Qed.

(** One kind of ladder letter only: the call does not return. *)
Theorem C21_diverges : forall (K : CoefRing) (s : fstr) (c : K),
  (forall o, In (Some o) s -> o = Cre) \/ (forall o, In (Some o) s -> o = Ann) -> (exists o, In (Some o) s) ->
  forall fuel, order_as_D_matrix fuel (s, c) = None.
Proof. exact order_diverges. Qed.
Print Assumptions C21_diverges.
Example C21_diverges_case : (forall o, In (Some o) [Some Cre; None; Some Cre] -> o = Cre) /\ (exists o, In (Some o) [Some Cre; None; Some Cre]).
Proof. split; [intros o [H|[H|[H|[]]]]; congruence|exists Cre; now left]. Qed.

Theorem C21_termination_refuted : exists (K : CoefRing) (s : fstr) (c : K), forall fuel, order_as_D_matrix fuel (s, c) = None.
Proof. exists GaussQ, [Some Cre; None; Some Cre], c1. apply C21_diverges; [left; exact (proj1 C21_diverges_case)|exact (proj2 C21_diverges_case)]. Qed.
Print Assumptions C21_termination_refuted.

(** A hole gives 1 + n instead of 1 - n. *)
Theorem C21_hole_refuted : exists (K : CoefRing) (s : fstr) (c : K) fuel R,
  order_as_D_matrix fuel (s, c) = Some R /\ exists r d, words_mat R r d <> cmul c (fstr_mat s r d).
Proof.
  exists GaussQ, [Some Hol], c1, 3, [(c1, []); (gz 1, [(Cre, 0); (Ann, 0)])]. split; [vm_compute; reflexivity|].
  exists [true], [true]. intro H. apply (f_equal (fun x => ceqb x c0)) in H. vm_compute in H. discriminate.
Qed.
Print Assumptions C21_hole_refuted.
