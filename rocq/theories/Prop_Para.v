(** C120: rewriting qubit operators as fermionic operators. *)
From Coq Require Import Bool List Arith ZArith Lia.
From Verif Require Import Coeff MatSpec FockSpec FermiModel OperatorModel InvModel InvSpec QRdmSpec ParaModel ParaProofs Sqrt2 TaperSpec.
Import ListNotations.
Local Open Scope nat_scope.

(** Exact coefficients.  Missing: + or - on a qubit that is neither the first nor the last. *)
Theorem C120_parafermion_partial : forall (K : CoefRing), (forall x : K, small x = true -> x = c0) ->
  forall n (l : list (fstr * K)),
  (forall e, In e l -> length (fst e) = n /\
     forall q o, nth_error (fst e) q = Some (Some o) -> o = Cre \/ o = Ann -> q = 0 \/ q = length (fst e) - 1) ->
  exists R, para_operator l = Some R /\ (forall e, In e R -> length (fst e) = n) /\ req n n (fmat R) (qop_mat l).
Proof.
  intros K HK n l H. apply para_operator_spec; [exact HK|]. intros e He. destruct (H e He) as [H1 H2]. split; [exact H1|].
  intros q o Hn Lo. apply (H2 q o Hn). destruct o; try discriminate; tauto.
Qed.
Print Assumptions C120_parafermion_partial.
Example C120_case : (forall x : GaussR, small x = true -> x = c0)
  /\ (forall q o, nth_error [Some Cre; Some Par; Some Ann] q = Some (Some o) -> o = Cre \/ o = Ann -> q = 0 \/ q = 3 - 1)
  /\ para_operator (K := GaussQ) [([Some Cre; Some Par; Some Ann], gz 2)] = Some [([Some Cre; Some Par; Some Ann], gz (-2))].
Proof.
  split; [intros x H; apply (seqb_spec GaussQ); exact H|]. split; [|vm_compute; reflexivity].
  intros q o Hn Ho. destruct q as [|[|[|q]]]; [now left| |now right|destruct q; discriminate].
  cbn in Hn. injection Hn as <-. destruct Ho; discriminate.
Qed.

(** A + in the middle of three qubits gives the negative of the operator. *)
Theorem C120_parafermion_refuted : exists (K : CoefRing) (s : fstr) (c : K) R,
  para_string (s, c) = Some R /\ ~ req (length s) (length s) (fmat R) (qop_mat [(s, c)]).
Proof.
  exists GaussQ, [None; Some Cre; None], c1, [([None; Some Cre; None], gz (-1))].
  split; [vm_compute; reflexivity|].
  intro H. specialize (H [false; true; false] [false; false; false] eq_refl eq_refl).
  apply (f_equal (fun x => ceqb x c1)) in H. vm_compute in H. discriminate.
Qed.
Print Assumptions C120_parafermion_refuted.
