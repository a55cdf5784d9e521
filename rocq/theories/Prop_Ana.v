(** C175: the spectra of the spin blocks of the RDMs of a state. *)
From Coq Require Import Bool List ZArith Arith Lia Reals Lra.
From Verif Require Import Coeff Sqrt2 ComplexR MatSpec MatLemmas FockSpec CircuitSpec PlanSpec PlanProofs2 RdmModel RdmSpec RdmProofs RdmObjModel RdmObjSpec AnaModel AnaSpec AnaProofs AnaProofs2.
Import ListNotations.
Local Open Scope nat_scope.

(** C175. analysis takes the eigenvalues of the blocks of the 2-RDM in the pairs of alpha orbitals, of beta orbitals and
    of one of each, and of the blocks of the 1-RDM of the same state; the blocks are Hermitian. *)
Theorem C175_blocks :
  forall (K : CoefRing) (E : Type) (eig : list (list K) -> E) (o : rdm K) (w : K) (psi : bits -> K),
  let r := length (alp o) + length (bet o) in
  ord o = 2 -> 2 <= ne o -> cmul (ofnat (ne o - 1)) w = c1 -> has_particles r (ne o) psi ->
  length (bet o) = length (alp o) -> NoDup (alp o) -> NoDup (bet o) -> (forall x, In x (alp o ++ bet o) -> x < r) ->
  stores r 2 (arr o) (rdm_of r psi) ->
  exists o' Ba Bb Bm, pairs_within (alp o) Ba /\ pairs_within (bet o) Bb /\ pairs_between (alp o) (bet o) Bm
    /\ stores_tensor r 2 (arr o') (rdm_of r psi)
    /\ analysis eig w o = Some (o', Some (eig (matrix_of Ba (rdm_of r psi)), eig (matrix_of Bb (rdm_of r psi)), eig (matrix_of Bm (rdm_of r psi)),
         eig (matrix_of (map (fun i => [i]) (alp o)) (rdm_of r psi)), eig (matrix_of (map (fun i => [i]) (bet o)) (rdm_of r psi))))
    /\ forall B, hermitian_matrix (matrix_of B (rdm_of r psi)).
Proof.
  intros K E eig o w psi r H2 HN Hw Hp HL Na Nb Hin ST. destruct (analysis_run K E eig o w psi H2 HN Hw Hp HL Hin ST) as [o' [_ [_ [_ [_ [S A]]]]]].
  exists o', (up_pairs (alp o)), (up_pairs (bet o)), (mixed_pairs (alp o) (bet o)).
  split; [now apply up_pairs_spec|]. split; [now apply up_pairs_spec|]. split; [now apply mixed_pairs_spec|]. split; [exact S|]. split; [exact A|].
  intro B. apply matrix_herm. intros I J. apply RdmFock.rdm_herm.
Qed.
Print Assumptions C175_blocks.

(** No eigenvalue returned is negative, and those of the 1-RDM are at most 1, when the routine returns eigenvalues of
    Hermitian matrices. *)
Theorem C175_spectra :
  forall (eig : list (list Cx) -> list R) (o : rdm Cx) (w : Cx) (psi : bits -> Cx),
  let r := length (alp o) + length (bet o) in
  (forall M, hermitian_matrix M -> forall mu, In mu (eig M) -> eigenvalue M mu) ->
  ord o = 2 -> 2 <= ne o -> cmul (ofnat (ne o - 1)) w = c1 -> has_particles r (ne o) psi -> norm2 r psi = c1 ->
  length (bet o) = length (alp o) -> NoDup (alp o) -> NoDup (bet o) -> (forall x, In x (alp o ++ bet o) -> x < r) ->
  stores r 2 (arr o) (rdm_of r psi) ->
  exists o' aa bb ab a b, analysis eig w o = Some (o', Some (aa, bb, ab, a, b))
    /\ (forall mu, In mu (aa ++ bb ++ ab) -> (0 <= mu)%R) /\ (forall mu, In mu (a ++ b) -> (0 <= mu <= 1)%R).
Proof.
  intros eig o w psi r HE H2 HN Hw Hp U HL Na Nb Hin ST. destruct (analysis_run Cx (list R) eig o w psi H2 HN Hw Hp HL Hin ST) as [o' [_ [_ [_ [_ [_ A]]]]]].
  eexists o', _, _, _, _, _. split; [exact A|].
  assert (Q : forall B mu, In mu (eig (matrix_of B (rdm_of r psi))) -> eigenvalue (matrix_of B (rdm_of r psi)) mu).
  { intros B mu Hm. apply HE; [|exact Hm]. apply matrix_herm. intros I J. apply RdmFock.rdm_herm. }
  split.
  - intros mu Hm. repeat (apply in_app_iff in Hm; destruct Hm as [Hm|Hm]); exact (eigen_nonneg _ _ _ _ (Q _ _ Hm)).
  - intros mu Hm. apply in_app_iff in Hm. destruct Hm as [Hm|Hm]; (split; [exact (eigen_nonneg _ _ _ _ (Q _ _ Hm))|]).
    + apply (eigen_le_one r psi (alp o)); [exact U|exact Na| |exact (Q _ _ Hm)]. intros x Hx. apply Hin, in_app_iff. now left.
    + apply (eigen_le_one r psi (bet o)); [exact U|exact Nb| |exact (Q _ _ Hm)]. intros x Hx. apply Hin, in_app_iff. now right.
Qed.
Print Assumptions C175_spectra.

(** The block of the beta orbitals is written into an array of the size of the alpha block: with more beta than alpha
    orbitals the call raises. *)
Theorem C175_more_beta :
  forall (K : CoefRing) (E : Type) (eig : list (list K) -> E) (w : K) (o : rdm K),
  ord o = 1 \/ ord o = 2 -> length (alp o) < length (bet o) -> analysis eig w o = None.
Proof. exact analysis_more_beta. Qed.
Print Assumptions C175_more_beta.

(** Two electrons, orbitals 0, 1 (alpha) and 2, 3 (beta). *)
Definition o175 (K : CoefRing) (psi : bits -> K) : rdm K :=
  Rdm 2 [0; 1] [2; 3] 2 (Nda [4; 4; 4; 4] (fun t => rdm_of 4 psi [t / 64; t / 16 mod 4] [t / 4 mod 4; t mod 4])).
Lemma o175_stores K psi : stores 4 2 (arr (o175 K psi)) (rdm_of 4 psi).
Proof.
  left. split; [reflexivity|]. intros c d [Lc Fc] [Ld Fd]. destruct c as [|i [|k [|? ?]]]; try discriminate. destruct d as [|j [|l [|? ?]]]; try discriminate.
  apply Forall_cons_iff in Fc, Fd. destruct Fc as [Hi Fc]. destruct Fd as [Hj Fd]. apply Forall_cons_iff in Fc, Fd. destruct Fc as [Hk _]. destruct Fd as [Hl _].
  unfold o175, get. cbn [arr shape flat app ravel]. rewrite (proj2 (Nat.ltb_lt i 4) Hi), (proj2 (Nat.ltb_lt k 4) Hk), (proj2 (Nat.ltb_lt j 4) Hj), (proj2 (Nat.ltb_lt l 4) Hl).
  cbn [option_map entries]. do 2 f_equal.
  - assert (A : i = 0 \/ i = 1 \/ i = 2 \/ i = 3) by lia. assert (B : k = 0 \/ k = 1 \/ k = 2 \/ k = 3) by lia. assert (C : j = 0 \/ j = 1 \/ j = 2 \/ j = 3) by lia. assert (D : l = 0 \/ l = 1 \/ l = 2 \/ l = 3) by lia.
    destruct A as [-> | [-> | [-> | ->]]]; destruct B as [-> | [-> | [-> | ->]]]; destruct C as [-> | [-> | [-> | ->]]]; destruct D as [-> | [-> | [-> | ->]]]; reflexivity.
  - assert (A : i = 0 \/ i = 1 \/ i = 2 \/ i = 3) by lia. assert (B : k = 0 \/ k = 1 \/ k = 2 \/ k = 3) by lia. assert (C : j = 0 \/ j = 1 \/ j = 2 \/ j = 3) by lia. assert (D : l = 0 \/ l = 1 \/ l = 2 \/ l = 3) by lia.
    destruct A as [-> | [-> | [-> | ->]]]; destruct B as [-> | [-> | [-> | ->]]]; destruct C as [-> | [-> | [-> | ->]]]; destruct D as [-> | [-> | [-> | ->]]]; reflexivity.
Qed.

(** The state 3 |0,2> + 4i |1,3>: the alpha-beta block is [[9, 0, 0, 12i], 0, 0, [-12i, 0, 0, 16]] in the basis
    [0,2], [0,3], [1,2], [1,3]; the blocks of the 1-RDM are diag(9, 16). *)
Definition psi175 (x : bits) : GaussQ :=
  if bits_eqb x [true; false; true; false] then gz 3 else if bits_eqb x [false; true; false; true] then gzi 0 4 else gz 0.
Definition same_mat (A B : list (list GaussQ)) : bool :=
  Nat.eqb (length A) (length B) && forallb (fun p => Nat.eqb (length (fst p)) (length (snd p)) && forallb (fun q => ceqb (fst q) (snd q)) (combine (fst p) (snd p))) (combine A B).
Example C175_case :
  option_map (fun p => match snd p with
    | Some (aa, bb, ab, a, b) => same_mat aa [[gz 0]] && same_mat bb [[gz 0]]
        && same_mat ab [[gz 9; gz 0; gz 0; gzi 0 12]; [gz 0; gz 0; gz 0; gz 0]; [gz 0; gz 0; gz 0; gz 0]; [gzi 0 (-12); gz 0; gz 0; gz 16]]
        && same_mat a [[gz 9; gz 0]; [gz 0; gz 16]] && same_mat b [[gz 9; gz 0]; [gz 0; gz 16]]
    | None => false end) (analysis (fun M => M) (gz 1) (o175 GaussQ psi175)) = Some true.
Proof. vm_compute. reflexivity. Qed.

(** The determinant with both alpha orbitals filled meets the hypotheses; a routine for 1x1 matrices returns the
    eigenvalue 1 of its alpha-alpha block. *)
Definition eig1 (M : list (list Cx)) : list R := match M with [[x]] => [fst x] | _ => [] end.
Definition det175 : bits -> Cx := basis_vec (det_state 4 [0; 1]).
Example C175_spectra_case :
  (forall M, hermitian_matrix M -> forall mu, In mu (eig1 M) -> eigenvalue M mu)
  /\ has_particles 4 2 det175 /\ norm2 4 det175 = c1 /\ stores 4 2 (arr (o175 Cx det175)) (rdm_of 4 det175) /\ cmul (ofnat (2 - 1)) c1 = (c1 : Cx)
  /\ exists o' bb ab a b, analysis eig1 c1 (o175 Cx det175) = Some (o', Some ([1%R], bb, ab, a, b)).
Proof.
  assert (Hp : has_particles 4 2 det175) by (apply (basis_particles Cx 4 (det_state 4 [0; 1]) eq_refl)).
  assert (W : cmul (ofnat (2 - 1)) c1 = (c1 : Cx)) by (apply C_eq; cbn; lra).
  split; [|split; [exact Hp|split; [|split; [apply o175_stores|split; [exact W|]]]]].
  - intros M [S H] mu Hm. destruct M as [|[|x [|? ?]] [|? ?]]; cbn [eig1 In] in Hm; try contradiction. destruct Hm as [<- | []].
    exists [c1]. split; [reflexivity|]. split; [exists c1; split; [left; reflexivity|exact C1_neq0]|].
    specialize (H 0 0 (le_n 1) (le_n 1)). cbn [nth] in H. destruct x as [x y]. apply (f_equal snd) in H. cbn in H.
    cbn. f_equal. apply C_eq; cbn; lra.
  - rewrite <- (expect_mone Cx). etransitivity; [|exact (basis_norm Cx 4 (det_state 4 [0; 1]) eq_refl)]. unfold rdm_of. apply RdmFock.expect_ext. apply meq_sym. apply FermiProofs.fock_mat_nil.
  - destruct (analysis_run Cx (list R) eig1 (o175 Cx det175) c1 det175 eq_refl (le_n 2) W Hp eq_refl) as [o' [_ [_ [_ [_ [_ A]]]]]].
    + cbn. intros x Hx. lia.
    + apply o175_stores.
    + assert (E : eig1 (matrix_of (up_pairs [0; 1]) (rdm_of 4 det175)) = [1%R]).
      { change (up_pairs [0; 1]) with [[0; 1]]. cbn [matrix_of map eig1]. f_equal.
        transitivity (fst (@build_hf Cx 2 2 0 [0; 1] [2; 3] [0; 1; 0; 1])).
        - f_equal. symmetry. apply (hf_is_determinant Cx 2 2 0 [0; 1] [2; 3] 4 [0; 1] [0; 1]); [lia|cbn; intros z Hz; lia|reflexivity|reflexivity].
        - cbn. lra. }
      cbn [o175 alp bet] in A. exists o'. eexists _, _, _, _. rewrite A. cbn [length Nat.add]. rewrite E. reflexivity.
Qed.
