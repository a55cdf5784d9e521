(** C178: what the storage of an ACSE run prints about the 2-RDM of a state. *)
From Coq Require Import Bool List ZArith Arith Lia Reals Lra.
From Verif Require Import Coeff Sqrt2 ComplexR MatSpec MatLemmas FockSpec CircuitSpec OpSpec PlanSpec PlanProofs2 HamSpec RdmModel RdmSpec RdmProofs RdmObjModel RdmObjSpec AnaModel AnaSpec AnaProofs AnaProofs2 ReportModel ReportProofs.
Import ListNotations.
Local Open Scope nat_scope.

(** C178. For the 2-RDM of a state with Ne particles the numbers printed are <S_z>, <S^2> and Ne(Ne-1) (times the norm),
    and the matrices whose eigenvalues are printed are the whole 2-RDM and the whole 1-RDM of the state.  The object keeps its elements. *)
Theorem C178_report :
  forall (K : CoefRing) (E : Type) (eig : list (list K) -> E) (o : rdm K) (w : K) (psi : bits -> K),
  let r := length (alp o) + length (bet o) in
  ord o = 2 -> 2 <= ne o -> cmul (ofnat (ne o - 1)) w = c1 -> has_particles r (ne o) psi -> 0 < r ->
  length (alp o) = length (bet o) -> NoDup (alp o ++ bet o) -> (forall x, In x (alp o ++ bet o) -> x < r) ->
  stores r 2 (arr o) (rdm_of r psi) ->
  exists o', store_analysis eig w o = Some (o', Report K E
      (expect r (S_z (combine (alp o) (bet o))) psi) (expect r (S_squared r (combine (alp o) (bet o))) psi)
      (Number (cmul (ofnat (ne o * (ne o - 1))) (norm2 r psi)))
      (eig (matrix_of (tuples r 2) (rdm_of r psi))) (eig (matrix_of (map (fun i => [i]) (seq 0 r)) (rdm_of r psi))))
    /\ stores_tensor r 2 (arr o') (rdm_of r psi) /\ ord o' = 2 /\ alp o' = alp o /\ bet o' = bet o /\ ne o' = ne o.
Proof.
  intros K E eig o w psi r H2 HN Hw Hp Hr HL ND Hin ST. destruct (store_analysis_run K E eig o w psi H2 HN Hw Hp Hr HL ND Hin ST) as [o' [Q1 [Q2 [Q3 [Q4 [S A]]]]]].
  exists o'. repeat split; first [exact A|exact (proj1 S)|exact (proj2 S)|assumption].
Qed.
Print Assumptions C178_report.

(** No "Negative eigenvalue!" is printed for the 2-RDM of a state, and the occupations printed lie between 0 and 1,
    when the routine returns eigenvalues of Hermitian matrices. *)
Theorem C178_spectra :
  forall (eig : list (list Cx) -> list R) (o o' : rdm Cx) (w : Cx) (psi : bits -> Cx) (rep : report Cx (list R)),
  let r := length (alp o) + length (bet o) in
  (forall M, hermitian_matrix M -> forall mu, In mu (eig M) -> eigenvalue M mu) ->
  ord o = 2 -> 2 <= ne o -> cmul (ofnat (ne o - 1)) w = c1 -> has_particles r (ne o) psi -> norm2 r psi = c1 -> 0 < r ->
  length (alp o) = length (bet o) -> NoDup (alp o ++ bet o) -> (forall x, In x (alp o ++ bet o) -> x < r) ->
  stores r 2 (arr o) (rdm_of r psi) -> store_analysis eig w o = Some (o', rep) ->
  (forall mu, In mu (r_eig2 rep) -> (0 <= mu)%R) /\ (forall mu, In mu (r_eig1 rep) -> (0 <= mu <= 1)%R).
Proof.
  intros eig o o' w psi rep r HE H2 HN Hw Hp U Hr HL ND Hin ST RE. destruct (store_analysis_run Cx (list R) eig o w psi H2 HN Hw Hp Hr HL ND Hin ST) as [o1 [_ [_ [_ [_ [_ A]]]]]].
  rewrite A in RE. injection RE as _ <-. cbn [r_eig2 r_eig1]. fold r.
  assert (Q : forall B mu, In mu (eig (matrix_of B (rdm_of r psi))) -> eigenvalue (matrix_of B (rdm_of r psi)) mu).
  { intros B mu Hm. apply HE; [|exact Hm]. apply matrix_herm. intros I J. apply RdmFock.rdm_herm. }
  split.
  - intros mu Hm. exact (eigen_nonneg _ _ _ _ (Q _ _ Hm)).
  - intros mu Hm. split; [exact (eigen_nonneg _ _ _ _ (Q _ _ Hm))|]. apply (eigen_le_one r psi (seq 0 r)); [exact U|apply seq_NoDup| |exact (Q _ _ Hm)].
    intros x Hx. apply in_seq in Hx. lia.
Qed.
Print Assumptions C178_spectra.

(** The number printed after "N:" is the number of electrons when there are two of them... *)
Theorem C178_particle_number_partial :
  forall (K : CoefRing) (E : Type) (eig : list (list K) -> E) (o o' : rdm K) (w : K) (psi : bits -> K) (rep : report K E),
  let r := length (alp o) + length (bet o) in
  ord o = 2 -> ne o = 2 -> cmul (ofnat (ne o - 1)) w = c1 -> has_particles r (ne o) psi -> norm2 r psi = c1 -> 0 < r ->
  length (alp o) = length (bet o) -> NoDup (alp o ++ bet o) -> (forall x, In x (alp o ++ bet o) -> x < r) ->
  stores r 2 (arr o) (rdm_of r psi) -> store_analysis eig w o = Some (o', rep) -> r_n rep = Number (ofnat (ne o)).
Proof.
  intros K E eig o o' w psi rep r H2 HN Hw Hp U Hr HL ND Hin ST RE.
  destruct (store_analysis_run K E eig o w psi H2 ltac:(lia) Hw Hp Hr HL ND Hin ST) as [o1 [_ [_ [_ [_ [_ A]]]]]]. rewrite A in RE. injection RE as _ <-. cbn [r_n].
  fold r. rewrite U, HN. f_equal. rewrite (Rmul_comm (c_ring K)). apply (Rmul_1_l (c_ring K)).
Qed.
Print Assumptions C178_particle_number_partial.

(** ... and never for more. *)
Theorem C178_more_electrons :
  forall (E : Type) (eig : list (list Cx) -> E) (o o' : rdm Cx) (w : Cx) (psi : bits -> Cx) (rep : report Cx E),
  let r := length (alp o) + length (bet o) in
  ord o = 2 -> 3 <= ne o -> cmul (ofnat (ne o - 1)) w = c1 -> has_particles r (ne o) psi -> norm2 r psi = c1 -> 0 < r ->
  length (alp o) = length (bet o) -> NoDup (alp o ++ bet o) -> (forall x, In x (alp o ++ bet o) -> x < r) ->
  stores r 2 (arr o) (rdm_of r psi) -> store_analysis eig w o = Some (o', rep) -> r_n rep <> Number (ofnat (ne o)).
Proof.
  intros E eig o o' w psi rep r H2 HN Hw Hp U Hr HL ND Hin ST RE.
  destruct (store_analysis_run Cx E eig o w psi H2 ltac:(lia) Hw Hp Hr HL ND Hin ST) as [o1 [_ [_ [_ [_ [_ A]]]]]]. rewrite A in RE. injection RE as _ <-. cbn [r_n].
  fold r. rewrite U. intro Q. injection Q as Q.
  assert (O : forall n, fst (@ofnat Cx n) = INR n /\ snd (@ofnat Cx n) = 0%R).
  { induction n as [|n [I1 I2]]; [split; reflexivity|]. rewrite S_INR. cbn [ofnat]. change (fst (cadd (c1 : Cx) (ofnat n)) = (INR n + 1)%R /\ snd (cadd (c1 : Cx) (ofnat n)) = 0%R).
    change ((1 + fst (@ofnat Cx n))%R = (INR n + 1)%R /\ (0 + snd (@ofnat Cx n))%R = 0%R). rewrite I1, I2. split; lra. }
  apply (f_equal fst) in Q. change ((fst (@ofnat Cx (ne o * (ne o - 1))) * 1 - snd (@ofnat Cx (ne o * (ne o - 1))) * 0)%R = fst (@ofnat Cx (ne o))) in Q.
  rewrite (proj1 (O _)), (proj1 (O (ne o))) in Q. assert (Z : INR (ne o * (ne o - 1)) = INR (ne o)) by lra. apply INR_eq in Z. nia.
Qed.
Print Assumptions C178_more_electrons.

(** Three electrons in four spin orbitals. *)
Definition o178 (K : CoefRing) (n : nat) (psi : bits -> K) : rdm K :=
  Rdm 2 [0; 1] [2; 3] n (Nda [4; 4; 4; 4] (fun t => rdm_of 4 psi [t / 64; t / 16 mod 4] [t / 4 mod 4; t mod 4])).
Lemma o178_stores K n psi : stores 4 2 (arr (o178 K n psi)) (rdm_of 4 psi).
Proof.
  left. split; [reflexivity|]. intros c d [Lc Fc] [Ld Fd]. destruct c as [|i [|k [|? ?]]]; try discriminate. destruct d as [|j [|l [|? ?]]]; try discriminate.
  apply Forall_cons_iff in Fc, Fd. destruct Fc as [Hi Fc]. destruct Fd as [Hj Fd]. apply Forall_cons_iff in Fc, Fd. destruct Fc as [Hk _]. destruct Fd as [Hl _].
  unfold o178, get. cbn [arr shape flat app ravel]. rewrite (proj2 (Nat.ltb_lt i 4) Hi), (proj2 (Nat.ltb_lt k 4) Hk), (proj2 (Nat.ltb_lt j 4) Hj), (proj2 (Nat.ltb_lt l 4) Hl).
  cbn [option_map entries].
  assert (A : i = 0 \/ i = 1 \/ i = 2 \/ i = 3) by lia. assert (B : k = 0 \/ k = 1 \/ k = 2 \/ k = 3) by lia. assert (C : j = 0 \/ j = 1 \/ j = 2 \/ j = 3) by lia. assert (D : l = 0 \/ l = 1 \/ l = 2 \/ l = 3) by lia.
  do 2 f_equal.
  - destruct A as [-> | [-> | [-> | ->]]]; destruct B as [-> | [-> | [-> | ->]]]; destruct C as [-> | [-> | [-> | ->]]]; destruct D as [-> | [-> | [-> | ->]]]; reflexivity.
  - destruct A as [-> | [-> | [-> | ->]]]; destruct B as [-> | [-> | [-> | ->]]]; destruct C as [-> | [-> | [-> | ->]]]; destruct D as [-> | [-> | [-> | ->]]]; reflexivity.
Qed.
Definition det178 (K : CoefRing) : bits -> K := basis_vec [true; true; true; false].
Theorem C178_particle_number_refuted :
  exists (o o' : rdm GaussQ) (w : GaussQ) (psi : bits -> GaussQ) (rep : report GaussQ (list (list GaussQ))),
  let r := length (alp o) + length (bet o) in
  ord o = 2 /\ cmul (ofnat (ne o - 1)) w = c1 /\ has_particles r (ne o) psi /\ norm2 r psi = c1 /\ stores r 2 (arr o) (rdm_of r psi)
  /\ store_analysis (fun M => M) w o = Some (o', rep) /\ ne o = 3 /\ r_n rep = Number (ofnat 6) /\ (ofnat 6 : GaussQ) <> ofnat (ne o).
Proof.
  set (psi := det178 GaussQ). assert (W : cmul (ofnat (3 - 1)) chalf = (c1 : GaussQ)) by (apply (ceqb_spec GaussQ); vm_compute; reflexivity).
  assert (Hp : has_particles 4 3 psi) by exact (basis_particles GaussQ 4 [true; true; true; false] eq_refl).
  assert (U : norm2 4 psi = c1) by (apply (ceqb_spec GaussQ); vm_compute; reflexivity).
  destruct (store_analysis_run GaussQ _ (fun M => M) (o178 GaussQ 3 psi) chalf psi eq_refl ltac:(cbn; lia) W Hp ltac:(cbn; lia) eq_refl) as [o' [_ [_ [_ [_ [_ A]]]]]].
  - repeat constructor; cbn; lia.
  - cbn. intros x Hx. lia.
  - apply o178_stores.
  - eexists (o178 GaussQ 3 psi), o', chalf, psi, _. cbv zeta. split; [reflexivity|]. split; [exact W|]. split; [exact Hp|]. split; [exact U|]. split; [apply o178_stores|].
    split; [exact A|]. split; [reflexivity|]. split.
    + cbn [r_n]. f_equal.
    + intro Q. apply (ceqb_spec GaussQ) in Q. vm_compute in Q. discriminate.
Qed.
Print Assumptions C178_particle_number_refuted.

(** RDMs of other orders have no sz: the call raises. *)
Theorem C178_other_orders :
  forall (K : CoefRing) (E : Type) (eig : list (list K) -> E) (w : K) (o : rdm K), ord o <> 2 -> store_analysis eig w o = None.
Proof. exact store_analysis_order. Qed.
Print Assumptions C178_other_orders.

(** Two electrons, the state |0,1> (both up): S_z = 1, S^2 = 2, N = 2, and the 1-RDM is diag(1,1,0,0). *)
Definition psi178 : bits -> GaussQ := basis_vec [true; true; false; false].
Example C178_case :
  option_map (fun p => let rep := snd p in ceqb (r_sz rep) (gz 1) && ceqb (r_s2 rep) (gz 2) && match r_n rep with Number x => ceqb x (gz 2) | Array _ => false end
      && Nat.eqb (length (r_eig2 rep)) 16 && ceqb (nth 1 (nth 4 (r_eig2 rep) []) (gz 0)) (gz (-1))
      && forallb (fun q => ceqb (nth (fst q) (nth (fst q) (r_eig1 rep) []) (gz 7)) (gz (snd q))) [(0, 1%Z); (1, 1%Z); (2, 0%Z); (3, 0%Z)])
    (store_analysis (fun M => M) (gz 1) (o178 GaussQ 2 psi178)) = Some true.
Proof. vm_compute. reflexivity. Qed.
