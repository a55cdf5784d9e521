(** C176, C177: whole runs of particle-qubit tomography and of the tomography of a list of Pauli strings, on a state vector.
    [rt] is 1/sqrt 2; [tiny] is the test that skips an amplitude, assumed to hold of zero only; no coefficient that can occur
    (a Gaussian integer divided by 2^7) other than 0 is below the threshold of the operator class. *)
From Coq Require Import Bool List Arith ZArith Lia.
From Verif Require Import Coeff Sqrt2 MatSpec MatLemmas OpSpec FockSpec CircuitSpec CircuitModel PauliModel OperatorModel TomoModel RdmModel RdmSpec RdmEnum HamModel HamSpec PlanModel PlanSpec PlanProofs4
  QRdmModel QRdmSpec QRdmProofs1 QtomModel QtomProofs QtomProofs2 PlanProofs5 PlanProofs6 Prop_Plan.
Import ListNotations.
Local Open Scope nat_scope.

(** ** C176 *)
(** Whatever the circuit and the grouping: the array is the particle-qubit RDM of the state the circuit prepares from |0..0>. *)
Theorem C176_rdm : forall (K : CoefRing) (rt : K), cmul rt rt = chalf -> cconj rt = rt ->
  forall tiny : K -> bool, (forall x, tiny x = true -> x = c0) -> (forall x : K, dyadic 7 x -> small x = true -> x = c0) ->
  forall simp p real imag N nu prep t, 1 <= p <= 2 -> real || imag = true -> sized simp -> (forall g, In g prep -> valid (2 * N) g) ->
    has_up (2 * N) N nu (prepared rt (2 * N) prep) ->
    qubit_tomography rt tiny simp p real imag N prep = Some t ->
    forall c a, length c = p -> length a = p -> Forall (fun x => x < 2 * N) c -> Forall (fun x => x < 2 * N) a ->
      t (c ++ a) = part real imag (qrdm_of (2 * N) (prepared rt (2 * N) prep) c a).
Proof.
  intros K rt H1 H2 tiny H3 H4 simp p real imag N nu prep t Hp RI Sz Va Up T.
  exact (qubit_tomography_rdm K rt H1 H2 tiny H3 H4 simp p real imag N nu prep t Hp RI Sz (C136_normalised K rt H1 H2 _ _ Va) Up T).
Qed.
Print Assumptions C176_rdm.
(** The compact vector lists the same elements, in the order in which they were generated; for it the state may have any number
    of particles of each spin. *)
Theorem C176_compact : forall (K : CoefRing) (rt : K), cmul rt rt = chalf -> cconj rt = rt ->
  forall tiny : K -> bool, (forall x, tiny x = true -> x = c0) -> (forall x : K, dyadic 7 x -> small x = true -> x = c0) ->
  forall simp p real imag N prep vals, 1 <= p <= 2 -> real || imag = true -> sized simp -> (forall g, In g prep -> valid (2 * N) g) ->
    qubit_compact rt tiny simp p real imag N prep = Some vals ->
    length vals = length (rdm_elements p real imag (seq 0 N) (seq N N)) /\
    forall k c a, nth_error (rdm_elements p real imag (seq 0 N) (seq N N)) k = Some (listed c a) -> length c = p -> length a = p ->
      Forall (fun x => x < 2 * N) c -> Forall (fun x => x < 2 * N) a ->
      nth_error vals k = Some (part real imag (qrdm_of (2 * N) (prepared rt (2 * N) prep) c a)).
Proof.
  intros K rt H1 H2 tiny H3 H4 simp p real imag N prep vals Hp RI Sz Va T.
  exact (qubit_compact_values K rt H1 H2 tiny H3 H4 simp p real imag N prep vals Hp RI Sz (C136_normalised K rt H1 H2 _ _ Va) T).
Qed.
Print Assumptions C176_compact.
(** With a proper colouring, or without grouping, the run for the 2-RDM with real=True returns. *)
Theorem C176_returns : forall (K : CoefRing) (rt : K), cmul rt rt = chalf -> cconj rt = rt ->
  forall tiny : K -> bool, (forall x, tiny x = true -> x = c0) -> (forall x : K, dyadic 7 x -> small x = true -> x = c0) ->
  forall simp imag N prep, 0 < N -> proper simp ->
  (exists vals, qubit_compact rt tiny simp 2 true imag N prep = Some vals) /\ exists t, qubit_tomography rt tiny simp 2 true imag N prep = Some t.
Proof.
  intros K rt H1 H2 tiny H3 H4 simp imag N prep HN P. destruct (qubit_values_returns K rt H1 H2 tiny H3 H4 simp imag N prep HN P) as [vals E].
  split; [exists vals; exact E|]. unfold qubit_tomography. rewrite E. eexists. reflexivity.
Qed.
Print Assumptions C176_returns.
(** For the 1-RDM with real=True it never does. *)
Theorem C176_one_body_refuted : exists N, 0 < N /\ forall (K : CoefRing) (rt : K) (tiny : K -> bool) simp imag prep, qubit_tomography rt tiny simp 1 true imag N prep = None.
Proof. exists 1. split; [lia|]. intros. apply qubit_one_body. lia. Qed.
Print Assumptions C176_one_body_refuted.
Theorem C176_one_body_raises : forall (K : CoefRing) (rt : K) (tiny : K -> bool) simp imag N prep, 0 < N -> qubit_tomography rt tiny simp 1 true imag N prep = None.
Proof. exact qubit_one_body. Qed.
Print Assumptions C176_one_body_raises.
(** The energy from the array and the reduced Hamiltonian of C100 is that of the particle-qubit Hamiltonian. *)
Theorem C176_energy : forall (K : CoefRing) (rt : K), cmul rt rt = chalf -> cconj rt = rt ->
  forall tiny : K -> bool, (forall x, tiny x = true -> x = c0) -> (forall x : K, dyadic 7 x -> small x = true -> x = c0) ->
  forall simp N Ne nu w h V en_c prep t, sized simp -> (forall g, In g prep -> valid (2 * N) g) ->
    has_up (2 * N) N nu (prepared rt (2 * N) prep) -> has_particles (2 * N) Ne (prepared rt (2 * N) prep) ->
    cmul (cmul (cadd (cadd (cadd c1 c1) c1) c1) w) (ofnat (Ne - 1)) = c1 ->
    qubit_tomography rt tiny simp 2 true true N prep = Some t ->
    evaluate (2 * N) (build_K2_q (2 * N) w h V) en_c t =
      cadd (expect (2 * N) (particle_ham (2 * N) (fun p q => h q p) (fun p t q s => V q s p t)) (prepared rt (2 * N) prep)) en_c.
Proof.
  intros K rt H1 H2 tiny H3 H4 simp N Ne nu w h V en_c prep t Sz Va Up Pa Hw T.
  exact (qubit_energy K rt H1 H2 tiny H3 H4 simp N Ne nu w h V en_c prep t Sz (C136_normalised K rt H1 H2 _ _ Va) Up Pa Hw T).
Qed.
Print Assumptions C176_energy.
(** The circuit of C136: its state 3/5 |0101> + 4/5 |1010> meets the hypotheses; the element s+_0 s+_2 s-_3 s-_1 is 12/25. *)
Example C176_case : exists t, qubit_tomography rrt (fun x : GaussR => ceqb x c0) colour136 2 true true 2 prep136 = Some t /\
  t [0; 2; 1; 3] = (gq 12 25, gz 0).
Proof.
  assert (Z : forall x : GaussR, ceqb x c0 = true -> x = c0) by (intros x H; apply (ceqb_spec GaussR); exact H).
  destruct C136_case as [Sm [Va [Pr [Up [_ [A1 A2]]]]]].
  destruct (proj2 (C176_returns GaussR rrt ltac:(apply (ceqb_spec GaussR); vm_compute; reflexivity) ltac:(apply (ceqb_spec GaussR); vm_compute; reflexivity)
    _ Z Sm colour136 true 2 prep136 ltac:(lia) Pr)) as [t T].
  exists t. split; [exact T|].
  transitivity (part true true (qrdm_of 4 (prepared rrt 4 prep136) [0; 2] [1; 3])).
  - refine (C176_rdm GaussR rrt _ _ _ Z Sm colour136 2 true true 2 1 prep136 t _ eq_refl _ Va Up T [0; 2] [1; 3] eq_refl eq_refl _ _);
      [apply (ceqb_spec GaussR); vm_compute; reflexivity|apply (ceqb_spec GaussR); vm_compute; reflexivity|lia|exact (fun ps => proj1 (proj2 Pr ps))|repeat constructor|repeat constructor].
  - cbn [part]. rewrite qrdm_word, (expect_same GaussR 4 _ _ (lookup amps136)) by (intros x L; apply prepared_steps; exact L).
    apply (ceqb_spec GaussR). vm_compute. reflexivity.
Qed.

(** ** C177 *)
(** tomo_type='pauli': the vector lists the expectation values of the strings, times i when imag=True (the default). *)
Theorem C177_values : forall (K : CoefRing) (rt : K), cmul rt rt = chalf -> cconj rt = rt ->
  forall tiny : K -> bool, (forall x, tiny x = true -> x = c0) ->
  forall simp imag Nq paulis prep values, sized simp -> (forall s, In s paulis -> length s = Nq) ->
    pauli_values rt tiny simp imag Nq paulis prep = Some values ->
    values = map (fun s => cmul (if imag then ci else c1) (expect Nq (pmat s) (prepared rt Nq prep))) paulis.
Proof. exact pauli_values_spec. Qed.
Print Assumptions C177_values.
(** The operator has these values as coefficients, a string listed several times counting as often. *)
Theorem C177_operator : forall (K : CoefRing) (rt : K), cmul rt rt = chalf -> cconj rt = rt ->
  forall tiny : K -> bool, (forall x, tiny x = true -> x = c0) ->
  forall simp imag Nq paulis prep o, sized simp -> (forall s, In s paulis -> length s = Nq) ->
    pauli_operator rt tiny simp imag Nq paulis prep = Some o ->
    forall s, length s = Nq -> total pstr_dec s o
       = cmul (ofnat (count_occ pstr_dec paulis s)) (cmul (if imag then ci else c1) (expect Nq (pmat s) (prepared rt Nq prep))).
Proof. exact pauli_operator_total. Qed.
Print Assumptions C177_operator.
Theorem C177_returns : forall (K : CoefRing) (rt : K), cmul rt rt = chalf -> cconj rt = rt ->
  forall tiny : K -> bool, (forall x, tiny x = true -> x = c0) ->
  forall simp imag Nq paulis prep, proper simp -> paulis <> [] -> (forall s, In s paulis -> length s = Nq) ->
  exists values, pauli_values rt tiny simp imag Nq paulis prep = Some values.
Proof. exact pauli_values_returns. Qed.
Print Assumptions C177_returns.
(** An empty list raises. *)
Theorem C177_empty : forall (K : CoefRing) (rt : K) (tiny : K -> bool) simp imag Nq prep, sized simp -> pauli_values rt tiny simp imag Nq [] prep = None.
Proof. exact pauli_values_empty. Qed.
Print Assumptions C177_empty.
(** X and Z on the state 3/5 |0> + 4/5 |1>: 24/25 and -7/25, times i. *)
Example C177_case : match pauli_values rrt (fun x : GaussR => ceqb x c0) colour136 true 1 [[PX]; [PZ]] [Gry v136 0] with
  | Some [x; y] => ceqb x (cmul ci ((gq 24 25, gz 0) : GaussR)) && ceqb y (cmul ci ((gq (-7) 25, gz 0) : GaussR)) | _ => false end = true.
Proof. vm_cast_no_check (eq_refl true). Qed.
