(** C136, C137, C138: a whole tomography run on a state vector, and the energy computed from it.  [rt] is 1/sqrt 2; [tiny]
    is the test that skips an amplitude, assumed to hold of zero only; no coefficient that can occur (a Gaussian integer
    divided by 2^7) other than 0 is below the threshold of the operator class. *)
From Coq Require Import Bool List Arith ZArith Reals Lia.
From Verif Require Import Coeff ComplexR Sqrt2 MatSpec MatLemmas FockSpec CircuitSpec CircuitModel TomoModel RdmModel RdmSpec HamModel HamSpec TransformModel PlanModel PlanSpec
  PlanProofs2 PlanProofs3 PlanProofs4 PlanProofs5 PlanProofs6.
Import ListNotations.
Local Open Scope nat_scope.

(** C136.  Whatever the circuit, the measurement settings found by the grouping, and the option real/imaginary: the array
    is the p-RDM of the state the circuit prepares from |0..0>. *)
Theorem C136_tomography_rdm : forall (K : CoefRing) (rt : K), cmul rt rt = chalf -> cconj rt = rt ->
  forall tiny : K -> bool, (forall x, tiny x = true -> x = c0) -> (forall x : K, dyadic 7 x -> small x = true -> x = c0) ->
  forall simp p real imag N nu prep t, 1 <= p <= 3 -> real || imag = true -> sized simp -> (forall g, In g prep -> valid (2 * N) g) ->
    has_up (2 * N) N nu (prepared rt (2 * N) prep) ->
    tomography rt tiny jw_operator simp p real imag N prep = Some t ->
    forall c a, length c = p -> length a = p -> Forall (fun x => x < 2 * N) c -> Forall (fun x => x < 2 * N) a ->
      t (c ++ a) = part real imag (rdm_of (2 * N) (prepared rt (2 * N) prep) c a).
Proof.
  intros K rt H1 H2 tiny H3 H4 simp p real imag N nu prep t Hp RI Sz Va Up T.
  exact (tomography_rdm K rt H1 H2 tiny H3 H4 simp p real imag N nu prep t Hp RI Sz (prepared_norm K rt H1 H2 _ _ Va) Up T).
Qed.
Print Assumptions C136_tomography_rdm.
(** With a proper colouring, or without grouping, the run with real=True returns, for the 2- and the 3-RDM. *)
Theorem C136_returns : forall (K : CoefRing) (rt : K), cmul rt rt = chalf -> cconj rt = rt ->
  forall tiny : K -> bool, (forall x, tiny x = true -> x = c0) -> (forall x : K, dyadic 7 x -> small x = true -> x = c0) ->
  forall simp p imag N prep, 2 <= p <= 3 -> proper simp -> exists t, tomography rt tiny jw_operator simp p true imag N prep = Some t.
Proof.
  intros K rt H1 H2 tiny H3 H4 simp p imag N prep Hp P. exact (tomography_returns K rt H1 H2 tiny H3 H4 simp p true imag N prep Hp eq_refl P).
Qed.
Print Assumptions C136_returns.
(** For the 1-RDM with real=True it never does: the operators of the diagonal elements cannot be built (C32). *)
Theorem C136_one_body_refuted : forall (K : CoefRing) (rt : K) (tiny : K -> bool) transform simp imag N prep, 0 < N -> tomography rt tiny transform simp 1 true imag N prep = None.
Proof. exact tomography_one_body. Qed.
Print Assumptions C136_one_body_refuted.
(** The state is normalised. *)
Theorem C136_normalised : forall (K : CoefRing) (rt : K), cmul rt rt = chalf -> cconj rt = rt ->
  forall N prep, (forall g, In g prep -> valid N g) -> norm2 N (prepared rt N prep) = c1.
Proof. exact prepared_norm. Qed.
Print Assumptions C136_normalised.

(** C137.  The energy of the run is the expectation value of the Hamiltonian plus the constant, for any integrals when the
    imaginary part is measured, and with real=True alone for real symmetric integrals. *)
Theorem C137_energy : forall (K : CoefRing) (rt : K), cmul rt rt = chalf -> cconj rt = rt ->
  forall tiny : K -> bool, (forall x, tiny x = true -> x = c0) -> (forall x : K, dyadic 7 x -> small x = true -> x = c0) ->
  forall simp N Ne nu w h V en_c prep t, sized simp -> (forall g, In g prep -> valid (2 * N) g) ->
    has_up (2 * N) N nu (prepared rt (2 * N) prep) -> has_particles (2 * N) Ne (prepared rt (2 * N) prep) ->
    cmul (cmul (cadd (cadd (cadd c1 c1) c1) c1) w) (ofnat (Ne - 1)) = c1 ->
    tomography rt tiny jw_operator simp 2 true true N prep = Some t ->
    evaluate (2 * N) (build_K2 (2 * N) w h V) en_c t =
      cadd (expect (2 * N) (ham (2 * N) (fun p q => h q p) (fun p t q s => V q s p t)) (prepared rt (2 * N) prep)) en_c.
Proof.
  intros K rt H1 H2 tiny H3 H4 simp N Ne nu w h V en_c prep t Sz Va Up Pa Hw T.
  exact (tomography_energy K rt H1 H2 tiny H3 H4 simp true true N Ne nu w h V en_c prep t eq_refl Sz Va Up Pa Hw (or_introl eq_refl) T).
Qed.
Print Assumptions C137_energy.
Theorem C137_energy_real : forall (K : CoefRing) (rt : K), cmul rt rt = chalf -> cconj rt = rt ->
  forall tiny : K -> bool, (forall x, tiny x = true -> x = c0) -> (forall x : K, dyadic 7 x -> small x = true -> x = c0) ->
  forall simp imag N Ne nu w h V en_c prep t, sized simp -> (forall g, In g prep -> valid (2 * N) g) ->
    has_up (2 * N) N nu (prepared rt (2 * N) prep) -> has_particles (2 * N) Ne (prepared rt (2 * N) prep) ->
    cmul (cmul (cadd (cadd (cadd c1 c1) c1) c1) w) (ofnat (Ne - 1)) = c1 -> cconj w = w ->
    (forall i j, cconj (h i j) = h i j) -> (forall i j, h i j = h j i) ->
    (forall p q s t, cconj (V p q s t) = V p q s t) -> (forall p q s t, V p q s t = V q p t s) -> (forall p q s t, V p q s t = V s t p q) ->
    tomography rt tiny jw_operator simp 2 true imag N prep = Some t ->
    evaluate (2 * N) (build_K2 (2 * N) w h V) en_c t = cadd (expect (2 * N) (ham (2 * N) h V) (prepared rt (2 * N) prep)) en_c /\
    cconj (expect (2 * N) (ham (2 * N) h V) (prepared rt (2 * N) prep)) = expect (2 * N) (ham (2 * N) h V) (prepared rt (2 * N) prep).
Proof. exact tomography_energy_real. Qed.
Print Assumptions C137_energy_real.

(** C138.  Complex numbers with the threshold 1e-12: the energy is real and not below any lower bound of the Hamiltonian on
    normalised states with the same number of particles. *)
Theorem C138_variational : forall (tiny : Cx -> bool) simp imag N Ne nu (w : Cx) (h : nat -> nat -> Cx) (V : nat -> nat -> nat -> nat -> Cx) (en_c : Cx) prep t (low : R), (forall x : Cx, tiny x = true -> x = c0) ->
  sized simp -> (forall g, In g prep -> valid (2 * N) g) ->
  has_up (2 * N) N nu (prepared Crt (2 * N) prep) -> has_particles (2 * N) Ne (prepared Crt (2 * N) prep) ->
  cmul (cmul (cadd (cadd (cadd c1 c1) c1) c1) w) (ofnat (Ne - 1)) = c1 -> snd w = 0%R -> snd en_c = 0%R ->
  (forall i j, snd (h i j) = 0%R) -> (forall i j, h i j = h j i) ->
  (forall p q s t, snd (V p q s t) = 0%R) -> (forall p q s t, V p q s t = V q p t s) -> (forall p q s t, V p q s t = V s t p q) ->
  (forall phi : bits -> Cx, has_particles (2 * N) Ne phi -> norm2 (2 * N) phi = c1 -> (low <= fst (expect (2 * N) (ham (2 * N) h V) phi))%R) ->
  tomography Crt tiny jw_operator simp 2 true imag N prep = Some t ->
  (low + fst en_c <= fst (evaluate (2 * N) (build_K2 (2 * N) w h V) en_c t))%R /\ snd (evaluate (2 * N) (build_K2 (2 * N) w h V) en_c t) = 0%R.
Proof. exact variational. Qed.
Print Assumptions C138_variational.

(** The hypotheses: two orbitals, the state 3/5 |0101> + 4/5 |1010>, every string its own colour. *)
Definition v136 : angle GaussR := ((gq 3 5, gz 0), (gq 4 5, gz 0)).
Definition prep136 : list (gate GaussR) := [Gry v136 0; Gcx 0 1; Gx 1; Gcx 0 2; Gcx 1 3].
Definition colour136 : simplify_option := Simplify Rqwc (fun ps => seq 0 (length ps)).
Definition amps136 : list (bits * GaussR) := steps rrt 4 prep136 (tabulate 4 (zero_state 4)).
Lemma amp136 : forallb (fun e => ceqb (snd e) c0 || bits_eqb (fst e) [false; true; false; true] || bits_eqb (fst e) [true; false; true; false]) amps136 = true /\
  ceqb (lookup amps136 [false; true; false; true]) (gq 3 5, gz 0) = true /\ ceqb (lookup amps136 [true; false; true; false]) (gq 4 5, gz 0) = true.
Proof. vm_compute. auto. Qed.
Lemma support136 (P : bits -> Prop) x : P [false; true; false; true] -> P [true; false; true; false] -> length x = 4 -> prepared rrt 4 prep136 x = c0 \/ P x.
Proof.
  intros P1 P2 L. rewrite prepared_steps by exact L. change (steps rrt 4 prep136 (tabulate 4 (zero_state 4))) with amps136.
  unfold lookup. destruct (find (fun e => bits_eqb (fst e) x) amps136) as [e|] eqn:E; [|left; reflexivity]. apply find_some in E. destruct E as [I X].
  apply bits_eqb_spec in X. subst x. pose proof (proj1 (forallb_forall _ _) (proj1 amp136) e I) as Q. apply orb_prop in Q. destruct Q as [Q|Q]; [apply orb_prop in Q; destruct Q as [Q|Q]|].
  - left. apply (ceqb_spec GaussR). exact Q.
  - right. apply bits_eqb_spec in Q. rewrite Q. exact P1.
  - right. apply bits_eqb_spec in Q. rewrite Q. exact P2.
Qed.
Example C136_case : (forall x : GaussR, dyadic 7 x -> small x = true -> x = c0) /\ (forall g, In g prep136 -> valid 4 g) /\ proper colour136 /\
  has_up (2 * 2) 2 1 (prepared rrt (2 * 2) prep136) /\ has_particles (2 * 2) 2 (prepared rrt (2 * 2) prep136) /\
  prepared rrt 4 prep136 [false; true; false; true] = (gq 3 5, gz 0) /\ prepared rrt 4 prep136 [true; false; true; false] = (gq 4 5, gz 0).
Proof.
  split; [|split; [|split; [|split; [|split; [|split]]]]].
  - intros x _ H. apply (ceqb_spec GaussR). exact H.
  - intros g [<-|[<-|[<-|[<-|[<-|[]]]]]]; split; cbn [gate_ok]; try lia; try exact I.
    split; [|split]; apply (ceqb_spec GaussR); vm_compute; reflexivity.
  - split; [reflexivity|]. intro ps. split; [apply seq_length|]. split.
    + intros c Hc c' L. apply in_seq in Hc. apply in_seq. lia.
    + intros i j x y c Hx Hy Hi Hj k. assert (B : forall n m v, nth_error (seq 0 m) n = Some v -> v = n).
      { intros n m v E. assert (n < m) by (rewrite <- (seq_length m 0); apply nth_error_Some; congruence). apply (nth_error_nth _ _ 0) in E. rewrite seq_nth in E by assumption. lia. }
      apply B in Hi, Hj. subst i j. rewrite Hx in Hy. injection Hy as <-. auto.
  - intros x L H. destruct (support136 (fun x => popcount (firstn 2 x) = 1) x eq_refl eq_refl L) as [E|E]; [exact E|contradiction].
  - intros x L H. destruct (support136 (fun x => popcount x = 2) x eq_refl eq_refl L) as [E|E]; [exact E|contradiction].
  - rewrite prepared_steps by reflexivity. apply (ceqb_spec GaussR). exact (proj1 (proj2 amp136)).
  - rewrite prepared_steps by reflexivity. apply (ceqb_spec GaussR). exact (proj2 (proj2 amp136)).
Qed.
(** One orbital, the state |11>: a whole run with real=True, grouped. *)
Example C136_run : match tomography rrt (fun x : GaussR => ceqb x c0) jw_operator colour136 2 true false 1 [Gx 0; Gx 1] with
  | Some t => ceqb (t [0; 1; 0; 1]) c1 && ceqb (t [0; 1; 1; 0]) (copp c1) && ceqb (t [0; 0; 1; 1]) c0 | None => false end = true.
Proof. vm_compute. reflexivity. Qed.
(** C138 for |1010> and the Hamiltonian -sum n_i: all hypotheses hold, with the bound -2. *)
Example C138_case : exists t, tomography Crt (fun x => if ceqb x c0 then true else false) jw_operator colour136 2 true false 2 [Gx 0; Gx 2] = Some t /\
  (-2 + 0 <= fst (@evaluate Cx 4 (build_K2 4 ((/ 4, 0)%R : Cx) minus_number (fun _ _ _ _ => c0)) c0 t))%R.
Proof.
  assert (Z : forall x : Cx, (if ceqb x c0 then true else false) = true -> x = c0) by (intros x H; apply (ceqb_spec Cx); destruct (ceqb x c0); congruence).
  destruct (C136_returns Cx Crt Crt_sq crt_real _ Z cx_exact colour136 2 false 2 [Gx 0; Gx 2] ltac:(lia) (proj1 (proj2 (proj2 C136_case)))) as [t T].
  exists t. split; [exact T|]. change 0%R with (fst (c0 (c := Cx))) at 1.
  refine (proj1 (C138_variational _ colour136 false 2 2 1 (/ 4, 0)%R minus_number (fun _ _ _ _ => c0) c0 [Gx 0; Gx 2] t (-2)%R Z _ _ _ _ _ _ _ _ _ _ _ _ _ T)).
  - intro ps. apply seq_length.
  - intros g [<-|[<-|[]]]; split; cbn [gate_ok]; try lia; exact I.
  - intros x L H. destruct (support138 x L) as [E|E]; [exact E|subst x; contradiction H; reflexivity].
  - intros x L H. destruct (support138 x L) as [E|E]; [exact E|subst x; contradiction H; reflexivity].
  - apply C_eq; cbn; field.
  - reflexivity.
  - reflexivity.
  - intros i j. unfold minus_number. destruct (Nat.eqb i j); cbn; ring.
  - intros i j. unfold minus_number. rewrite Nat.eqb_sym. reflexivity.
  - reflexivity.
  - reflexivity.
  - reflexivity.
  - exact low138.
Qed.
