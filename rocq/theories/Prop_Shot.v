(** C167, C168: measurements by shots.  Every shot of a circuit is an independent sample of Born's rule; a backend returns the
    numbers of the outcomes.  Means are over all the lists of n shots. *)
From Coq Require Import Bool List Arith ZArith QArith Reals Qreals Lia Lra.
From Verif Require Import Coeff ComplexR MatSpec FockSpec CircuitSpec CircuitModel TomoModel RdmModel RdmSpec HamModel HamSpec TransformModel PlanModel PlanSpec
  ShotSpec ShotModel ShotProofs ShotProofs2 PlanProofs6 Prop_Plan.
Import ListNotations.
Local Open Scope nat_scope.

(** C167.  From the counts of n>0 shots the processor returns the average of the eigenvalues over the shots. *)
Theorem C167_value : forall (N n : nat) (s : list pauli) (l : list (list bool)) counts,
  0 < n -> length s <= N -> sample N n l -> tallies l counts ->
  exists q, measure_counts N s counts = Some q /\ Q2R q = (IZR (zsum (map (eigenvalue s) l)) / INR n)%R.
Proof. exact counts_value. Qed.
Print Assumptions C167_value.
(** Its mean is the average of the string, its variance (1 - average^2) / n. *)
Theorem C167_unbiased : forall (N n : nat) p s est, 0 < n -> length s <= N -> distribution N p -> estimates N n s est ->
  mean N n p est = average N p s.
Proof. exact unbiased. Qed.
Print Assumptions C167_unbiased.
Theorem C167_variance : forall (N n : nat) p s est, 0 < n -> length s <= N -> distribution N p -> estimates N n s est ->
  mean N n p (fun l => (est l - average N p s) * (est l - average N p s))%R = ((1 - average N p s * average N p s) / INR n)%R.
Proof. exact variance. Qed.
Print Assumptions C167_variance.
(** The probability of an error of eps or more. *)
Theorem C167_error : forall (N n : nat) p s est eps, 0 < n -> length s <= N -> distribution N p -> estimates N n s est -> (0 < eps)%R ->
  (mean N n p (fun l => if Rle_dec eps (Rabs (est l - average N p s)) then 1 else 0) <= (1 - average N p s * average N p s) / (INR n * (eps * eps)))%R.
Proof. exact chebyshev. Qed.
Print Assumptions C167_error.
(** Circuits: the outcomes of a circuit followed by the basis change of m are a distribution, and the average of a string
    that agrees with m is its expectation value in the state the circuit prepares. *)
Theorem C167_state : forall N prep m s, length m = N -> (forall g, In g prep -> valid N g) -> agrees s m ->
  distribution N (outcomes N prep m) /\ ((average N (outcomes N prep m) s, 0%R) : Cx) = expect N (pmat s) (prepared Crt N prep).
Proof. intros N prep m s L V A. exact (conj (outcomes_distribution N prep m L V) (outcomes_average N prep m s L A)). Qed.
Print Assumptions C167_state.

(** There are such estimates for every number of shots; the string X on the state |0>, measured by its circuit. *)
Example C167_case : (forall N n s, 0 < n -> length s <= N -> exists est, estimates N n s est)
  /\ tallies [[true]; [false]; [true]] [([true], 2%Z); ([false], 1%Z)] /\ sample 1 3 [[true]; [false]; [true]]
  /\ distribution 1 (outcomes 1 [] [PX]) /\ agrees [PX] [PX]
  /\ measure_counts 1 [PX] [([true], 2%Z); ([false], 1%Z)] = Some (-1 # 3)%Q.
Proof.
  split; [|split; [|split; [|split; [|split]]]].
  - intros N n s Hn Hs. exists (fun l => Q2R (match measure_counts N s (tally l) with Some q => q | None => 0%Q end)). intros l Hl.
    destruct (counts_value N n s l (tally l) Hn Hs Hl (tally_ok l)) as [q [Q _]]. exists (tally l), q. rewrite Q. split; [apply tally_ok|auto].
  - assert (E : [([true], 2%Z); ([false], 1%Z)] = rev (tally [[true]; [false]; [true]])) by reflexivity. rewrite E.
    destruct (tally_ok [[true]; [false]; [true]]) as [A B]. split; [rewrite map_rev; apply NoDup_rev; exact A|]. intros d k. rewrite <- in_rev. apply B.
  - split; [reflexivity|]. intros b [<-|[<-|[<-|[]]]]; reflexivity.
  - apply outcomes_distribution; [reflexivity|intros g []].
  - repeat constructor.
  - reflexivity.
Qed.

(** C168.  A whole tomography from counts: with n>0 shots of every setting the run returns, whatever the outcomes. *)
Theorem C168_returns : forall simp p real imag N n, 1 <= p <= 3 -> real || imag = true -> sized simp -> 0 < n ->
  forall settings ws counts, settings_of jw_operator simp p real imag N = Some settings -> samples (2 * N) n (length settings) ws -> Forall2 tallies ws counts ->
  exists t, tomography_counts jw_operator simp p real imag N counts = Some t.
Proof. exact counts_return. Qed.
Print Assumptions C168_returns.
(** The mean of every entry of the array is the entry of the p-RDM of the state the circuit prepares. *)
Theorem C168_rdm : forall simp p real imag N n prep, 1 <= p <= 3 -> real || imag = true -> sized simp -> (forall g, In g prep -> valid (2 * N) g) -> 0 < n ->
  forall settings est, settings_of jw_operator simp p real imag N = Some settings ->
    (forall ws, samples (2 * N) n (length settings) ws -> exists counts, Forall2 tallies ws counts /\ tomography_counts jw_operator simp p real imag N counts = Some (est ws)) ->
    forall nu, has_up (2 * N) N nu (prepared Crt (2 * N) prep) ->
    forall c a, length c = p -> length a = p -> Forall (fun x => x < 2 * N) c -> Forall (fun x => x < 2 * N) a ->
      cmeans (2 * N) n (map (outcomes (2 * N) prep) settings) (fun ws => est ws (c ++ a)) = part real imag (rdm_of (2 * N) (prepared Crt (2 * N) prep) c a).
Proof. exact counts_rdm. Qed.
Print Assumptions C168_rdm.
(** The mean of the energy is the expectation value of the Hamiltonian plus the constant. *)
Theorem C168_energy : forall simp imag N n Ne nu prep settings est (w : Cx) h V en_c, sized simp -> (forall g, In g prep -> valid (2 * N) g) -> 0 < n ->
  settings_of jw_operator simp 2 true imag N = Some settings ->
  (forall ws, samples (2 * N) n (length settings) ws -> exists counts, Forall2 tallies ws counts /\ tomography_counts jw_operator simp 2 true imag N counts = Some (est ws)) ->
  has_up (2 * N) N nu (prepared Crt (2 * N) prep) -> has_particles (2 * N) Ne (prepared Crt (2 * N) prep) ->
  cmul (cmul (cadd (cadd (cadd c1 c1) c1) c1) w) (ofnat (Ne - 1)) = c1 -> cconj w = w ->
  (forall i j, cconj (h i j) = h i j) -> (forall i j, h i j = h j i) ->
  (forall p q s t, cconj (V p q s t) = V p q s t) -> (forall p q s t, V p q s t = V q p t s) -> (forall p q s t, V p q s t = V s t p q) ->
  cmeans (2 * N) n (map (outcomes (2 * N) prep) settings) (fun ws => evaluate (2 * N) (build_K2 (2 * N) w h V) en_c (est ws)) =
    cadd (expect (2 * N) (ham (2 * N) h V) (prepared Crt (2 * N) prep)) en_c.
Proof. exact counts_energy. Qed.
Print Assumptions C168_energy.

(** Settings and estimates exist for every proper grouping and every number of shots; two orbitals, the state |1010>, 100 shots
    per setting and the Hamiltonian -sum n_i meet all the hypotheses of C168_energy. *)
Example C168_exists : forall simp imag N n, proper simp -> sized simp -> 0 < n ->
  exists settings est, settings_of jw_operator simp 2 true imag N = Some settings /\
    forall ws, samples (2 * N) n (length settings) ws -> exists counts, Forall2 tallies ws counts /\ tomography_counts jw_operator simp 2 true imag N counts = Some (est ws).
Proof.
  intros simp imag N n P Sz Hn. assert (P2 : 1 <= 2 <= 3) by lia. destruct (settings_exist simp 2 true imag N ltac:(lia) eq_refl P) as [settings E]. exists settings.
  exists (fun ws => match tomography_counts jw_operator simp 2 true imag N (map tally ws) with Some t => t | None => tzero (K := Cx) end).
  split; [exact E|]. intros ws W. exists (map tally ws).
  assert (T : Forall2 tallies ws (map tally ws)) by (clear; induction ws as [|l ws IH]; cbn [map]; constructor; [apply tally_ok|exact IH]).
  split; [exact T|]. destruct (counts_return simp 2 true imag N n P2 eq_refl Sz Hn settings ws _ E W T) as [t ->]. reflexivity.
Qed.
Example C168_case : exists settings est, settings_of jw_operator colour136 2 true false 2 = Some settings /\
  cmeans 4 100 (map (outcomes 4 [Gx 0; Gx 2]) settings) (fun ws => evaluate 4 (build_K2 4 ((/ 4, 0)%R : Cx) minus_number (fun _ _ _ _ => c0)) c0 (est ws)) =
    cadd (expect 4 (ham 4 minus_number (fun _ _ _ _ => c0)) (prepared Crt 4 [Gx 0; Gx 2])) c0.
Proof.
  assert (Sz : sized colour136) by (intro ps; apply seq_length).
  destruct (C168_exists colour136 false 2 100 (proj1 (proj2 (proj2 C136_case))) Sz ltac:(lia)) as [settings [est [E H]]]. exists settings, est. split; [exact E|].
  assert (V : forall g, In g [Gx 0; Gx 2] -> valid (K := Cx) (2 * 2) g) by (intros g [<-|[<-|[]]]; split; cbn [gate_ok]; try lia; exact I).
  apply (C168_energy colour136 false 2 100 2 1 [Gx 0; Gx 2] settings est (/ 4, 0)%R minus_number (fun _ _ _ _ => c0) c0 Sz V ltac:(lia) E H).
  - intros x L H'. destruct (support138 x L) as [X|X]; [exact X|subst x; contradiction H'; reflexivity].
  - intros x L H'. destruct (support138 x L) as [X|X]; [exact X|subst x; contradiction H'; reflexivity].
  - apply C_eq; cbn; field.
  - apply C_eq; cbn; ring.
  - intros i j. unfold minus_number. destruct (Nat.eqb i j); apply C_eq; cbn; ring.
  - intros i j. unfold minus_number. rewrite Nat.eqb_sym. reflexivity.
  - intros. apply C_eq; cbn; ring.
  - reflexivity.
  - reflexivity.
Qed.
