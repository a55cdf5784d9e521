(** C98-C101: particle-qubit tomography, Hamiltonian and ACSE operator.  See properties.jsonl. *)
From Coq Require Import Bool List Arith ZArith Sorted Lia.
From Verif Require Import Coeff MatSpec MatLemmas OpSpec FockSpec CircuitSpec FermiModel Sqrt2 RdmModel RdmSpec RdmEnum RdmProofs HamModel HamSpec QRdmModel QRdmSpec QRdmProofs1 QRdmProofs2 QRdmProofs3.
Import ListNotations.

(** ** C98 *)
(** The operator generated for an element has, in every state, the selected part of the element as expectation, unless its
    indices are ascending with one of them twice. *)
Theorem C98_element : forall (K : CoefRing) (c a : list nat) (real imag : bool) (N : nat) (psi : bits -> K),
  length c = length a -> c <> [] -> Forall (fun x => x < N) c -> Forall (fun x => x < N) a -> real || imag = true -> intact (listed c a) ->
  exists op, generate_qrdme (listed c a) real imag N = Some op
    /\ (forall e, In e op -> length (fst e) = N)
    /\ expect N (qop_mat op) psi = part real imag (qrdm_of N psi c a).
Proof. exact generate_qrdme_spec. Qed.
Print Assumptions C98_element.
(** On the others the call raises: the first string shortens the list of indices of its caller.  So it does for every diagonal
    element of the 1-RDM. *)
Theorem C98_ascending_raises : forall (K : CoefRing) (ind : list nat) (real imag : bool) (N : nat), Sorted le ind -> ~ NoDup ind -> @generate_qrdme K ind real imag N = None.
Proof. exact generate_qrdme_raises. Qed.
Print Assumptions C98_ascending_raises.
Theorem C98_diagonal_refuted : exists c a N, length c = length a /\ c <> [] /\ Forall (fun x => x < N) c /\ Forall (fun x => x < N) a /\
  forall (K : CoefRing) real imag, @generate_qrdme K (listed c a) real imag N = None.
Proof.
  exists [0], [0], 1. repeat split; try discriminate; try (repeat constructor). intros K real imag. apply C98_ascending_raises; [repeat constructor|].
  intro H. inversion H as [|? ? X]. apply X. left. reflexivity.
Qed.
Print Assumptions C98_diagonal_refuted.
Theorem C98_neither : forall (K : CoefRing) (ind : list nat) (N : nat), @generate_qrdme K ind false false N = None.
Proof. intros. reflexivity. Qed.
Print Assumptions C98_neither.
(** (3/5)|110> + i|011>, on three modes: the element s+_0 s+_1 s-_2 s-_1. *)
Definition psi98 : bits -> GaussQ := fun x =>
  if bits_eqb x [true; true; false] then gq 3 5 else if bits_eqb x [false; true; true] then gzi 0 1 else c0.
Example C98_case : option_map (@length _) (@generate_qrdme GaussQ (listed [0; 1] [1; 2]) true true 3) = Some 2
  /\ intact (listed [0; 1] [1; 2]) /\ qrdm_of 3 psi98 [0; 1] [1; 2] = cmul (gq 3 5) (gzi 0 1).
Proof. split; [vm_compute; reflexivity|]. split; [apply shortens_spec; reflexivity|apply (ceqb_spec GaussQ); vm_compute; reflexivity]. Qed.

(** ** C99 *)
Theorem C99_reconstruction : forall (K : CoefRing) (p N nu : nat) (psi : bits -> K) (real imag : bool) (value : list nat -> K),
  1 <= p <= 2 -> real || imag = true -> has_up (2 * N) N nu psi ->
  (forall r, In r (rdm_elements p real imag (seq 0 N) (seq N N)) ->
     exists op, generate_qrdme r real imag (2 * N) = Some op /\ value r = expect (2 * N) (qop_mat op) psi) ->
  forall c a, length c = p -> length a = p -> Forall (fun x => x < 2 * N) c -> Forall (fun x => x < 2 * N) a ->
  build_qrdm p (rdm_elements p real imag (seq 0 N) (seq N N)) value (c ++ a) = part real imag (qrdm_of (2 * N) psi c a).
Proof. exact qreconstruction. Qed.
Print Assumptions C99_reconstruction.
(** Exchanging creators, or annihilators, leaves an element unchanged, and repeated indices give 0. *)
Theorem C99_symmetry : forall (K : CoefRing) (R : nat) (psi : bits -> K) (i k j l : nat),
  qrdm_of R psi [k; i] [j; l] = qrdm_of R psi [i; k] [j; l] /\ qrdm_of R psi [i; k] [l; j] = qrdm_of R psi [i; k] [j; l]
  /\ qrdm_of R psi [i; i] [j; l] = c0 /\ qrdm_of R psi [i; k] [j; j] = c0
  /\ qrdm_of R psi [j; l] [i; k] = cconj (qrdm_of R psi [i; k] [j; l]).
Proof.
  intros K R psi i k j l. split; [exact (qrdm_sym_cre K R psi [] k i [] [j; l])|]. split; [exact (qrdm_sym_ann K R psi [] l j [] [i; k])|].
  split; [apply qrdm_dup_cre|]. split; [apply qrdm_dup_ann|apply qrdm_herm].
Qed.
Print Assumptions C99_symmetry.
(** (3/5)|1010> + i|0110>. *)
Definition psi99 : bits -> GaussQ := fun x =>
  if bits_eqb x [true; false; true; false] then gq 3 5 else if bits_eqb x [false; true; true; false] then gzi 0 1 else c0.
Definition value99 (r : list nat) : GaussQ :=
  match generate_qrdme r true true 4 with Some op => expect 4 (qop_mat op) psi99 | None => c0 end.
Example C99_case : has_up 4 2 1 psi99
  /\ (forall r, In r (rdm_elements 2 true true (seq 0 2) (seq 2 2)) ->
       exists op, generate_qrdme r true true 4 = Some op /\ value99 r = expect 4 (qop_mat op) psi99).
Proof.
  split.
  - intros x L H. unfold psi99. destruct (bits_eqb x [true; false; true; false]) eqn:E1.
    + apply bits_eqb_spec in E1. subst x. exfalso. apply H. reflexivity.
    + destruct (bits_eqb x [false; true; true; false]) eqn:E2; [|reflexivity].
      apply bits_eqb_spec in E2. subst x. exfalso. apply H. reflexivity.
  - intros r Hr. unfold value99. destruct (enumeration 2 2 true true) as [E _]; [lia|].
    destruct (E (or_introl eq_refl)) as [_ [E2 _]]. destruct (E2 r Hr) as [c [a [El ->]]]. pose proof El as [_ [_ [L1 [L2 [F1 [F2 _]]]]]].
    destruct (generate_qrdme_spec GaussQ c a true true 4 psi99) as [op [G _]]; [congruence|destruct c; [cbn in L1; lia|discriminate]|assumption|assumption|reflexivity|apply shortens_spec; apply (element_intact 2 2 c a El); left; lia|].
    rewrite G. exists op. auto.
Qed.
Example C99_case_value : build_qrdm 2 (rdm_elements 2 true true (seq 0 2) (seq 2 2)) value99 ([0; 2] ++ [1; 2]) = cmul (gq 3 5) (gzi 0 1).
Proof.
  destruct C99_case as [Hu Hv].
  rewrite (C99_reconstruction GaussQ 2 2 1 psi99 true true value99 ltac:(lia) eq_refl Hu Hv [0; 2] [1; 2] eq_refl eq_refl); [|repeat constructor|repeat constructor].
  cbn [part]. apply (ceqb_spec GaussQ). vm_compute. reflexivity.
Qed.

(** ** C100 *)
Theorem C100_operator : forall (K : CoefRing) (tiny : K -> bool) (d No_as No_core No_tot : nat) (h : nat -> nat -> K) (V : nat -> nat -> nat -> nat -> K),
  No_as <= No_tot -> No_core + No_as + No_tot <= d ->
  exists F, particle_operator tiny d No_as No_core No_tot h V = Some F /\ (forall e, In e F -> length (fst e) = 2 * No_as) /\
    meq (2 * No_as) (qop_mat F)
      (particle_ham (2 * No_as) (fun p q => cut tiny (h (active_mode No_as No_core No_tot p) (active_mode No_as No_core No_tot q)))
         (fun p r q s => cut tiny (V (active_mode No_as No_core No_tot p) (active_mode No_as No_core No_tot r) (active_mode No_as No_core No_tot q) (active_mode No_as No_core No_tot s)))).
Proof. exact particle_operator_spec. Qed.
Print Assumptions C100_operator.
(** [w] is 1/(4*(Ne_tot-1)). *)
Theorem C100_energy : forall (K : CoefRing) (r Ne : nat) (w : K) (h : nat -> nat -> K) (V : nat -> nat -> nat -> nat -> K) (psi : bits -> K),
  has_particles r Ne psi -> cmul (cmul (cadd (cadd (cadd c1 c1) c1) c1) w) (ofnat (Ne - 1)) = c1 ->
  observable r (build_K2_q r w h V) (fun a b c d => qrdm_of r psi [a; b] [c; d]) =
  expect r (particle_ham r (fun p q => h q p) (fun p t q s => V q s p t)) psi.
Proof. exact K2_q_energy. Qed.
Print Assumptions C100_energy.
Definition h100 : nat -> nat -> GaussQ := fun p q => gz (Z.of_nat (p + q)).
Definition V100 : nat -> nat -> nat -> nat -> GaussQ := fun p r q s => gz (Z.of_nat (p * q + r * s)).
Example C100_case : has_particles 3 2 psi98 /\ cmul (cmul (cadd (cadd (cadd c1 c1) c1) c1) (gq 1 4)) (ofnat (2 - 1)) = (c1 : GaussQ)
  /\ ceqb (observable 2 (build_K2_q 2 (gq 1 4) h100 V100) (fun a b c d => qrdm_of 2 (fun x => psi98 (x ++ [false])) [a; b] [c; d])) (gq 27 25) = true
  /\ option_map (@length _) (particle_operator (fun _ => false) 4 2 0 2 h100 V100) = Some 52.
Proof.
  split; [|split; [|split]].
  - intros x Hx Hp. unfold psi98. destruct (bits_eqb x [true; true; false]) eqn:E1; [apply bits_eqb_spec in E1; subst x; now contradiction Hp|].
    destruct (bits_eqb x [false; true; true]) eqn:E2; [apply bits_eqb_spec in E2; subst x; now contradiction Hp|]. reflexivity.
  - apply (ceqb_spec GaussQ). vm_compute. reflexivity.
  - vm_compute. reflexivity.
  - vm_compute. reflexivity.
Qed.

(** ** C101 *)
(** Whatever the values measured for the imaginary elements in the runs (one per Hamiltonian), the operator built from
    the arrays is anti-Hermitian, at every cutoff. *)
Theorem C101_anti_hermitian : forall (K : CoefRing) (hss : K) (N : nat) (values : list (list nat -> K)) (small_term : K -> bool),
  cconj hss = hss -> values <> [] -> (forall x, small_term (copp x) = small_term x) ->
  exists t F, run_all hss (map (fun v i k j l => build_qrdm 2 (rdm_elements 2 false true (seq 0 N) (seq N N)) v [i; k; j; l]) values) = Some t
    /\ pacse_operator small_term (2 * N) t = Some F /\ (forall e, In e F -> length (fst e) = 2 * N) /\
    meq (2 * N) (madj (qop_mat F)) (mscal (copp c1) (qop_mat F)).
Proof. exact pacse_from_tomography. Qed.
Print Assumptions C101_anti_hermitian.
(** Its coefficients: minus the array, cut. *)
Theorem C101_coefficients : forall (K : CoefRing) (small_term : K -> bool) (r : nat) (t : nat -> nat -> nat -> nat -> K),
  exists F, pacse_operator small_term r t = Some F /\ (forall e, In e F -> length (fst e) = r) /\
    meq r (qop_mat F) (fun x y => copp (upto r (fun i => upto r (fun k => upto r (fun j => upto r (fun l =>
      cmul (if small_term (t i k j l) then c0 else t i k j l) (mmul r (splus i) (mmul r (splus k) (mmul r (sminus l) (sminus j))) x y))))))).
Proof. exact pacse_operator_spec. Qed.
Print Assumptions C101_coefficients.
(** The imaginary part, times 1/step, summed over the Hamiltonians. *)
Theorem C101_array : forall (K : CoefRing) (hss : K) (x y : nat -> nat -> nat -> nat -> K) (i k j l : nat),
  option_map (fun t => t i k j l) (run_all hss [x; y])
  = Some (cadd (cmul (cmul (copp (cmul chalf ci)) (csub (x i k j l) (cconj (x i k j l)))) hss) (cmul (cmul (copp (cmul chalf ci)) (csub (y i k j l) (cconj (y i k j l)))) hss)).
Proof. intros. reflexivity. Qed.
Print Assumptions C101_array.
(** Measured values: 3i/5 on one element, and an error of 1/10 - i/10 on all. *)
Definition value101 (r : list nat) : GaussQ :=
  cadd (cmul (gq 1 10) (gzi 1 (-1))) (if bits_eqb (map (fun x => Nat.eqb x 2 || Nat.eqb x 3) r) [false; true; true; false] && Nat.eqb (nth 0 r 9) 0 && Nat.eqb (nth 3 r 9) 1 && Nat.eqb (nth 1 r 9) 2 then cmul (gq 3 5) (gzi 0 1) else c0).
Example C101_case : match run_all (gz 10) [fun i k j l => build_qrdm 2 (rdm_elements 2 false true (seq 0 2) (seq 2 2)) value101 [i; k; j; l]] with
  | Some t => ceqb (t 0 2 1 3) (gz 5) && ceqb (t 1 3 0 2) (gz (-5)) && match pacse_operator (fun x => ceqb x c0) 4 t with Some F => Nat.eqb (length F) 12 | None => false end
  | None => false end = true.
Proof. vm_compute. reflexivity. Qed.
