(** C38 (the reduced Hamiltonian K2), C39 (the Hamiltonian operators), C54 (number and spin operators),
    C66 (active space with a frozen core). *)
From Coq Require Import Bool List Arith ZArith Lia.
From Verif Require Import Coeff Sqrt2 MatSpec MatLemmas FockSpec PauliModel OperatorModel FermiModel TransformModel CircuitSpec RdmSpec InvSpec
  HamModel HamSpec HamProofs HamProofs2 HamProofs3 HamProofs4 HamProofs5.
Import ListNotations.
Local Open Scope nat_scope.

(** ** C38 *)
(** [w] is the code's 1/(4*(Ne-1)).  The contraction of K2 with any antisymmetric D2 is the energy functional,
    D1 being the contraction of D2 divided by Ne-1. *)
Theorem C38_functional : forall (K : CoefRing) (r : nat) (w : K) (h : nat -> nat -> K) (V D : nat -> nat -> nat -> nat -> K),
  (forall a b c d, D b a c d = copp (D a b c d)) -> (forall a b c d, D a b d c = copp (D a b c d)) ->
  observable r (build_K2 r w h V) D =
    cadd (upto r (fun i => upto r (fun j => cmul (h i j) (cmul (cmul (cadd (cadd (cadd c1 c1) c1) c1) w) (upto r (fun k => D j k i k))))))
         (cmul chalf (upto r (fun i => upto r (fun k => upto r (fun j => upto r (fun l => cmul (V i k j l) (D j l i k))))))).
Proof. exact K2_tensor. Qed.
Print Assumptions C38_functional.

(** For the 2-RDM of a state with Ne particles the value is the expectation of the Hamiltonian. *)
Theorem C38_energy : forall (K : CoefRing) (r Ne : nat) (w : K) (h : nat -> nat -> K) (V : nat -> nat -> nat -> nat -> K) (psi : bits -> K),
  has_particles r Ne psi -> cmul (cmul (cadd (cadd (cadd c1 c1) c1) c1) w) (ofnat (Ne - 1)) = c1 ->
  observable r (build_K2 r w h V) (fun a b c d => rdm_of r psi [a; b] [c; d]) =
  expect r (ham r (fun p q => h q p) (fun p t q s => V q s p t)) psi.
Proof. exact K2_energy. Qed.
Print Assumptions C38_energy.

Definition ex_state4 : bits -> GaussQ := fun x =>
  if bits_eqb x [true; false; true; false] then gq 3 5 else if bits_eqb x [false; true; false; true] then gzi 0 1 else c0.
Definition ex_h : nat -> nat -> GaussQ := fun p q => gz (Z.of_nat (p + q)).
Definition ex_V : nat -> nat -> nat -> nat -> GaussQ := fun p r q s => gz (Z.of_nat (p * q + r * s)).
Example C38_case : has_particles 4 2 ex_state4 /\ cmul (cmul (cadd (cadd (cadd c1 c1) c1) c1) (gq 1 4)) (ofnat (2 - 1)) = (c1 : GaussQ) /\
  observable 4 (build_K2 4 (gq 1 4) ex_h ex_V) (fun a b c d => rdm_of 4 ex_state4 [a; b] [c; d]) = gq 372 25.
Proof.
  split; [|split].
  - intros x Hx Hp. unfold ex_state4. destruct (bits_eqb x [true; false; true; false]) eqn:E1; [apply bits_eqb_spec in E1; subst x; now contradiction Hp|].
    destruct (bits_eqb x [false; true; false; true]) eqn:E2; [apply bits_eqb_spec in E2; subst x; now contradiction Hp|]. reflexivity.
  - apply (ceqb_spec GaussQ). vm_compute. reflexivity.
  - apply (ceqb_spec GaussQ). vm_compute. reflexivity.
Qed.

(** ** C66: active space with a frozen core *)
(** Real symmetric integrals with the exchange symmetry of two-electron integrals.  The state has the core modes
    occupied, the modes above the active space empty, and norm 1. *)
Theorem C66_active_space_energy : forall (K : CoefRing) No_as No_core No_tot Ne_as (w : K) (h : nat -> nat -> K)
    (V : nat -> nat -> nat -> nat -> K) (psi : bits -> K),
  No_core + No_as <= No_tot -> 1 <= Ne_as -> cmul (cmul (cadd (cadd (cadd c1 c1) c1) c1) w) (ofnat (Ne_as - 1)) = c1 ->
  (forall p q, h p q = h q p) -> (forall p r q s, V p r q s = V q s p r) -> (forall p r q s, V p r q s = V r p s q) ->
  has_particles (2 * No_tot) (Ne_as + 2 * No_core) psi -> expect (2 * No_tot) mone psi = c1 ->
  (forall p x, core_mode No_core No_tot p -> length x = 2 * No_tot -> nth p x false = false -> psi x = c0) ->
  (forall p x, empty_mode No_as No_core No_tot p -> length x = 2 * No_tot -> nth p x false = true -> psi x = c0) ->
  cadd (core_energy No_core No_tot h V)
    (observable (2 * No_as) (build_K2_active No_as No_core No_tot w h V)
       (fun a b c d => rdm_of (2 * No_tot) psi [active_mode No_as No_core No_tot a; active_mode No_as No_core No_tot b]
                                               [active_mode No_as No_core No_tot c; active_mode No_as No_core No_tot d])) =
  expect (2 * No_tot) (ham (2 * No_tot) h V) psi.
Proof. exact active_energy_spec. Qed.
Print Assumptions C66_active_space_energy.

(** One core, two active and one empty orbital: modes 0 and 4 occupied, 3 and 7 empty. *)
Definition ex_state8 : bits -> GaussQ := fun x =>
  if bits_eqb x [true; true; false; false; true; true; false; false] then gq 3 5
  else if bits_eqb x [true; false; true; false; true; false; true; false] then cmul ci (gq 4 5) else c0.
Lemma ex_state8_cases (P : bits -> Prop) : P [true; true; false; false; true; true; false; false] -> P [true; false; true; false; true; false; true; false] ->
  forall x, ex_state8 x = c0 \/ P x.
Proof.
  intros P1 P2 x. unfold ex_state8. destruct (bits_eqb x [true; true; false; false; true; true; false; false]) eqn:E1; [right; apply bits_eqb_spec in E1; now subst x|].
  destruct (bits_eqb x [true; false; true; false; true; false; true; false]) eqn:E2; [right; apply bits_eqb_spec in E2; now subst x|]. now left.
Qed.
Example C66_case :
  has_particles 8 (2 + 2 * 1) ex_state8 /\ expect 8 mone ex_state8 = c1 /\
  (forall p x, core_mode 1 4 p -> length x = 8 -> nth p x false = false -> ex_state8 x = c0) /\
  (forall p x, empty_mode 2 1 4 p -> length x = 8 -> nth p x false = true -> ex_state8 x = c0) /\
  (forall p q, ex_h p q = ex_h q p) /\ (forall p r q s, ex_V p r q s = ex_V q s p r) /\ (forall p r q s, ex_V p r q s = ex_V r p s q).
Proof.
  split; [|split; [|split; [|split; [|split; [|split]]]]].
  - intros x Hx Hp. destruct (ex_state8_cases (fun x => popcount x = 4) eq_refl eq_refl x) as [H|H]; [exact H|]. now contradiction Hp.
  - apply (ceqb_spec GaussQ). vm_compute. reflexivity.
  - intros p x Hp _ Hn. destruct (ex_state8_cases (fun x => nth 0 x false = true /\ nth 4 x false = true) (conj eq_refl eq_refl) (conj eq_refl eq_refl) x) as [H|[H0 H4]]; [exact H|].
    exfalso. destruct Hp as [Hp|Hp]; [replace p with 0 in Hn by lia|replace p with 4 in Hn by lia]; congruence.
  - intros p x Hp _ Hn. destruct (ex_state8_cases (fun x => nth 3 x false = false /\ nth 7 x false = false) (conj eq_refl eq_refl) (conj eq_refl eq_refl) x) as [H|[H0 H4]]; [exact H|].
    exfalso. destruct Hp as [Hp|Hp]; [replace p with 3 in Hn by lia|replace p with 7 in Hn by lia]; congruence.
  - intros p q. unfold ex_h. now rewrite Nat.add_comm.
  - intros p r q s. unfold ex_V. now rewrite (Nat.mul_comm p q), (Nat.mul_comm r s).
  - intros p r q s. unfold ex_V. now rewrite (Nat.add_comm (p * q)).
Qed.

(** The operators built for the same active space leave the interaction with the core out. *)

Theorem C66_operator_energy_refuted : exists (K : CoefRing) (tiny : K -> bool) (h : nat -> nat -> K) (V : nat -> nat -> nat -> nat -> K) F (psi phi : bits -> K),
  fermi_operator tiny 4 1 1 2 h V = Some F /\
  (forall p q, h p q = h q p) /\ (forall p r q s, V p r q s = V q s p r) /\ (forall p r q s, V p r q s = V r p s q) /\
  (forall x, tiny x = true -> x = c0) /\
  expect 4 mone psi = c1 /\ expect 2 mone phi = c1 /\ psi [true; true; true; true] = phi [true; true] /\
  cadd (core_energy 1 2 h V) (expect 2 (fmat F) phi) <> expect 4 (ham 4 h V) psi.
Proof.
  pose (h := fun _ _ : nat => (c0 : GaussQ)). pose (V := fun p r q s => if Nat.eqb p q && Nat.eqb r s then (c1 : GaussQ) else c0).
  pose (tiny := fun x : GaussQ => ceqb x c0). pose (phi := fun x => if bits_eqb x [true; true] then (c1 : GaussQ) else c0).
  destruct (fermi_operator_spec GaussQ tiny 4 1 1 2 h V) as [F [E [_ M]]]; [lia|lia|].
  exists GaussQ, tiny, h, V, F, (fun x => if bits_eqb x [true; true; true; true] then c1 else c0), phi.
  split; [exact E|].
  split; [reflexivity|]. split; [intros; unfold V; now rewrite (Nat.eqb_sym p q), (Nat.eqb_sym r s)|]. split; [intros; unfold V; now rewrite (andb_comm (Nat.eqb p q))|].
  split; [intros x H; now apply (ceqb_spec GaussQ)|].
  split; [apply (ceqb_spec GaussQ); vm_compute; reflexivity|]. split; [apply (ceqb_spec GaussQ); vm_compute; reflexivity|]. split; [reflexivity|].
  rewrite (RdmFock.expect_ext GaussQ 2 _ _ phi M).
  intro H. rewrite !expect_ham in H. apply (f_equal (fun x => ceqb x (gz 6))) in H. vm_compute in H. discriminate.
Qed.
Print Assumptions C66_operator_energy_refuted.

(** ** C39 *)
(** The arrays of integrals have [d] rows. *)
Theorem C39_fermionic_operator : forall (K : CoefRing) (tiny : K -> bool) (d No_as No_core No_tot : nat) (h : nat -> nat -> K) (V : nat -> nat -> nat -> nat -> K),
  No_as <= No_tot -> No_core + No_as + No_tot <= d ->
  exists F, fermi_operator tiny d No_as No_core No_tot h V = Some F /\ (forall e, In e F -> length (fst e) = 2 * No_as) /\
    meq (2 * No_as) (fmat F)
      (ham (2 * No_as) (fun p q => HamSpec.cut tiny (h (active_mode No_as No_core No_tot p) (active_mode No_as No_core No_tot q)))
         (fun p r q s => HamSpec.cut tiny (V (active_mode No_as No_core No_tot p) (active_mode No_as No_core No_tot r)
                                             (active_mode No_as No_core No_tot q) (active_mode No_as No_core No_tot s)))).
Proof. exact fermi_operator_spec. Qed.
Print Assumptions C39_fermionic_operator.
Example C39_case : match fermi_operator (fun x : GaussQ => ceqb x c0) 4 2 0 2 ex_h ex_V with Some F => length F | None => 0 end = 51.
Proof. vm_compute. reflexivity. Qed.

(** The qubit operator, Jordan-Wigner transform: strings whose terms all fall below the threshold are excluded. *)
Theorem C39_qubit_operator : forall (K : CoefRing) (N : nat) (F : list (fstr * K)),
  (forall e, In e F -> length (fst e) = N /\ small (cmul (cpow chalf (length (flat 0 (fst e)))) (snd e)) = false) ->
  exists D, (forall e, In e D -> small (snd e) = true) /\ meq N (madd (omat (qubit_operator F)) (omat D)) (fmat F).
Proof. exact qubit_operator_spec. Qed.
Print Assumptions C39_qubit_operator.
Example C39_qubit_case : let F : list (fstr * GaussQ) := [([Some Cre; Some Ann], gz 4); ([Some Ann; Some Cre], gz (-4))] in
  (forall e, In e F -> length (fst e) = 2 /\ small (cmul (cpow chalf (length (flat 0 (fst e)))) (snd e)) = false) /\
  qubit_operator F = [([PX; PX], gz 2); ([PY; PY], gz 2)].
Proof. split; [intros e [<-|[<-|[]]]; split; vm_compute; reflexivity|vm_compute; reflexivity]. Qed.

(** Arrays of the size of the active space with a core: the constructor raises. *)
Theorem C39_core_outside_arrays : forall (K : CoefRing) (tiny : K -> bool) (d No_as No_core No_tot : nat) (h : nat -> nat -> K) (V : nat -> nat -> nat -> nat -> K),
  1 <= No_as -> d < No_core + No_as + No_tot -> fermi_operator tiny d No_as No_core No_tot h V = None.
Proof. exact fermi_operator_raises. Qed.
Print Assumptions C39_core_outside_arrays.

(** ** C54 *)
Theorem C54_number : forall (K : CoefRing) (orbitals : option (list nat)) (N : nat),
  (forall l, orbitals = Some l -> forall i, In i l -> i < N) ->
  exists R : list (fstr * K), number orbitals N = Some R /\ (forall e, In e R -> length (fst e) = N) /\
    meq N (fmat R) (diag (fun x => of_nat (occupied (match orbitals with None => seq 0 N | Some l => l end) x))).
Proof. exact number_spec. Qed.
Print Assumptions C54_number.
Theorem C54_spin_projected : forall (K : CoefRing) (alpha beta : list nat) (N : nat), (forall i, In i (alpha ++ beta) -> i < N) ->
  exists R : list (fstr * K), spin_projected alpha beta N = Some R /\ (forall e, In e R -> length (fst e) = N) /\
    meq N (fmat R) (diag (fun x => cmul chalf (csub (of_nat (occupied alpha x)) (of_nat (occupied beta x))))).
Proof. exact spin_projected_spec. Qed.
Print Assumptions C54_spin_projected.
Theorem C54_spin_plus : forall (K : CoefRing) (spatial alpha beta : list nat) (N : nat),
  (forall s, In s spatial -> s < length alpha /\ s < length beta) -> (forall p, In p (pairs spatial alpha beta) -> fst p < N /\ snd p < N) ->
  exists R : list (fstr * K), spin_plus spatial alpha beta N = Some R /\ (forall e, In e R -> length (fst e) = N) /\ meq N (fmat R) (S_plus N (pairs spatial alpha beta)).
Proof. exact spin_plus_spec. Qed.
Print Assumptions C54_spin_plus.
Theorem C54_spin_minus : forall (K : CoefRing) (spatial alpha beta : list nat) (N : nat),
  (forall s, In s spatial -> s < length alpha /\ s < length beta) -> (forall p, In p (pairs spatial alpha beta) -> fst p < N /\ snd p < N) ->
  exists R : list (fstr * K), spin_minus spatial alpha beta N = Some R /\ (forall e, In e R -> length (fst e) = N) /\ meq N (fmat R) (S_minus N (pairs spatial alpha beta)).
Proof. exact spin_minus_spec. Qed.
Print Assumptions C54_spin_minus.
Theorem C54_spin_z : forall (K : CoefRing) (spatial alpha beta : list nat) (N : nat),
  (forall s, In s spatial -> s < length alpha /\ s < length beta) -> (forall p, In p (pairs spatial alpha beta) -> fst p < N /\ snd p < N) ->
  exists R : list (fstr * K), partial_projected_spin spatial alpha beta N = Some R /\ (forall e, In e R -> length (fst e) = N) /\ meq N (fmat R) (S_z (pairs spatial alpha beta)).
Proof. exact partial_projected_spin_spec. Qed.
Print Assumptions C54_spin_z.
(** S^2 = Sx^2 + Sy^2 + Sz^2, up to terms below the threshold. *)
Theorem C54_spin_squared : forall (K : CoefRing) (spatial alpha beta : list nat) (N : nat),
  (forall s, In s spatial -> s < length alpha /\ s < length beta) -> (forall p, In p (pairs spatial alpha beta) -> fst p < N /\ snd p < N) ->
  NoDup (map fst (pairs spatial alpha beta)) -> NoDup (map snd (pairs spatial alpha beta)) ->
  exists R D : list (fstr * K), total_spin_squared spatial alpha beta N = Some R /\ (forall e, In e D -> small (snd e) = true) /\
    meq N (madd (fmat R) (fmat D)) (S_squared N (pairs spatial alpha beta)).
Proof. exact total_spin_squared_spec. Qed.
Print Assumptions C54_spin_squared.
Example C54_case : (forall s, In s [0; 1] -> s < length [0; 1] /\ s < length [2; 3]) /\
  pairs [0; 1] [0; 1] [2; 3] = [(0, 2); (1, 3)] /\ NoDup (map fst (pairs [0; 1] [0; 1] [2; 3])) /\ NoDup (map snd (pairs [0; 1] [0; 1] [2; 3])) /\
  match total_spin_squared (K := GaussQ) [0; 1] [0; 1] [2; 3] 4 with Some R => length R | None => 0 end = 14.
Proof.
  split; [intros s [<-|[<-|[]]]; cbn; lia|]. split; [reflexivity|].
  split; [repeat constructor; cbn; intuition discriminate|]. split; [repeat constructor; cbn; intuition discriminate|].
  vm_compute. reflexivity.
Qed.
