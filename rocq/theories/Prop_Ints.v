(** C102 (spin-orbital integrals), C103 (the electronic Hamiltonian), C104 (updating integrals), C105 (orbital reordering). *)
From Coq Require Import Bool List Arith ZArith Lia.
From Verif Require Import Coeff Sqrt2 MatSpec MatLemmas FockSpec FermiModel CircuitSpec RdmSpec InvSpec InvModel HamModel HamSpec
  IntsModel IntsSpec IntsProofs1 IntsProofs3 IntsProofs4 IntsProofs5.
Import ListNotations.
Local Open Scope nat_scope.

(** * C102: the spin-orbital integrals. *)
(** Both spins, every split of the orbitals into core, active and virtual: the one-electron array is <i|h|j>. *)
Theorem C102_one_electron : forall (K : CoefRing) N No_as No_core (Ua Ub h : nat -> nat -> K), No_core + No_as <= N ->
  exists t, generate_spin_1ei N h Ua Ub (alpha_mo No_as No_core N) (beta_mo No_as No_core N) Full (spin2spac N) None = Some t /\
    forall i j, i < 2 * N -> j < 2 * N -> t i j = one_electron N Ua Ub h i j.
Proof. intros K N No_as No_core Ua Ub h HN. exact (full_1ei K N No_as No_core HN Ua Ub h). Qed.
Print Assumptions C102_one_electron.

(** The two-electron array holds (ij|kl) at [i,k,j,l], and 0 where i = k or j = l. *)
Theorem C102_two_electron : forall (K : CoefRing) N No_as No_core (Ua Ub : nat -> nat -> K) (V : nat -> nat -> nat -> nat -> K), No_core + No_as <= N ->
  exists t, generate_spin_2ei N V Ua Ub (alpha_mo No_as No_core N) (beta_mo No_as No_core N) Full (spin2spac N) None = Some t /\
    forall i k j l, i < 2 * N -> k < 2 * N -> j < 2 * N -> l < 2 * N ->
      t i k j l = if Nat.eqb i k || Nat.eqb j l then c0 else two_electron N Ua Ub V i j k l.
Proof. intros K N No_as No_core Ua Ub V HN. exact (full_2ei K N No_as No_core HN Ua Ub V). Qed.
Print Assumptions C102_two_electron.

(** From integrals in physicists' order, [ac|bd] stored at a,c,b,d, the same array. *)
Theorem C102_two_electron_phys : forall (K : CoefRing) N No_as No_core (Ua Ub : nat -> nat -> K) (W : nat -> nat -> nat -> nat -> K), No_core + No_as <= N ->
  exists t, generate_spin_2ei_phys N W Ua Ub (alpha_mo No_as No_core N) (beta_mo No_as No_core N) Full (spin2spac N) None = Some t /\
    forall i k j l, i < 2 * N -> k < 2 * N -> j < 2 * N -> l < 2 * N ->
      t i k j l = if Nat.eqb i k || Nat.eqb j l then c0 else two_electron N Ua Ub (fun a b c d => W a c b d) i j k l.
Proof. intros K N No_as No_core Ua Ub W HN. exact (full_2ei K N No_as No_core HN Ua Ub (fun a b c d => W a c b d)). Qed.
Print Assumptions C102_two_electron_phys.

(** The third variant keeps chemists' order and leaves nothing out. *)
Theorem C102_two_electron_chem : forall (K : CoefRing) N No_as No_core (Ua Ub : nat -> nat -> K) (V : nat -> nat -> nat -> nat -> K), No_core + No_as <= N ->
  exists t, generate_spin_2ei_pyscf N V Ua Ub (alpha_mo No_as No_core N) (beta_mo No_as No_core N) Full (spin2spac N) None = Some t /\
    forall i k j l, i < 2 * N -> k < 2 * N -> j < 2 * N -> l < 2 * N -> t i j k l = two_electron N Ua Ub V i j k l.
Proof. intros K N No_as No_core Ua Ub V HN. exact (full_pyscf K N No_as No_core HN Ua Ub V). Qed.
Print Assumptions C102_two_electron_chem.

(** Symmetric input gives symmetric output: the symmetries the reduced Hamiltonian relies on. *)
Theorem C102_symmetry : forall (K : CoefRing) N No_as No_core (Ua Ub h : nat -> nat -> K) (V : nat -> nat -> nat -> nat -> K), No_core + No_as <= N ->
  (forall a b, h a b = h b a) -> (forall a b c d, V a b c d = V c d a b) -> (forall a b c d, V a b c d = V b a c d) -> (forall a b c d, V a b c d = V a b d c) ->
  exists t v, generate_spin_1ei N h Ua Ub (alpha_mo No_as No_core N) (beta_mo No_as No_core N) Full (spin2spac N) None = Some t /\
    generate_spin_2ei N V Ua Ub (alpha_mo No_as No_core N) (beta_mo No_as No_core N) Full (spin2spac N) None = Some v /\
    (forall i j, i < 2 * N -> j < 2 * N -> t i j = t j i) /\
    (forall p r q s, p < 2 * N -> r < 2 * N -> q < 2 * N -> s < 2 * N -> v p r q s = v q s p r /\ v p r q s = v r p s q).
Proof.
  intros K N No_as No_core Ua Ub h V HN Sh S1 S2 S3.
  destruct (full_1ei K N No_as No_core HN Ua Ub h) as [t [E1 H1]], (full_2ei K N No_as No_core HN Ua Ub V) as [v [E2 H2]].
  exists t, v. split; [exact E1|]. split; [exact E2|]. split.
  - intros i j Hi Hj. rewrite !H1 by assumption. now apply one_sym.
  - intros p r q s Hp Hr Hq Hs. rewrite !H2 by assumption. rewrite (orb_comm (Nat.eqb q s)), (Nat.eqb_sym r p), (Nat.eqb_sym s q).
    destruct (Nat.eqb p r || Nat.eqb q s); [split; reflexivity|]. split.
    + rewrite (two_swap_bra K N Ua Ub V p q r s S2). now apply two_swap_ket.
    + now apply two_swap_pairs.
Qed.
Print Assumptions C102_symmetry.

(** N = 2, one active orbital, one core: <0|h|1> between orbitals mixing two basis functions. *)
Example C102_example : option_map (fun t => @ceqb GaussQ (t 0 1) (gz 13) && @ceqb GaussQ (t 0 3) (gz 0) && @ceqb GaussQ (t 2 3) (gz 2))%bool
  (generate_spin_1ei (K := GaussQ) 2 (fun a b => gz (Z.of_nat (1 + a + b))) (fun i a => gz (Z.of_nat (1 + i * a))) (fun i a => if Nat.eqb i a then gz 1 else gz 0)
     (alpha_mo 1 1 2) (beta_mo 1 1 2) Full (spin2spac 2) None) = Some true.
Proof. vm_compute. reflexivity. Qed.

(** * C103: the operators and energies are those of the electronic Hamiltonian. *)
(** The Hamiltonian with the generated integrals is the electronic Hamiltonian in the basis functions, for every pair of
    coefficient matrices (orthogonal or not): the entries left out act as zero. *)
Theorem C103_hamiltonian : forall (K : CoefRing) N No_as No_core (Ua Ub h : nat -> nat -> K) (V : nat -> nat -> nat -> nat -> K), No_core + No_as <= N ->
  exists h' V', generate_spin_1ei N h Ua Ub (alpha_mo No_as No_core N) (beta_mo No_as No_core N) Full (spin2spac N) None = Some h' /\
    generate_spin_2ei N V Ua Ub (alpha_mo No_as No_core N) (beta_mo No_as No_core N) Full (spin2spac N) None = Some V' /\
    meq (2 * N) (ham (2 * N) h' V') (basis_ham N Ua Ub h V).
Proof. intros K N No_as No_core Ua Ub h V HN. exact (full_ham K N No_as No_core HN Ua Ub h V). Qed.
Print Assumptions C103_hamiltonian.

(** The fermionic operator built from the generated integrals, when only zeros are below the threshold. *)
Theorem C103_operator : forall (K : CoefRing) (tiny : K -> bool) N (Ua Ub h : nat -> nat -> K) (V : nat -> nat -> nat -> nat -> K),
  (forall x, tiny x = true -> x = c0) ->
  exists h' V' F, generate_spin_1ei N h Ua Ub (alpha_mo N 0 N) (beta_mo N 0 N) Full (spin2spac N) None = Some h' /\
    generate_spin_2ei N V Ua Ub (alpha_mo N 0 N) (beta_mo N 0 N) Full (spin2spac N) None = Some V' /\
    fermi_operator tiny (2 * N) N 0 N h' V' = Some F /\ (forall e, In e F -> length (fst e) = 2 * N) /\
    meq (2 * N) (fmat F) (basis_ham N Ua Ub h V).
Proof. intros K tiny N Ua Ub h V. exact (full_operator K N tiny Ua Ub h V). Qed.
Print Assumptions C103_operator.

(** The energy from the reduced Hamiltonian and the 2-RDM of any state with Ne >= 2 electrons. *)
Theorem C103_energy : forall (K : CoefRing) N No_as No_core (Ua Ub h : nat -> nat -> K) (V : nat -> nat -> nat -> nat -> K) (w : K) Ne (psi : bits -> K), No_core + No_as <= N ->
  (forall a b, h a b = h b a) -> (forall a b c d, V a b c d = V b a c d) -> (forall a b c d, V a b c d = V a b d c) ->
  has_particles (2 * N) Ne psi -> cmul (cmul (cadd (cadd (cadd c1 c1) c1) c1) w) (ofnat (Ne - 1)) = c1 ->
  exists h' V', generate_spin_1ei N h Ua Ub (alpha_mo No_as No_core N) (beta_mo No_as No_core N) Full (spin2spac N) None = Some h' /\
    generate_spin_2ei N V Ua Ub (alpha_mo No_as No_core N) (beta_mo No_as No_core N) Full (spin2spac N) None = Some V' /\
    observable (2 * N) (build_K2 (2 * N) w h' V') (fun a b c d => rdm_of (2 * N) psi [a; b] [c; d]) = expect (2 * N) (basis_ham N Ua Ub h V) psi.
Proof. intros K N No_as No_core Ua Ub h V w Ne psi HN. exact (full_energy K N No_as No_core HN Ua Ub h V w Ne psi). Qed.
Print Assumptions C103_energy.

(** One orbital, scaled: h = 3, (00|00) = 5, coefficient 2 for both spins, both electrons present: 2*4*3 + 16*5. *)
Example C103_example : @ceqb GaussQ (basis_ham (K := GaussQ) 1 (fun _ _ => gz 2) (fun _ _ => gz 2) (fun _ _ => gz 3) (fun _ _ _ _ => gz 5) [true; true] [true; true]) (gz 104) = true.
Proof. vm_compute. reflexivity. Qed.

(** * C104: updating integrals in the active region. *)
(** One-electron integrals: replaced where both spin orbitals lie in the core or active space, have the same spin; kept elsewhere. *)
Theorem C104_one_electron : forall (K : CoefRing) N No_as No_core (Ua Ub h old : nat -> nat -> K), No_core + No_as <= N ->
  exists t, generate_spin_1ei N h Ua Ub (alpha_mo No_as No_core N) (beta_mo No_as No_core N) Active (spin2spac N) (Some old) = Some t /\
    forall i j, i < 2 * N -> j < 2 * N ->
      (spatial N i < No_core + No_as -> spatial N j < No_core + No_as -> down N i = down N j -> t i j = one_electron N Ua Ub h i j) /\
      (No_core + No_as <= spatial N i \/ No_core + No_as <= spatial N j \/ down N i <> down N j -> t i j = old i j).
Proof.
  intros K N No_as No_core Ua Ub h old HN. destruct (spin_1ei_spec K No_as No_core N HN h Ua Ub Active (Some old)) as [t [E H]]. exists t. split; [exact E|].
  intros i j Hi Hj. rewrite H. unfold inside. cbn [extent]. apply Nat.ltb_lt in Hi, Hj. rewrite Hi, Hj. cbn [andb]. split.
  - intros A B C. apply Nat.ltb_lt in A, B. rewrite A, B, C. destruct (down N j); reflexivity.
  - intros [A|[A|A]].
    + apply Nat.ltb_ge in A. now rewrite A.
    + apply Nat.ltb_ge in A. rewrite A. now rewrite andb_false_r.
    + apply Bool.eqb_false_iff in A. rewrite A. now rewrite andb_false_r.
Qed.
Print Assumptions C104_one_electron.

(** Two-electron integrals: exactly what the update does.  Missing: replacement, since the old entries stay in the sums. *)
Theorem C104_two_electron_partial : forall (K : CoefRing) N No_as No_core (Ua Ub : nat -> nat -> K) (V old : nat -> nat -> nat -> nat -> K), No_core + No_as <= N ->
  exists t, generate_spin_2ei N V Ua Ub (alpha_mo No_as No_core N) (beta_mo No_as No_core N) Active (spin2spac N) (Some old) = Some t /\
    forall i k j l, i < 2 * N -> k < 2 * N -> j < 2 * N -> l < 2 * N ->
      ((forall x, In x [i; k; j; l] -> spatial N x < No_core + No_as) -> i <> k -> j <> l -> t i k j l = cadd (old i k j l) (two_electron N Ua Ub V i j k l)) /\
      ((exists x, In x [i; k; j; l] /\ No_core + No_as <= spatial N x) -> t i k j l = old i k j l) /\
      (i = k \/ j = l -> t i k j l = old i k j l).
Proof.
  intros K N No_as No_core Ua Ub V old HN. destruct (spin_2ei_spec K No_as No_core N HN V Ua Ub true (fun i k j l => (i, k, j, l)) Active (Some old) place_inj) as [t [E H]]. exists t. split; [exact E|].
  intros i k j l Hi Hk Hj Hl. specialize (H i k j l). cbn [get] in H. rewrite H. unfold two_value, inside. cbn [extent]. apply Nat.ltb_lt in Hi, Hk, Hj, Hl. rewrite Hi, Hk, Hj, Hl. cbn [andb].
  split; [|split].
  - intros A N1 N2. apply Nat.eqb_neq in N1, N2. rewrite N1, N2. rewrite !(proj2 (Nat.ltb_lt _ _)) by (apply A; cbn [In]; tauto). reflexivity.
  - intros [x [[<-|[<-|[<-|[<-|[]]]]] B]]; apply Nat.ltb_ge in B; rewrite B, ?andb_false_r; cbn [andb]; apply plus0.
  - intros [->| ->]; rewrite Nat.eqb_refl, ?orb_true_r; cbn [orb andb negb]; rewrite !andb_false_r; apply plus0.
Qed.
Print Assumptions C104_two_electron_partial.

(** Updating the two-electron integrals with the coefficients they were computed with should change nothing, but it
    doubles them. *)
Theorem C104_two_electron_refuted : exists (K : CoefRing) N No_as No_core (Ua Ub : nat -> nat -> K) (V old t : nat -> nat -> nat -> nat -> K),
  No_core + No_as = N /\
  generate_spin_2ei N V Ua Ub (alpha_mo No_as No_core N) (beta_mo No_as No_core N) Full (spin2spac N) None = Some old /\
  generate_spin_2ei N V Ua Ub (alpha_mo No_as No_core N) (beta_mo No_as No_core N) Active (spin2spac N) (Some old) = Some t /\
  t 0 1 0 1 <> two_electron N Ua Ub V 0 0 1 1.
Proof.
  exists GaussQ, 1, 1, 0, (fun _ _ => gz 1), (fun _ _ => gz 1), (fun _ _ _ _ => gz 5).
  eexists. eexists. split; [reflexivity|]. split; [reflexivity|]. split; [reflexivity|].
  intro H. apply (f_equal (fun x => @ceqb GaussQ x (gz 5))) in H. vm_compute in H. discriminate.
Qed.
Print Assumptions C104_two_electron_refuted.

Example C104_example : option_map (fun t => @ceqb GaussQ (t 0 0) (gz 3) && @ceqb GaussQ (t 1 1) (gz 7) && @ceqb GaussQ (t 0 2) (gz 7))%bool
  (generate_spin_1ei (K := GaussQ) 2 (fun a b => gz 3) (fun i a => if Nat.eqb i a then gz 1 else gz 0) (fun i a => if Nat.eqb i a then gz 1 else gz 0)
     (alpha_mo 1 0 2) (beta_mo 1 0 2) Active (spin2spac 2) (Some (fun _ _ => gz 7))) = Some true.
Proof. vm_compute. reflexivity. Qed.

(** * C105: reordering orbitals. *)
(** Whatever the diagonal and the comparison, the rows are orthonormal: the orbitals stay orthonormal. *)
Theorem C105_orthogonal : forall (K : CoefRing) (ge : K -> K -> bool) n (rdm1 : nat -> nat -> K) x y, x < n -> y < n ->
  upto n (fun k => cmul (reorder ge rdm1 n x k) (reorder ge rdm1 n y k)) = if Nat.eqb x y then c1 else c0.
Proof. exact reorder_orthogonal. Qed.
Print Assumptions C105_orthogonal.

(** It is a permutation of the orbitals up to signs. *)
Theorem C105_permutation : forall (K : CoefRing) (ge : K -> K -> bool) n (rdm1 : nat -> nat -> K),
  exists (pi : nat -> nat) (s : nat -> K), (forall x, x < n -> pi x < n) /\ (forall x y, x < n -> y < n -> pi x = pi y -> x = y) /\
    (forall x, cmul (s x) (s x) = c1) /\ forall x y, x < n -> y < n -> reorder ge rdm1 n x y = if Nat.eqb (pi x) y then s x else c0.
Proof. exact reorder_perm. Qed.
Print Assumptions C105_permutation.

(** Occupations already in order are left alone. *)
Theorem C105_sorted : forall (K : CoefRing) (ge : K -> K -> bool) n (rdm1 : nat -> nat -> K),
  (forall i j, i < j -> j < n -> ge (rdm1 i i) (rdm1 j j) = true) -> reorder ge rdm1 n = identity.
Proof. exact reorder_sorted. Qed.
Print Assumptions C105_sorted.

(** But the result need not be ordered: with occupations 2, 1, 3 the transformed density T^T D T has diagonal 1, 3, 2,
    because the loops compare the original occupations after orbitals have been exchanged. *)
Theorem C105_order_refuted : exists (ge : GaussQ -> GaussQ -> bool) (D : nat -> nat -> GaussQ),
  ge (gz 2) (gz 1) = true /\ ge (gz 2) (gz 3) = false /\ ge (gz 1) (gz 3) = false /\
  let T := reorder ge D 3 in let D' := dot 3 (fun x y => T y x) (dot 3 D T) in
  (forall a b, a <> b -> D a b = gz 0) /\ ge (D' 0 0) (D' 1 1) = false.
Proof.
  exists (fun a b => @ceqb GaussQ a b || @ceqb GaussQ a (gz 3) || (@ceqb GaussQ a (gz 2) && @ceqb GaussQ b (gz 1)))%bool.
  exists (fun a b => if Nat.eqb a b then match a with 0 => gz 2 | 1 => gz 1 | _ => gz 3 end else gz 0).
  split; [vm_compute; reflexivity|]. split; [vm_compute; reflexivity|]. split; [vm_compute; reflexivity|]. split.
  - intros a b H. apply Nat.eqb_neq in H. now rewrite H.
  - vm_compute. reflexivity.
Qed.
Print Assumptions C105_order_refuted.
