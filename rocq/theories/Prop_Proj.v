(** C172: the reduced Hamiltonian restricted to the terms that survive the transform. *)
From Coq Require Import Bool List Arith ZArith Lia.
From Verif Require Import Coeff Sqrt2 MatSpec MatLemmas FockSpec PauliModel OperatorModel FermiModel CircuitSpec RdmSpec InvSpec
  HamModel HamSpec OrderModel ProjModel ProjProofs3.
Import ListNotations.
Local Open Scope nat_scope.

(** [discard] is any test of the strings of the Hamiltonian.  The contraction of the projected K2 with the 2-RDM of a state
    with Ne particles is the expectation of the transpose of the kept strings. *)
Theorem C172_energy : forall (K : CoefRing) fuel (tiny : K -> bool) n d Ne (w : K) (h : nat -> nat -> K) (V : nat -> nat -> nat -> nat -> K)
    (discard : fstr * K -> bool) (psi : bits -> K),
  16 < fuel -> 2 * n <= d -> tiny c0 = true ->
  (forall a b, tiny (h a b) = true -> h a b = c0) -> (forall a b c e, tiny (V a b c e) = true -> V a b c e = c0) ->
  has_particles (2 * n) Ne psi -> cmul (cmul (cadd (cadd (cadd c1 c1) c1) c1) w) (ofnat (Ne - 1)) = c1 ->
  exists F K2, fermi_operator tiny d n 0 n h V = Some F /\ build_projected_K2 fuel tiny d n 0 n w h V discard = Some K2 /\
    observable (2 * n) K2 (fun a b c e => rdm_of (2 * n) psi [a; b] [c; e]) =
    expect (2 * n) (fun x y => fmat (filter (fun f => negb (discard f)) F) y x) psi.
Proof. exact projected_energy. Qed.
Print Assumptions C172_energy.

(** For a state with real amplitudes it is the expectation of the kept strings. *)
Theorem C172_real : forall (K : CoefRing) fuel (tiny : K -> bool) n d Ne (w : K) (h : nat -> nat -> K) (V : nat -> nat -> nat -> nat -> K)
    (discard : fstr * K -> bool) (psi : bits -> K),
  16 < fuel -> 2 * n <= d -> tiny c0 = true ->
  (forall a b, tiny (h a b) = true -> h a b = c0) -> (forall a b c e, tiny (V a b c e) = true -> V a b c e = c0) ->
  has_particles (2 * n) Ne psi -> cmul (cmul (cadd (cadd (cadd c1 c1) c1) c1) w) (ofnat (Ne - 1)) = c1 ->
  (forall x, length x = 2 * n -> cconj (psi x) = psi x) ->
  exists F K2, fermi_operator tiny d n 0 n h V = Some F /\ build_projected_K2 fuel tiny d n 0 n w h V discard = Some K2 /\
    observable (2 * n) K2 (fun a b c e => rdm_of (2 * n) psi [a; b] [c; e]) =
    expect (2 * n) (fmat (filter (fun f => negb (discard f)) F)) psi.
Proof. exact projected_real. Qed.
Print Assumptions C172_real.

(** If nothing is discarded, the projected K2 and the full K2 give the same energy. *)
Theorem C172_nothing : forall (K : CoefRing) fuel (tiny : K -> bool) n d Ne (w : K) (h : nat -> nat -> K) (V : nat -> nat -> nat -> nat -> K) (psi : bits -> K),
  16 < fuel -> 2 * n <= d -> tiny c0 = true ->
  (forall a b, tiny (h a b) = true -> h a b = c0) -> (forall a b c e, tiny (V a b c e) = true -> V a b c e = c0) ->
  has_particles (2 * n) Ne psi -> cmul (cmul (cadd (cadd (cadd c1 c1) c1) c1) w) (ofnat (Ne - 1)) = c1 ->
  exists K2, build_projected_K2 fuel tiny d n 0 n w h V (fun _ => false) = Some K2 /\
    observable (2 * n) K2 (fun a b c e => rdm_of (2 * n) psi [a; b] [c; e]) =
    observable (2 * n) (build_K2 (2 * n) w h V) (fun a b c e => rdm_of (2 * n) psi [a; b] [c; e]).
Proof. exact projected_nothing. Qed.
Print Assumptions C172_nothing.

(** Two orbitals, two electrons, symmetric integrals; the strings with a creation operator on mode 0 are discarded. *)
Definition ex_h172 : nat -> nat -> GaussQ := fun p q => gz (Z.of_nat (1 + p + q)).
Definition ex_V172 : nat -> nat -> nat -> nat -> GaussQ := fun p r q s => gz (Z.of_nat (1 + p * q + r * s)).
Definition ex_tiny172 : GaussQ -> bool := fun x => ceqb x c0.
Definition ex_discard172 : fstr * GaussQ -> bool := fun f => match fst f with Some Cre :: _ => true | _ => false end.
Definition ex_state172 : bits -> GaussQ := fun x =>
  if bits_eqb x [true; false; true; false] then gq 3 5 else if bits_eqb x [false; true; false; true] then gq 4 5 else c0.
Example C172_case : has_particles 4 2 ex_state172 /\ cmul (cmul (cadd (cadd (cadd c1 c1) c1) c1) (gq 1 4)) (ofnat (2 - 1)) = (c1 : GaussQ) /\
  ex_tiny172 c0 = true /\ (forall a b, ex_tiny172 (ex_h172 a b) = true -> ex_h172 a b = c0) /\ (forall a b c e, ex_tiny172 (ex_V172 a b c e) = true -> ex_V172 a b c e = c0) /\
  (forall x, length x = 4 -> cconj (ex_state172 x) = ex_state172 x) /\
  match build_projected_K2 17 ex_tiny172 4 2 0 2 (gq 1 4) ex_h172 ex_V172 (fun _ => false) with
  | Some K2 => ceqb (observable 4 K2 (fun a b c e => rdm_of 4 ex_state172 [a; b] [c; e])) (gq 82 5) = true
  | None => False
  end /\
  match build_projected_K2 17 ex_tiny172 4 2 0 2 (gq 1 4) ex_h172 ex_V172 ex_discard172 with
  | Some K2 => ceqb (observable 4 K2 (fun a b c e => rdm_of 4 ex_state172 [a; b] [c; e])) (gq 362 25) = true
  | None => False
  end.
Proof.
  split; [|split; [|split; [|split; [|split; [|split; [|split]]]]]].
  - intros x Hx Hp. unfold ex_state172. destruct (bits_eqb x [true; false; true; false]) eqn:E1; [apply bits_eqb_spec in E1; subst x; now contradiction Hp|].
    destruct (bits_eqb x [false; true; false; true]) eqn:E2; [apply bits_eqb_spec in E2; subst x; now contradiction Hp|]. reflexivity.
  - apply (ceqb_spec GaussQ). vm_compute. reflexivity.
  - vm_compute. reflexivity.
  - intros a b H. now apply (ceqb_spec GaussQ).
  - intros a b c e H. now apply (ceqb_spec GaussQ).
  - intros x _. unfold ex_state172. destruct (bits_eqb x [true; false; true; false]); [apply (ceqb_spec GaussQ); vm_compute; reflexivity|].
    destruct (bits_eqb x [false; true; false; true]); apply (ceqb_spec GaussQ); vm_compute; reflexivity.
  - vm_compute. reflexivity.
  - vm_compute. reflexivity.
Qed.
