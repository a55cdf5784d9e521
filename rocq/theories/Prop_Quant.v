(** Properties C128 and C129: the residual measured with a short propagation under the Hamiltonian. *)
From Coq Require Import Bool List Arith Reals Lra Lia Permutation.
From Verif Require Import Coeff MatSpec FockSpec OpSpec CircuitSpec CircuitModel RdmSpec HamModel HamSpec ResSpec ResModel ResProofs2
  ComplexR QuantModel QuantSpec QuantProofs QuantProofs2 QuantProofs3 QuantProofs4 QuantExample.
Import ListNotations.
Local Open Scope R_scope.

(** * C128 *)
(** For every Hamiltonian (or list of Hamiltonians) with real coefficients, every ansatz circuit and number of Trotter
    steps: where the 2-RDM element is real, the array tends to the real part of < [a+_i a+_k a_l a_j , H] > as the step
    size goes to 0. *)
Theorem C128_limit : forall (N n : nat) (phi : bits -> Cx) (ansatz : list (gate Cx)) (Hs : list (list (list pauli * Cx))) (i k j l : nat),
  (0 < n)%nat -> Hs <> [] -> (forall H, In H Hs -> real_op N H) ->
  let psi := mvec N (cmat Crt N ansatz) phi in
  snd (rdm_of N psi [i; k] [j; l]) = 0 ->
  tends_to (fun d => match quant_array Crt chalf_angle N phi ansatz n ((/ INR n, 0) : Cx) ((d, 0) : Cx) ((/ d, 0) : Cx) Hs with
                     | Some A => fst (A i k j l) | None => 0 end)
    (fst (re_expect N (comm N (excitation i k j l) (omat (concat Hs))) psi)).
Proof. intros N n phi ansatz Hs i k j l Hn H1 H2 psi H3. exact (array_limit N n Hn phi ansatz Hs i k j l H1 H2 H3). Qed.
Print Assumptions C128_limit.

(** The limit is the array that the classical solver computes from the RDMs, when the qubit operators represent, on Ne
    particles, the Hamiltonian whose reduced form the classical solver uses. *)
Theorem C128_classical : forall (N n Ne p : nat) (phi : bits -> Cx) (ansatz : list (gate Cx)) (Hs : list (list (list pauli * Cx)))
    (w w' c : Cx) (h : nat -> nat -> Cx) (V : nat -> nat -> nat -> nat -> Cx) (so : list nat) (t : list nat -> Cx),
  (0 < n)%nat -> Hs <> [] -> (forall H, In H Hs -> real_op N H) ->
  let psi := mvec N (cmat Crt N ansatz) phi in
  has_particles N Ne psi ->
  cmul (cmul (cadd (cadd (cadd c1 c1) c1) c1) w) (ofnat (Ne - 1)) = c1 -> cconj w = w ->
  (forall a b, cconj (h a b) = h a b) -> (forall a b, h a b = h b a) ->
  (forall a b x y, cconj (V a b x y) = V a b x y) -> (forall a b x y, V a b x y = V b a y x) -> (forall a b x y, V a b x y = V x y a b) ->
  (forall x y, length x = N -> length y = N -> popcount x = Ne -> popcount y = Ne ->
    omat (concat Hs) x y = cadd (ham N (fun a b => h b a) (fun a y b x => V b x a y) x y) (cmul c (mone x y))) ->
  Permutation so (seq 0 N) ->
  (p = 2%nat /\ (Ne < 3)%nat) \/ (p = 3%nat /\ (3 <= Ne)%nat /\ cmul (ofnat (Ne - 2)) w' = c1) ->
  (forall cs an, length cs = p -> length an = p -> Forall (fun x => (x < N)%nat) cs -> Forall (fun x => (x < N)%nat) an -> t (cs ++ an) = rdm_of N psi cs an) ->
  exists A, class_residual Ne p N w' so t (build_K2 N w h V) = Some A /\
    forall i k j l, (i < N)%nat -> (k < N)%nat -> (j < N)%nat -> (l < N)%nat -> snd (rdm_of N psi [i; k] [j; l]) = 0 ->
      tends_to (fun d => match quant_array Crt chalf_angle N phi ansatz n ((/ INR n, 0) : Cx) ((d, 0) : Cx) ((/ d, 0) : Cx) Hs with
                         | Some B => fst (B i k j l) | None => 0 end) (fst (A i k j l)).
Proof.
  intros N n Ne p phi ansatz Hs w w' c h V so t Hn H1 H2 psi HP Hw Cw Ch Sh CV S1 S2 HE Hso Hp Ht.
  pose proof (K2_symmetric Cx N w h V Cw Ch Sh CV S1 S2) as HS.
  destruct (class_residual_spec Cx N Ne p w' so t (build_K2 N w h V) psi Hso HS HP Hp Ht) as [A [EA VA]].
  exists A. split; [exact EA|]. intros i k j l Hi Hk Hj Hl Z. rewrite VA by assumption.
  rewrite <- (residual_agrees Cx N Ne w c h V (omat (concat Hs)) psi i k j l HP Hw HS HE).
  apply C128_limit; assumption.
Qed.
Print Assumptions C128_classical.

(** Three qubits, the state 3|110> + b|101>, H = Z on the middle qubit as two terms in a list: the limit is 6 b. *)
Example C128_case : forall b : R,
  let psi := mvec 3 (cmat Crt 3 circ_ex) (phi_ex ((b, 0) : Cx)) in
  real_op 3 H_ex /\ snd (rdm_of 3 psi [0; 1]%nat [0; 2]%nat) = 0 /\ has_particles 3 2 psi
  /\ cmul (cmul (cadd (cadd (cadd c1 c1) c1) c1) w_ex) (ofnat (2 - 1)) = (c1 : Cx) /\ real_symmetric (build_K2 3 w_ex h_ex V_ex)
  /\ (forall x y, length x = 3%nat -> length y = 3%nat ->
       omat (concat [H_ex]) x y = cadd (ham 3 (fun p q => h_ex q p) (fun p t q s => V_ex q s p t) x y) (cmul c1 (mone x y)))
  /\ tends_to (fun d => match quant_array Crt chalf_angle 3 (phi_ex ((b, 0) : Cx)) circ_ex 2 ((/ INR 2, 0) : Cx) ((d, 0) : Cx) ((/ d, 0) : Cx) [H_ex] with
                        | Some A => fst (A 0 1 0 2)%nat | None => 0 end) (6 * b).
Proof.
  intros b psi.
  assert (RO : real_op 3 H_ex). { intros s c [E|[]]. injection E as <- <-. split; reflexivity. }
  assert (Z : snd (rdm_of 3 psi [0; 1]%nat [0; 2]%nat) = 0). { unfold psi. rewrite rdm_ex. cbn. ring. }
  split; [exact RO|]. split; [exact Z|]. split; [apply particles_ex|]. split; [exact w_ex_ok|]. split; [exact sym_ex|]. split; [exact ham_ex|].
  pose proof (C128_limit 3 2 (phi_ex ((b, 0) : Cx)) circ_ex [H_ex] 0 1 0 2 ltac:(lia) ltac:(discriminate)) as T.
  cbv zeta in T. specialize (T ltac:(intros H [<-|[]]; exact RO) Z).
  replace (6 * b) with (fst (re_expect 3 (comm 3 (excitation 0 1 0 2) (omat (concat [H_ex]))) psi)); [exact T|].
  exact (value_ex ((b, 0) : Cx)).
Qed.

(** * C129 *)
(** The condition on the RDM is needed: where the element has an imaginary part the measured value has no limit, it grows
    like 1/step, for every Hamiltonian. *)
Theorem C129_no_limit : forall (N n : nat) (phi : bits -> Cx) (ansatz : list (gate Cx)) (H : list (list pauli * Cx)) (i k j l : nat) (lim : R),
  real_op N H -> snd (rdm_of N (mvec N (cmat Crt N ansatz) phi) [i; k] [j; l]) <> 0 ->
  ~ tends_to (fun d => match quant_array Crt chalf_angle N phi ansatz n ((/ INR n, 0) : Cx) ((d, 0) : Cx) ((/ d, 0) : Cx) [H] with
                       | Some A => fst (A i k j l) | None => 0 end) lim.
Proof. exact no_limit. Qed.
Print Assumptions C129_no_limit.

(** "The quantum residual tends to the residual" is false for the state 3|110> + i|101>, whose residual is 0 there. *)
Theorem C129_complex_states_refuted : exists (phi : bits -> Cx) (ansatz : list (gate Cx)) (H : list (list pauli * Cx)) (i k j l : nat),
  real_op 3 H /\ has_particles 3 2 (mvec 3 (cmat Crt 3 ansatz) phi) /\
  fst (re_expect 3 (comm 3 (excitation i k j l) (omat H)) (mvec 3 (cmat Crt 3 ansatz) phi)) = 0 /\
  ~ tends_to (fun d => match quant_array Crt chalf_angle 3 phi ansatz 1 ((/ INR 1, 0) : Cx) ((d, 0) : Cx) ((/ d, 0) : Cx) [H] with
                       | Some A => fst (A i k j l) | None => 0 end)
      (fst (re_expect 3 (comm 3 (excitation i k j l) (omat H)) (mvec 3 (cmat Crt 3 ansatz) phi))).
Proof.
  exists (phi_ex ((0, 1) : Cx)), circ_ex, H_ex, 0%nat, 1%nat, 0%nat, 2%nat.
  assert (RO : real_op 3 H_ex). { intros s c [E|[]]. injection E as <- <-. split; reflexivity. }
  split; [exact RO|]. split; [apply particles_ex|]. split; [etransitivity; [exact (value_ex ((0, 1) : Cx))|cbn; ring]|].
  apply C129_no_limit; [exact RO|]. rewrite rdm_ex. cbn. lra.
Qed.
Print Assumptions C129_complex_states_refuted.

(** An empty list of Hamiltonians raises. *)
Theorem C128_empty : forall (K : CoefRing) (rt : K) half N phi ansatz n inv s hss, quant_array rt half N phi ansatz n inv s hss [] = None.
Proof. reflexivity. Qed.
Print Assumptions C128_empty.
