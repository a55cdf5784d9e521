(** Properties C71 to C73: the residual of the anti-Hermitian contracted Schroedinger equation. *)
From Coq Require Import Bool List Arith QArith Qabs Lia Lqa Permutation.
From Verif Require Import Coeff MatSpec FockSpec FermiModel CircuitSpec InvSpec OpSpec RdmSpec RdmModel RdmEnum HamModel HamSpec Sqrt2
  ResSpec ResModel ResProofs ResProofs2 ResProofs3 ResProofs4 ResNorm ResNormProofs ResExample.
Import ListNotations.
Local Open Scope nat_scope.

(** * C71 *)
(** The array computed from the RDMs is the real part of < [a+_i a+_k a_l a_j , H] > in every state. *)
Theorem C71_residual : forall (K : CoefRing) (R Ne p : nat) (w : K) (so : list nat) (t : list nat -> K)
    (K2 : nat -> nat -> nat -> nat -> K) (psi : bits -> K),
  Permutation so (seq 0 R) -> real_symmetric K2 -> has_particles R Ne psi ->
  (p = 2 /\ Ne < 3) \/ (p = 3 /\ 3 <= Ne /\ cmul (ofnat (Ne - 2)) w = c1) ->
  (forall c a, length c = p -> length a = p -> Forall (fun x => x < R) c -> Forall (fun x => x < R) a -> t (c ++ a) = rdm_of R psi c a) ->
  exists A, class_residual Ne p R w so t K2 = Some A /\
    forall i k j l, i < R -> k < R -> j < R -> l < R -> A i k j l = residual_of R K2 psi i k j l.
Proof. exact class_residual_spec. Qed.
Print Assumptions C71_residual.

(** The array changes sign when the creators, the annihilators, or creators and annihilators are exchanged. *)
Theorem C71_antisymmetric : forall (K : CoefRing) (R : nat) (K2 : nat -> nat -> nat -> nat -> K) (psi : bits -> K) (i k j l : nat),
  real_symmetric K2 ->
  residual_of R K2 psi k i j l = copp (residual_of R K2 psi i k j l) /\
  residual_of R K2 psi i k l j = copp (residual_of R K2 psi i k j l) /\
  residual_of R K2 psi j l i k = copp (residual_of R K2 psi i k j l).
Proof.
  intros K R K2 psi i k j l H. split; [now apply residual_swap_cre|]. split; [now apply residual_swap_ann|now apply residual_antisym].
Qed.
Print Assumptions C71_antisymmetric.

(** The returned operator is anti-Hermitian, whatever the cutoff. *)
Theorem C71_anti_hermitian : forall (K : CoefRing) (keep : K -> bool) (R N : nat) (A K2 : nat -> nat -> nat -> nat -> K) (psi : bits -> K),
  R <= N -> real_symmetric K2 -> (forall x, keep (copp x) = keep x) ->
  (forall i k j l, i < R -> k < R -> j < R -> l < R -> A i k j l = residual_of R K2 psi i k j l) ->
  exists o, residual_operator keep R N A = Some o /\ Forall (fun e => length (fst e) = N) o /\
    forall x y, length x = R -> length y = R -> cconj (fmat o y x) = copp (fmat o x y).
Proof.
  intros K keep R N A K2 psi H1 H2 H3 H4. destruct (operator_anti K keep R N A K2 psi H1 H2 H3 H4) as [o [E [W M]]].
  exists o. split; [exact E|]. split; [apply Forall_forall; exact W|exact M].
Qed.
Print Assumptions C71_anti_hermitian.

(** It is the gradient: the first-order change of the energy along the returned operator S, < [H,S] >, is the sum of
    the squares of the residuals that were kept. *)
Theorem C71_gradient : forall (K : CoefRing) (keep : K -> bool) (R N : nat) (A K2 : nat -> nat -> nat -> nat -> K) (psi : bits -> K),
  R <= N -> real_symmetric K2 ->
  (forall i k j l, i < R -> k < R -> j < R -> l < R -> A i k j l = residual_of R K2 psi i k j l) ->
  exists o, residual_operator keep R N A = Some o /\
    re_expect R (comm R (two_body R K2) (fmat o)) psi =
    upto R (fun i => upto R (fun k => upto R (fun j => upto R (fun l =>
      if keep (residual_of R K2 psi i k j l) then cmul (residual_of R K2 psi i k j l) (residual_of R K2 psi i k j l) else c0)))).
Proof. exact operator_gradient. Qed.
Print Assumptions C71_gradient.

(** Three modes, two particles: the residual at (0,1,0,2) is not 0. *)
Example C71_case : Permutation [2; 0; 1] (seq 0 3) /\ real_symmetric K2_ex /\ has_particles 3 2 psi_ex
  /\ residual_of 3 K2_ex psi_ex 0 1 0 2 = gz (-14)
  /\ match class_residual 2 2 3 c0 [2; 0; 1] (fun x => rdm_of 3 psi_ex (firstn 2 x) (skipn 2 x)) K2_ex with
     | Some A => ceqb (A 0 1 0 2) (gz (-14)) && negb (ceqb (A 0 1 0 2) c0) && ceqb (A 2 0 0 1) (gz (-14))
     | None => false end = true.
Proof.
  split; [apply perm_ex|]. split; [exact K2_ex_sym|]. split; [exact psi_ex_two|]. split.
  - apply (ceqb_spec GaussQ). vm_compute. reflexivity.
  - vm_compute. reflexivity.
Qed.

(** * C72 *)
(** The operator of the full array equals the operator built from the vector minus the adjoint of the latter. *)
Theorem C72_vector_operator : forall (K : CoefRing) (keep drop : K -> bool) (n nu N : nat) (imag : bool) (A K2 : nat -> nat -> nat -> nat -> K) (psi : bits -> K),
  2 * n <= N -> real_symmetric K2 ->
  (forall p q s t, up_count n [p; q] <> up_count n [s; t] -> K2 p q s t = c0) -> has_up (2 * n) n nu psi ->
  (forall x, keep (copp x) = keep x) -> (forall x, x <> c0 -> drop x = negb (keep x)) ->
  (forall i k j l, i < 2 * n -> k < 2 * n -> j < 2 * n -> l < 2 * n -> A i k j l = residual_of (2 * n) K2 psi i k j l) ->
  let L := rdm_elements 2 true imag (seq 0 n) (seq n n) in
  exists v o c, map (class_entry A) L = map (fun x => Some (v x)) L
    /\ residual_operator keep (2 * n) N A = Some o /\ vector_to_operator drop N (map (fun x => (x, v x)) L) = Some c
    /\ forall x y, length x = 2 * n -> length y = 2 * n -> fmat o x y = csub (fmat c x y) (cconj (fmat c y x)).
Proof.
  intros K keep drop n nu N imag A K2 psi HN HK HS HU Hk Hd HA L.
  apply (compact_full K keep drop n N A K2 psi L); try assumption.
  - apply (enumeration 2 n true imag); [lia|now left].
  - intros. now apply (residual_spin K n nu).
Qed.
Print Assumptions C72_vector_operator.

(** The operator built from the vector alone is not anti-Hermitian: the adjoint terms are missing. *)
Theorem C72_anti_hermitian_refuted : exists (kv : list (list nat * GaussQ)) (o : list (fstr * GaussQ)) (x y : bits),
  Forall (fun e => In (fst e) (rdm_elements 2 true false (seq 0 2) (seq 2 2)) /\ cconj (snd e) = snd e) kv
  /\ vector_to_operator (fun z => ceqb z c0) 4 kv = Some o /\ cconj (fmat o y x) <> copp (fmat o x y).
Proof.
  exists [([0; 2; 3; 1], gz 1)]. destruct vec_ex as [o [E B]].
  exists o, [true; false; true; false], [false; true; false; true]. split; [|split; [exact E|]].
  - constructor; [|constructor]. split; [vm_compute; tauto|reflexivity].
  - intro H. rewrite H in B. assert (T : ceqb (copp (fmat o [true; false; true; false] [false; true; false; true])) (copp (fmat o [true; false; true; false] [false; true; false; true])) = true) by now apply (ceqb_spec GaussQ).
    rewrite T in B. discriminate.
Qed.
Print Assumptions C72_anti_hermitian_refuted.

(** Four modes, one particle of each spin: hypotheses and a residual that is not 0; the 2-RDM is D4_ex. *)
Example C72_case : real_symmetric K4_ex /\ (forall p q s t, up_count 2 [p; q] <> up_count 2 [s; t] -> K4_ex p q s t = c0)
  /\ has_up 4 2 1 psi4_ex /\ has_particles 4 2 psi4_ex
  /\ forallb (fun x => ceqb (D4_ex x) (rdm_of 4 psi4_ex (firstn 2 x) (skipn 2 x))) (tuples 4 4) = true
  /\ match class_residual 2 2 4 c0 (seq 0 4) D4_ex K4_ex with Some A => negb (ceqb (A 0 2 1 3) c0) | None => false end = true.
Proof.
  split; [exact K4_ex_sym|]. split; [exact K4_ex_spin|]. split; [exact psi4_ex_up|]. split; [exact psi4_ex_two|]. split; [exact D4_ex_rdm|]. vm_compute. reflexivity.
Qed.

(** * C73 *)
(** The classical solver's check on the norm never fails. *)
Theorem C73_classical : forall (S_min : Q) (ts : list Q) (s n : Q),
  (0 <= s -> 0 <= n -> s * s == sumsq (kept S_min ts) -> n * n == sumsq ts -> class_check s n = true)%Q.
Proof. exact class_ok. Qed.
Print Assumptions C73_classical.

(** The quantum solver's check passes when what the cutoff drops has norm below 1e-8. *)
Theorem C73_quantum_partial : forall (S_min : Q) (ts : list Q) (s n : Q),
  (0 <= s -> 0 <= n -> s * s == sumsq (kept S_min ts) -> n * n == sumsq ts ->
   sumsq (filter (fun x => negb (Qle_bool S_min (Qabs x))) ts) < 1 # 10000000000000000 -> quant_check s n = true)%Q.
Proof. exact quant_ok. Qed.
Print Assumptions C73_quantum_partial.

(** Otherwise it can fail, with the default cutoff 1e-6: near convergence the solver raises AssertionError. *)
Theorem C73_quantum_refuted : exists (ts : list Q) (s n : Q),
  (0 <= s /\ 0 <= n /\ s * s == sumsq (kept (1 # 1000000) ts) /\ n * n == sumsq ts /\ quant_check s n = false)%Q.
Proof. exists [5 # 10000000; - (5 # 10000000); - (5 # 10000000); 5 # 10000000]%Q, 0%Q, (1 # 1000000)%Q. repeat split; vm_compute; try reflexivity; discriminate. Qed.
Print Assumptions C73_quantum_refuted.

Example C73_case : (kept (1 # 1000000) [3; 4; 1 # 10000000] = [3; 4] /\ 5 * 5 == sumsq (kept (1 # 1000000) [3; 4; 1 # 10000000]))%Q.
Proof. split; reflexivity. Qed.
