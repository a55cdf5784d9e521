(** C146, C147: particle numbers along the ACSE circuit.  Complex numbers; the cutoffs are those of the code. *)
From Coq Require Import Bool List Arith ZArith Reals Lra Lia.
From Verif Require Import Coeff ComplexR MatSpec MatLemmas FockSpec OpSpec CircuitSpec CircuitModel HamModel HamSpec TransformModel InvSpec RdmSpec StoreModel VqeSpec ConsSpec ConsModel ConsProofs3 ResSpec ResModel QuantSpec RdmFock EulerSpec EulerModel EulerExample
  ShapeSpec LayerSpec LayerProofs LayerProofs2 LayerProofs3 LayerProofs4 EmbProofs LayerExample PauliModel PlanSpec PlanProofs5.
Import ListNotations.
Local Open Scope nat_scope.

(** C146.  For all numbers of orbitals and electrons and every list of layers (of any length) that are real, anti-Hermitian
    and conserve the number of particles and of spin-up particles, and whose coefficients stay above the cutoff: the circuit
    is built, its gates are valid, and its state is normalised and has the requested electron numbers. *)
Theorem C146_state : forall n a b (layers : list (list (fstr * Cx))), a <= n -> b <= n ->
  (forall L, In L layers -> generator (2 * n) (fun _ => true) L /\ generator (2 * n) (fun k => k <? n) L /\ regular L) ->
  exists occ gs, qs_initial Default n a b = Some occ /\ acse_circuit (2 * n) occ layers = Some gs /\ (forall g, In g gs -> valid (2 * n) g) /\
    norm2 (2 * n) (prepared Crt (2 * n) gs) = c1 /\ has_up (2 * n) n a (prepared Crt (2 * n) gs) /\ has_particles (2 * n) (a + b) (prepared Crt (2 * n) gs).
Proof. exact acse_electrons. Qed.
Print Assumptions C146_state.
(** In general: any determinant and any set of modes of which the layers conserve the number of particles. *)
Theorem C146_count : forall N P occ (layers : list (list (fstr * Cx))), NoDup occ -> (forall k, In k occ -> k < N) -> (forall L, In L layers -> generator N P L /\ regular L) ->
  exists gs, acse_circuit N occ layers = Some gs /\ (forall g, In g gs -> valid N g) /\
    forall x, length x = N -> count_in P x <> length (filter P occ) -> prepared Crt N gs x = c0.
Proof. exact acse_count. Qed.
Print Assumptions C146_count.
(** One layer: its transform has its matrix, and the strings of one group of the transform flip the same qubits. *)
Theorem C146_transform : forall (K : CoefRing) N (o : list (fstr * K)), (forall e, In e o -> length (fst e) = N) -> above_cutoff o -> exact_sums o -> meq N (omat (jw_operator o)) (fmat o).
Proof. exact jw_exact_sums. Qed.
Print Assumptions C146_transform.
Theorem C146_groups : forall (K : CoefRing) (o : list (fstr * K)), above_cutoff o -> no_cancel o -> grouped (filter odd_y (map fst (jw_operator o))).
Proof. exact jw_grouped. Qed.
Print Assumptions C146_groups.
(** A case: two orbitals, one electron of each spin, two layers with the pair excitation and coefficients 8/65536. *)
Example C146_case : exists L : list (fstr * Cx), length L = 2 /\ generator 4 (fun _ => true) L /\ generator 4 (fun k => k <? 2) L /\ regular L /\
  exists occ gs, qs_initial Default 2 1 1 = Some occ /\ acse_circuit 4 occ [L; L] = Some gs /\ has_up 4 2 1 (prepared Crt 4 gs) /\ has_particles 4 2 (prepared Crt 4 gs).
Proof.
  pose proof Lq_generator as G. apply andb_true_iff in G. destruct G as [G1 G2]. apply generator_b_spec in G1, G2. pose proof (regular_b_spec Lq Lq_regular) as R.
  exists (map em Lq). split; [reflexivity|]. split; [exact G1|]. split; [exact G2|]. split; [exact R|].
  destruct (C146_state 2 1 1 [map em Lq; map em Lq]) as [occ [gs [E1 [E2 [_ [_ [U P]]]]]]]; [lia|lia|intros L [<-|[<-|[]]]; split; [exact G1|split; [exact G2|exact R]|exact G1|split; [exact G2|exact R]]|].
  exists occ, gs. split; [exact E1|]. split; [exact E2|]. split; [exact U|exact P].
Qed.

(** C147.  The layer made from the residuals of a state with a definite number of spin-up particles: for every real
    Hamiltonian that conserves spin, every cutoff, threshold and step, it is a generator for both numbers if the
    coefficients stay above the cutoff, so that it can be added to the layers of C146. *)
Theorem C147_layer : forall n nu (K2 : nat -> nat -> nat -> nat -> Cx) psi keep rel eps o, real_symmetric K2 -> (forall x, keep (copp x) = keep x) -> has_up (2 * n) n nu psi ->
  (forall p q s t, up_count n [p; q] <> up_count n [s; t] -> K2 p q s t = c0) -> residual_operator keep (2 * n) (2 * n) (residual_of (2 * n) K2 psi) = Some o ->
  let L := euler_operator eps (truncate_rel rel o) in regular L -> generator (2 * n) (fun _ => true) L /\ generator (2 * n) (fun k => k <? n) L.
Proof. exact residual_generator. Qed.
Print Assumptions C147_layer.
(** A case: the coupling of the pairs (0,2) and (1,3), the determinant 1010, the cutoff 1e-10, the threshold 1/10, the step 2^-16. *)
Example C147_case : exists gs o, acse_circuit 4 [0; 2] [] = Some gs /\ residual_operator keep_ex 4 4 (residual_of 4 Ky (prepared Crt 4 gs)) = Some o /\ truncate_rel (/ 10)%R o <> [] /\
  regular (euler_operator eps_ex (truncate_rel (/ 10)%R o)) /\ has_up 4 2 1 (prepared Crt 4 gs) /\ real_symmetric Ky /\ (forall p q s t, up_count 2 [p; q] <> up_count 2 [s; t] -> Ky p q s t = c0).
Proof.
  destruct (acse_initial 4 [0; 2]) as [gs [z [E F]]]; [repeat constructor; cbn; intuition lia|intros k [<-|[<-|[]]]; lia|]. change (map (fun j => existsb (Nat.eqb j) [0; 2]) (seq 0 4)) with dy in F.
  exists gs, (map em oq). split; [exact E|]. split; [exact (operator_y _ z F)|]. rewrite truncate_y by lra. split; [exact oq_ne|]. rewrite euler_y. split; [exact (regular_b_spec Lq Lq_regular)|].
  split; [|split; [exact Ky_sym|exact Ky_spin]]. intros x Lx H. rewrite (F x Lx). destruct (bits_eqb x dy) eqn:Q; [|reflexivity]. apply bits_eqb_spec in Q. subst x. exfalso. apply H. reflexivity.
Qed.
