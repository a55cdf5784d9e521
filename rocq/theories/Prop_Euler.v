(** C142, C143: a step of the ACSE solver along the residual.  Complex numbers; the cutoffs are those of the code. *)
From Coq Require Import Bool List Arith ZArith Reals Lra Lia.
From Verif Require Import Coeff ComplexR MatSpec FockSpec OpSpec CircuitSpec CircuitModel HamModel HamSpec TransformModel QuantSpec RdmFock InvSpec PauliModel PlanSpec PlanProofs3 ConsModel ResSpec ResModel
  EulerSpec EulerModel EulerProofs2 EulerProofs3 EulerProofs4 EulerExample.
Import ListNotations.
Local Open Scope nat_scope.

(** C142.  For every real two-body Hamiltonian, every list of layers of the ansatz, every cutoff on the array and every
    relative threshold: with A the residual of the state the circuit prepares, the residual operator is built, and the
    circuit of the ansatz with one more layer of step eps is built.  The energy of its state differs from
    E - eps * (sum of squares of the coefficients)/4 by at most a term of second order in eps, for all real eps.
    The sum of squares is positive as soon as one kept residual is not zero. *)
Theorem C142_energy : forall N (K2 A : nat -> nat -> nat -> nat -> Cx) occ layers keep rel eps gs, real_symmetric K2 -> (forall x, keep (copp x) = keep x) ->
  (forall k, In k occ -> k < N) -> sized_layers N layers -> (forall L, In L layers -> not_small L) -> acse_circuit N occ layers = Some gs ->
  (forall i k j l, i < N -> k < N -> j < N -> l < N -> A i k j l = residual_of N K2 (prepared Crt N gs) i k j l) ->
  exists o, residual_operator keep N N A = Some o /\
    (not_small (euler_operator eps (truncate_rel rel o)) -> meq N (omat (jw_operator (euler_operator eps (truncate_rel rel o)))) (fmat (euler_operator eps (truncate_rel rel o))) ->
     exists gs', snd (euler_step 1 N occ eps layers (truncate_rel rel o)) = Some gs' /\
       (Rabs (fst (expect N (two_body N K2) (prepared Crt N gs')) - fst (expect N (two_body N K2) (prepared Crt N gs)) + eps * (sq (truncate_rel rel o) / 4))
         <= 4 * size4 N K2 * (eps * eps) * (wt (truncate_rel rel o) * wt (truncate_rel rel o)))%R) /\
    ((0 <= rel <= 1)%R -> (exists i k j l, i < N /\ k < N /\ j < N /\ l < N /\ A i k j l <> c0 /\ keep (A i k j l) = true) -> (0 < sq (truncate_rel rel o))%R).
Proof. exact euler_energy. Qed.
Print Assumptions C142_energy.

(** A step of size below 1/(32 * sum of |K2| * number of strings) lowers the energy, unless all kept residuals are zero. *)
Theorem C142_descent : forall N (K2 A : nat -> nat -> nat -> nat -> Cx) occ layers keep rel eps gs, real_symmetric K2 -> (forall x, keep (copp x) = keep x) ->
  (forall k, In k occ -> k < N) -> sized_layers N layers -> (forall L, In L layers -> not_small L) -> acse_circuit N occ layers = Some gs ->
  (forall i k j l, i < N -> k < N -> j < N -> l < N -> A i k j l = residual_of N K2 (prepared Crt N gs) i k j l) ->
  (exists i k j l, i < N /\ k < N /\ j < N /\ l < N /\ A i k j l <> c0 /\ keep (A i k j l) = true) -> (0 <= rel <= 1)%R ->
  exists o, residual_operator keep N N A = Some o /\
    (not_small (euler_operator eps (truncate_rel rel o)) -> meq N (omat (jw_operator (euler_operator eps (truncate_rel rel o)))) (fmat (euler_operator eps (truncate_rel rel o))) ->
     (0 < eps)%R -> (32 * size4 N K2 * INR (length (truncate_rel rel o)) * eps < 1)%R ->
     exists gs', snd (euler_step 1 N occ eps layers (truncate_rel rel o)) = Some gs' /\
       (fst (expect N (two_body N K2) (prepared Crt N gs')) < fst (expect N (two_body N K2) (prepared Crt N gs)))%R).
Proof. exact euler_descent. Qed.
Print Assumptions C142_descent.

(** A case: four modes, the pair coupling K2(0,1,2,3) and its images, the determinant 1100, the cutoff 1e-10, the relative
    threshold 1/10 and the step 2^-16.  All hypotheses hold, so the step lowers the energy. *)
Example C142_case : exists gs o gs', acse_circuit 4 [0; 1] [] = Some gs /\ residual_operator keep_ex 4 4 (residual_of 4 Kx (prepared Crt 4 gs)) = Some o /\
  snd (euler_step 1 4 [0; 1] eps_ex [] (truncate_rel (/ 10)%R o)) = Some gs' /\
  (fst (expect 4 (two_body 4 Kx) (prepared Crt 4 gs')) < fst (expect 4 (two_body 4 Kx) (prepared Crt 4 gs)))%R.
Proof.
  destruct gs0_some as [gs [E [z F]]]. exists gs.
  assert (HA : forall i k j l, i < 4 -> k < 4 -> j < 4 -> l < 4 -> residual_of 4 Kx (prepared Crt 4 gs) i k j l = residual_of 4 Kx (prepared Crt 4 gs) i k j l) by reflexivity.
  assert (LT : forall k, In k [0; 1] -> k < 4) by (intros k [<-|[<-|[]]]; lia).
  destruct (C142_descent 4 Kx (residual_of 4 Kx (prepared Crt 4 gs)) [0; 1] [] keep_ex (/ 10)%R eps_ex gs Kx_sym keep_ex_opp LT) as [o [EO D]];
    [intros P e []|intros L []|exact E|exact HA|exact (step_nonzero gs z F)|lra|].
  pose proof (operator_is 4 (residual_of 4 Kx (prepared Crt 4 gs)) keep_ex (A_sw1 4 Kx _ _ Kx_sym HA) (A_sw2 4 Kx _ _ Kx_sym HA)) as EO'. rewrite EO' in EO. injection EO as <-.
  destruct D as [gs' [E' D]]; [intros e I; exact (proj2 (step_dyadic gs z F e I))|exact (step_jw gs z F)|unfold eps_ex; lra|exact (step_small gs)|].
  eexists. exists gs'. split; [exact E|]. split; [exact EO'|]. split; [exact E'|exact D].
Qed.

(** C143.  The relative threshold: for every state, the truncated operator is made of those strings of the residual operator
    whose coefficients reach the fraction rel of the largest; it is anti-Hermitian, its coefficients are real, and the
    energy falls along it with a quarter of the sum of its squared coefficients. *)
Theorem C143_truncated : forall N (K2 A : nat -> nat -> nat -> nat -> Cx) psi keep rel, real_symmetric K2 -> (forall x, keep (copp x) = keep x) ->
  (forall i k j l, i < N -> k < N -> j < N -> l < N -> A i k j l = residual_of N K2 psi i k j l) ->
  exists o, residual_operator keep N N A = Some o /\ (forall e, In e (truncate_rel rel o) -> length (fst e) = N /\ snd (snd e) = 0%R /\ In e o /\ ((0 <= rel)%R -> forall e', In e' o -> (rel * cabs (snd e') <= cabs (snd e))%R)) /\
    (forall e, In e o -> (0 <= rel <= 1)%R -> (exists e', In e' o /\ (rel * cabs (snd e') <= cabs (snd e))%R /\ forall e'', In e'' o -> (cabs (snd e'') <= cabs (snd e'))%R) -> In e (truncate_rel rel o)) /\
    (forall x y, length x = N -> length y = N -> cconj (fmat (truncate_rel rel o) y x) = copp (fmat (truncate_rel rel o) x y)) /\
    fst (expect N (comm N (two_body N K2) (fmat (truncate_rel rel o))) psi) = (sq (truncate_rel rel o) / 4)%R.
Proof. exact truncated_residual. Qed.
Print Assumptions C143_truncated.
Example C143_case : exists gs z, acse_circuit 4 [0; 1] [] = Some gs /\ (forall x, length x = 4 -> prepared Crt 4 gs x = if bits_eqb x [true; true; false; false] then ipow z else c0) /\
  residual_of 4 Kx (prepared Crt 4 gs) 0 1 2 3 = ((2, 0)%R : Cx).
Proof. destruct gs0_some as [gs [E [z F]]]. exists gs, z. split; [exact E|]. split; [exact F|]. exact (proj2 (residual_values _ z F)). Qed.

(** C144.  The energy of every normalised state lies within the sum of the magnitudes of the coefficients. *)
Theorem C144_energy_bounds : forall N (K2 : nat -> nat -> nat -> nat -> Cx) phi, (forall p q s t, cconj (K2 p q s t) = K2 p q s t) -> norm2 N phi = c1 ->
  (- size4 N K2 <= fst (expect N (two_body N K2) phi) <= size4 N K2)%R.
Proof. intros N K2 phi H U. exact (two_body_within N K2 H phi U). Qed.
Print Assumptions C144_energy_bounds.
Example C144_case : size4 4 Kx = 4%R /\ exists phi : bits -> Cx, norm2 4 phi = c1.
Proof. split; [exact Kx_size|]. destruct gs0_some as [gs [E _]]. exists (prepared Crt 4 gs). apply (PlanProofs3.prepared_norm Cx Crt Crt_sq PlanProofs5.crt_real). apply (acse_valid 4 [0; 1] [] gs); [intros k [<-|[<-|[]]]; lia|intros P e []|exact E]. Qed.
