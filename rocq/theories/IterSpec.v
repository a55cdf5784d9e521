(** Vocabulary for runs of the ACSE solver. *)
From Coq Require Import Bool List Arith Reals Sorted.
From Verif Require Import Coeff ComplexR MatSpec FockSpec OpSpec CircuitSpec CircuitModel TomoModel PlanModel PlanSpec RdmSpec ResSpec ResModel HamSpec HamModel QuantSpec EulerSpec AcseModel EulerModel LayerSpec IterModel.
Import ListNotations.
Local Open Scope R_scope.

(** Half the square root of the sum of squares of the residuals of a state. *)
Definition residual_norm (r : nat) (K2 : nat -> nat -> nat -> nat -> Cx) (psi : bits -> Cx) : R :=
  / 2 * sqrt (rsum r (fun i => rsum r (fun k => rsum r (fun j => rsum r (fun l => fst (residual_of r K2 psi i k j l) * fst (residual_of r K2 psi i k j l)))))).
(** Settings under which the run is analysed: real symmetric integrals that conserve spin, tomographies grouped by proper
    colourings that drop no value other than zero, the tomography of order 2 (fewer than three electrons) or 3, an excess of alpha electrons known to
    the storage, and the convergence type 'norm'. *)
Record usable (c : run_cfg) : Prop := {
  us_a : (rc_a c <= rc_N c)%nat; us_b : (rc_b c <= rc_N c)%nat;
  us_sym : real_symmetric (rc_K2 c);
  us_spin : forall p q s t, up_count (rc_N c) [p; q] <> up_count (rc_N c) [s; t] -> rc_K2 c p q s t = c0;
  us_order : (rc_p c = 2%nat /\ (rc_a c + rc_b c < 3)%nat) \/ (rc_p c = 3%nat /\ (3 <= rc_a c + rc_b c)%nat /\ cmul (ofnat (rc_a c + rc_b c - 2)) (rc_w c) = c1);
  us_simp : proper (rc_simp c); us_simpA : proper (rc_simpA c);
  us_tiny : forall x, rc_tiny c x = true -> x = c0;
  us_keep : forall x, rc_keep c (copp x) = rc_keep c x;
  us_eps : 0 < rc_eps c;
  us_excess : rc_a c = rc_b c \/ rc_a c = S (rc_b c) \/ rc_b c = S (rc_a c) \/ rc_a c = S (S (rc_b c));
  us_conv : rc_conv c = CNorm }.
(** What a state of the run reports: its energy and norm are those of the state that its circuit prepares, which has the
    electron numbers of the molecule, and its operator is the truncated residual operator of that state (C143). *)
Definition energy_at (c : run_cfg) (psi : bits -> Cx) : R := fst (expect (2 * rc_N c) (two_body (2 * rc_N c) (rc_K2 c)) psi) + fst (rc_en c).
Definition reports (c : run_cfg) (s : run_state) : Prop :=
  exists gs, run_circuit c (rs_psi s) = Some gs /\ (forall g, In g gs -> valid (2 * rc_N c) g) /\ let psi := prepared Crt (2 * rc_N c) gs in
    norm2 (2 * rc_N c) psi = c1 /\ has_particles (2 * rc_N c) (rc_a c + rc_b c) psi /\ has_up (2 * rc_N c) (rc_N c) (rc_a c) psi /\
    rs_en s = energy_at c psi /\ rs_norm s = residual_norm (2 * rc_N c) (rc_K2 c) psi /\
    exists o, residual_operator (rc_keep c) (2 * rc_N c) (2 * rc_N c) (residual_of (2 * rc_N c) (rc_K2 c) psi) = Some o /\ rs_A s = truncate_rel (rc_rel c) o.
(** The Euler operator of a state: regular, with a step small against the size of the integrals. *)
Definition admissible (c : run_cfg) (s : run_state) : Prop :=
  rs_A s <> [] /\ regular (euler_operator (rc_eps c) (rs_A s)) /\ 32 * size4 (2 * rc_N c) (rc_K2 c) * INR (length (rs_A s)) * rc_eps c < 1.
(** The states that the loop of a run passes through. *)
Definition visited (c : run_cfg) (s : run_state) : Prop := exists s0 k, run_build c = Some s0 /\ run_loop c k s0 = Some s.
(** The energy of the last turn is not below the mean of the last three energies (newest first). *)
Definition rises (log : list R) : Prop :=
  match log with
  | e :: _ :: _ => fold_right Rplus 0 (firstn 3 log) <= INR (length (firstn 3 log)) * e
  | _ => False
  end.
(** The number of turns at which that happened. *)
Inductive rise_count : list R -> nat -> Prop :=
| rc_start e : rise_count [e] 0
| rc_up e log k : rise_count log k -> rises (e :: log) -> rise_count (e :: log) (S k)
| rc_down e log k : rise_count log k -> ~ rises (e :: log) -> rise_count (e :: log) k.
(** The settings with another convergence type. *)
Definition with_conv (c : run_cfg) (t : conv) : run_cfg :=
  MkRun (rc_N c) (rc_a c) (rc_b c) (rc_w c) (rc_K2 c) (rc_en c) (rc_simp c) (rc_imag c) (rc_simpA c) (rc_imagA c) (rc_p c) (rc_tiny c) (rc_keep c) (rc_rel c) (rc_eps c) (rc_max c) (rc_crit c) t.
