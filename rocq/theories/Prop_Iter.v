(** C148, C149, C155, C156: a run of the ACSE solver by Euler steps, from the reference determinant to the end of the loop.  Complex
    numbers without rounding; the cutoffs are those of the code. *)
From Coq Require Import Bool List Arith ZArith Reals Lra Lia Sorted.
From Verif Require Import Coeff ComplexR MatSpec FockSpec OpSpec CircuitSpec CircuitModel InvSpec RdmSpec TomoModel PlanModel StoreModel ResSpec ResModel QuantSpec AcseModel EulerSpec EulerModel EulerExample
  LayerSpec EmbProofs LayerExample PlanSpec IterModel IterSpec IterProofs3 IterProofs4 IterProofs5 IterExample.
Import ListNotations.
Local Open Scope nat_scope.

(** C148.  For all numbers of orbitals and electrons, all real symmetric integrals that conserve spin, all settings of the
    tomographies, cutoffs and thresholds, and any number of turns: if the operators met on the way are regular and the
    step is small against the integrals, the run never raises.  Its energies strictly decrease, from the energy of the
    reference determinant.  The energy and the norm that it reports are those of the state that its circuit prepares, which
    keeps the electron numbers.  The best energy is the last one.  The loop ends exactly when the number of turns reaches
    max_iter or the norm is below the threshold: the test for a rising average never ends it. *)
Theorem C148_run : forall c, usable c -> exists s0, run_build c = Some s0 /\ reports c s0 /\
  ((forall s, visited c s -> rs_done s = false -> admissible c s) ->
   forall fuel, exists s, run_loop c fuel s0 = Some s /\ reports c s /\
     StronglySorted Rlt (rs_log s) /\ (exists older, rs_log s = rs_en s :: older) /\ length (rs_log s) = S (rs_iter s) /\ last (rs_log s) 0%R = rs_en s0 /\
     rs_best s = rs_en s /\ rs_incr s = 0 /\ rs_iter s <= fuel /\ (rs_done s = false -> rs_iter s = fuel) /\
     (rs_done s = true <-> 1 <= rs_iter s /\ (rs_iter s = rc_max c \/ (rs_norm s < rc_crit c)%R))).
Proof. exact run_descends. Qed.
Print Assumptions C148_run.
(** A case: two orbitals, one electron of each spin, the coupling of the pairs (0,2) and (1,3), the step 2^-16, one turn. *)
Example C148_case : usable run_y /\ (forall s, visited run_y s -> rs_done s = false -> admissible run_y s) /\
  exists s0 s, run_build run_y = Some s0 /\ rs_A s0 <> [] /\ run_loop run_y 3 s0 = Some s /\ rs_done s = true /\ rs_iter s = 1 /\ (rs_en s < rs_en s0)%R.
Proof.
  assert (Ad : forall s, visited run_y s -> rs_done s = false -> admissible run_y s).
  { intros s V D. destruct (run_y_step s V D) as [H1 [H2 H3]]. split; [exact H1|]. split; [exact H2|]. lra. }
  split; [exact run_y_usable|]. split; [exact Ad|]. destruct (C148_run run_y run_y_usable) as [s0 [E0 [_ R]]]. exists s0.
  destruct (R Ad 3) as [s [E [_ [SS [[older EL] [LL [LA [_ [_ [LE [ND DN]]]]]]]]]]]. exists s. split; [exact E0|]. split; [rewrite (run_y_start s0 E0); exact oq_ne|]. split; [exact E|].
  destruct (R Ad 1) as [s1 [E1 [_ [_ [_ [_ [_ [_ [_ [LE1 [ND1 DN1]]]]]]]]]]].
  assert (D0 : rs_done s0 = false) by (unfold run_build in E0; destruct (get_A run_y []); [|discriminate]; injection E0 as <-; reflexivity).
  assert (I1 : rs_done s1 = true /\ rs_iter s1 = 1).
  { cbn [run_loop] in E1. rewrite D0 in E1. destruct (run_step run_y s0) as [s'|] eqn:ES; [|discriminate]. replace (if rs_done s' then Some s' else Some s') with (Some s') in E1 by now destruct (rs_done s'). injection E1 as <-.
    assert (It : rs_iter s' = 1).
    { unfold run_step in ES. destruct (measured _ _ _ _ _); [|discriminate]. destruct (get_A _ _); [|discriminate]. injection ES as <-. unfold run_check. cbn [rs_iter]. f_equal. unfold run_build in E0. destruct (get_A run_y []); [|discriminate]. injection E0 as <-. reflexivity. }
    split; [|exact It]. apply DN1. rewrite It. split; [lia|now left]. }
  destruct I1 as [D1 I1].
  assert (S1 : run_loop run_y 3 s0 = Some s1).
  { cbn [run_loop] in E1. rewrite D0 in E1. destruct (run_step run_y s0) as [s'|] eqn:ES; [|discriminate]. replace (if rs_done s' then Some s' else Some s') with (Some s') in E1 by now destruct (rs_done s'). injection E1 as ->.
    rewrite (run_loop_S run_y 2 s0 s1 D0 ES). now apply run_loop_done. }
  rewrite E in S1. injection S1 as ->. split; [exact D1|]. split; [exact I1|]. rewrite I1, EL in LL. destruct older as [|e [|? ?]]; try discriminate LL. rewrite EL in LA, SS. cbn [last] in LA. subst e.
  apply StronglySorted_inv in SS. destruct SS as [_ F]. inversion F; assumption.
Qed.

(** Every state of a run with any settings, whether or not its operators are regular: one energy is logged for each turn after
    that of the reference determinant; the best energy is the least of the log; the counter of rises counts the turns
    whose energy was not below the mean of the last three.  The run is marked as done exactly when it has made a turn and
    max_iter is reached, or the norm is below the threshold, or the last turn is a rise and the third one or later,
    whatever happened between the rises. *)
Theorem C148_stop : forall c s, visited c s ->
  (exists older, rs_log s = rs_en s :: older) /\ length (rs_log s) = S (rs_iter s) /\ last (rs_log s) 0%R = run_e0 c /\
  In (rs_best s) (rs_log s) /\ (forall e, In e (rs_log s) -> (rs_best s <= e)%R) /\ rise_count (rs_log s) (rs_incr s) /\
  (rs_done s = true <-> 1 <= rs_iter s /\ (rs_iter s = rc_max c \/ (rs_norm s < rc_crit c)%R \/ (rises (rs_log s) /\ exists k, rise_count (rs_log s) k /\ 3 <= k))).
Proof. exact bookkeeping. Qed.
Print Assumptions C148_stop.
(** A case: [C148_case] visits such states.  A log (newest first) with two rises, not in a row. *)
Example C148_rises : rise_count [5; 1; 2; 4; 3]%R 2 /\ rises [5; 1; 2; 4; 3]%R.
Proof.
  assert (R : rises [5; 1; 2; 4; 3]%R) by (cbn [rises firstn fold_right length INR]; lra). split; [|exact R]. apply rc_up; [|exact R].
  apply rc_down; [|cbn [rises firstn fold_right length INR]; lra]. apply rc_down; [|cbn [rises firstn fold_right length INR]; lra].
  apply rc_up; [|cbn [rises firstn fold_right length INR]; lra]. apply rc_start.
Qed.

(** C149.  The run ends.  With S the sum of the magnitudes of the integrals, r spin orbitals, S_min the cutoff of the residuals
    and steps with 64*S*(strings of the operator)*epsilon at most 1: if max_iter is larger than 1+k, where
    k*epsilon*(4*opt_thresh^2-r^4*S_min^2) exceeds S*r^4, the norm is below opt_thresh after at most 1+k turns. *)
Theorem C149_ends : forall c (smin : R) fuel, usable c -> (0 <= rc_rel c <= 1)%R -> (forall x, rc_keep c x = false -> (cabs x <= smin)%R) -> (0 < rc_crit c)%R ->
  (forall s, visited c s -> rs_done s = false ->
     rs_A s <> [] /\ regular (euler_operator (rc_eps c) (rs_A s)) /\ (64 * size4 (2 * rc_N c) (rc_K2 c) * INR (length (rs_A s)) * rc_eps c <= 1)%R) ->
  let r4 := (INR (2 * rc_N c) * INR (2 * rc_N c) * INR (2 * rc_N c) * INR (2 * rc_N c))%R in
  (size4 (2 * rc_N c) (rc_K2 c) * r4 < INR fuel * (rc_eps c * (4 * (rc_crit c * rc_crit c) - r4 * (smin * smin))))%R ->
  exists s0 s, run_build c = Some s0 /\ run_loop c (S fuel) s0 = Some s /\ rs_done s = true /\ (rs_iter s = rc_max c \/ (rs_norm s < rc_crit c)%R) /\ rs_iter s <= S fuel.
Proof. exact run_converges. Qed.
Print Assumptions C149_ends.
(** A case: the run of C148, whose cutoff is 1e-10. *)
Example C149_case : exists fuel, usable run_y /\ (0 <= rc_rel run_y <= 1)%R /\ (forall x, rc_keep run_y x = false -> (cabs x <= / 10 ^ 10)%R) /\ (0 < rc_crit run_y)%R /\
  (forall s, visited run_y s -> rs_done s = false ->
     rs_A s <> [] /\ regular (euler_operator (rc_eps run_y) (rs_A s)) /\ (64 * size4 (2 * rc_N run_y) (rc_K2 run_y) * INR (length (rs_A s)) * rc_eps run_y <= 1)%R) /\
  let r4 := (INR (2 * rc_N run_y) * INR (2 * rc_N run_y) * INR (2 * rc_N run_y) * INR (2 * rc_N run_y))%R in
  (size4 (2 * rc_N run_y) (rc_K2 run_y) * r4 < INR fuel * (rc_eps run_y * (4 * (rc_crit run_y * rc_crit run_y) - r4 * (/ 10 ^ 10 * / 10 ^ 10))))%R.
Proof.
  cbn [run_y rc_N rc_rel rc_keep rc_crit rc_K2 rc_eps]. change (2 * 2) with 4. rewrite Ky_size. set (d := (eps_ex * (4 * (/ 1000 * / 1000) - INR 4 * INR 4 * INR 4 * INR 4 * (/ 10 ^ 10 * / 10 ^ 10)))%R).
  assert (P : (0 < d)%R). { unfold d. apply Rmult_lt_0_compat; [unfold eps_ex; lra|]. cbn [INR pow]. lra. }
  assert (Ex : exists n, (4 * (INR 4 * INR 4 * INR 4 * INR 4) / d < INR n)%R).
  { set (x := (4 * (INR 4 * INR 4 * INR 4 * INR 4) / d)%R). exists (Z.to_nat (up x)). destruct (archimed x) as [H _].
    assert (X : (0 < x)%R) by (unfold x; apply Rdiv_lt_0_compat; [cbn [INR]; lra|exact P]). rewrite INR_IZR_INZ, Z2Nat.id; [exact H|]. apply le_IZR. lra. }
  destruct Ex as [n Hn]. exists n. split; [exact run_y_usable|]. split; [lra|].
  split; [intros x H; unfold keep_ex in H; destruct (Rle_dec _ _) as [H'|H']; [discriminate|]; apply Rnot_le_gt, Rgt_lt, Rlt_le in H'; exact H'|]. split; [lra|]. split; [rewrite <- Ky_size; exact run_y_step|].
  apply (Rmult_lt_compat_r d) in Hn; [|exact P]. unfold Rdiv in Hn. rewrite Rmult_assoc, Rinv_l, Rmult_1_r in Hn by lra. exact Hn.
Qed.

(** C155.  A run is built only if the molecule has as many alpha as beta electrons, one more, one less, or two more: the
    storage of any other one raises.  With such electron numbers it is built ([C148_run]). *)
Theorem C155_excess : forall c s, run_build c = Some s -> rc_a c = rc_b c \/ rc_a c = S (rc_b c) \/ rc_b c = S (rc_a c) \/ rc_a c = S (S (rc_b c)).
Proof. exact excess_unknown. Qed.
Print Assumptions C155_excess.
(** A quartet fits the orbitals and is refused; so is a triplet with the beta electrons in excess, though not the one with alpha. *)
Theorem C155_refused : exists c d : run_cfg, rc_a c <= rc_N c /\ rc_b c <= rc_N c /\ run_build c = None /\ rc_a d <= rc_N d /\ rc_b d <= rc_N d /\ rc_b d = rc_a d + 2 /\ run_build d = None.
Proof.
  exists (MkRun 3 3 0 c1 Ky c0 Plain true Plain false 3 (fun x => ceqb x c0) keep_ex (/ 10)%R eps_ex 1 (/ 1000)%R CNorm),
         (MkRun 2 0 2 c0 Ky c0 Plain true Plain false 2 (fun x => ceqb x c0) keep_ex (/ 10)%R eps_ex 1 (/ 1000)%R CNorm).
  cbn [rc_a rc_b rc_N]. repeat split; lia.
Qed.
Print Assumptions C155_refused.
(** A case: one electron of each spin. *)
Example C155_case : exists s, run_build run_y = Some s.
Proof. destruct (C148_run run_y run_y_usable) as [s0 [E _]]. now exists s0. Qed.

(** C156.  Under a convergence type that is neither 'norm', 'S-norm' nor 'trust' - the value 'default' when none is given - a
    run that is built raises in its first turn, for all settings under which the run with 'norm' is analysed.  With 'trust'
    the Euler run is not built. *)
Theorem C156_default_raises : forall c, usable c -> exists s0, run_build (with_conv c COther) = Some s0 /\ rs_done s0 = false /\ forall k, run_loop (with_conv c COther) (S k) s0 = None.
Proof. exact other_conv. Qed.
Print Assumptions C156_default_raises.
Theorem C156_trust_raises : forall c, run_build (with_conv c CTrust) = None.
Proof. exact trust_conv. Qed.
Print Assumptions C156_trust_raises.
(** A case: the run of C148 with the default convergence type. *)
Example C156_case : usable run_y /\ exists s0, run_build (with_conv run_y COther) = Some s0 /\ run_loop (with_conv run_y COther) 1 s0 = None.
Proof. split; [exact run_y_usable|]. destruct (C156_default_raises run_y run_y_usable) as [s0 [E [_ H]]]. exists s0. split; [exact E|apply H]. Qed.
