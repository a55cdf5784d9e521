(** The run of the ACSE solver: every turn lowers the energy, and the run ends. *)
From Coq Require Import Bool List Arith ZArith Reals Lra Lia Ring Permutation Sorted.
From Verif Require Import Coeff ComplexR MatSpec MatLemmas AdjProofs FockSpec OpSpec OpTotal OperatorModel OperatorProofs FermiModel FermiProofs TransformModel
  CircuitSpec CircuitModel CircuitProofs CircuitProofs2 HamModel HamSpec InvModel InvSpec InvProofs RdmSpec RdmModel RdmProofs RdmFock TomoModel TomoProofs PlanModel PlanProofs2 PlanProofs3 PlanProofs5
  QuantSpec StoreModel StoreProofs InitProofs ResSpec ResModel ResProofs ResProofs3 VqeSpec ConsSpec ConsModel ConsProofs3 EulerSpec AcseModel EulerModel EulerProofs2 EulerProofs3 EulerProofs4
  ShapeSpec LayerSpec LayerProofs LayerProofs2 LayerProofs3 LayerProofs4 PauliModel PlanSpec IterModel IterSpec IterProofs IterProofs2.
Import ListNotations.
Local Open Scope R_scope.
Add Ring CxRingI3 : (c_ring Cx).

Lemma average_above x (l : list R) : l <> [] -> (forall y, In y l -> x < y) -> x < average_R (x :: l).
Proof.
  intros NE H. unfold average_R. cbn [fold_right length]. rewrite S_INR.
  assert (G : forall l : list R, (forall y, In y l -> x < y) -> INR (length l) * x <= fold_right Rplus 0 l /\ (l <> [] -> INR (length l) * x < fold_right Rplus 0 l)).
  { clear. induction l as [|y l IH]; intro H; [cbn; split; [lra|contradiction]|]. cbn [fold_right length]. rewrite S_INR. pose proof (H y (or_introl eq_refl)). destruct IH as [I1 _]; [intros; apply H; now right|]. split; [|intros _]; lra. }
  destruct (G l H) as [_ G2]. specialize (G2 NE). assert (P : 0 < INR (length l) + 1) by (pose proof (pos_INR (length l)); lra).
  apply (Rmult_lt_reg_r (INR (length l) + 1)); [exact P|]. unfold Rdiv. rewrite Rmult_assoc, Rinv_l by lra. lra.
Qed.
Lemma firstn_In {A} n (l : list A) x : In x (firstn n l) -> In x l.
Proof. revert l. induction n as [|n IH]; intros [|a l]; cbn [firstn]; [easy|easy|easy|]. intros [->|I]; [now left|right; now apply IH]. Qed.
Lemma unrise x log k : log <> [] -> (1 <= k)%nat -> (forall y, In y log -> x < y) -> ~ average_R (firstn (Nat.min 3 (k + 1)) (x :: log)) <= x.
Proof.
  intros NE Hk H. destruct (Nat.min 3 (k + 1)) as [|[|n]] eqn:M; [lia|lia|]. apply Rlt_not_le. change (firstn (S (S n)) (x :: log)) with (x :: firstn (S n) log). apply average_above.
  - destruct log; [contradiction|]. discriminate.
  - intros y I. apply H, (firstn_In _ _ _ I).
Qed.

Lemma s2_known_spec c : s2_known c = true <-> rc_a c = rc_b c \/ rc_a c = S (rc_b c) \/ rc_b c = S (rc_a c) \/ rc_a c = S (S (rc_b c)).
Proof. unfold s2_known. rewrite !orb_true_iff, !Nat.eqb_eq. intuition. Qed.

Section Run.
  Variable c : run_cfg.
  Hypothesis U : usable c.
  Notation r := (2 * rc_N c)%nat.
  Notation ok := (fun L => layer_ok r (fun _ => true) L /\ layer_ok r (fun k => existsb (Nat.eqb k) (seq 0 (rc_N c))) L).
  Notation state gs := (prepared Crt r gs).
  Notation gain s := (rc_eps c * (sq (rs_A s) / 4) * (1 - 32 * size4 r (rc_K2 c) * INR (length (rs_A s)) * rc_eps c)).

  Definition measured_by (s : run_state) gs o : Prop := good_state c (rs_psi s) gs /\ residual_operator (rc_keep c) r r (residual_of r (rc_K2 c) (state gs)) = Some o /\
    rs_A s = truncate_rel (rc_rel c) o /\ rs_norm s = residual_norm r (rc_K2 c) (state gs) /\ rs_en s = energy_at c (state gs).
  Record sound (s : run_state) : Prop := {
    so_ok : forall L, In L (rs_psi s) -> ok L;
    so_state : exists gs o, measured_by s gs o;
    so_log : exists older, rs_log s = rs_en s :: older;
    so_sorted : StronglySorted Rlt (rs_log s);
    so_length : length (rs_log s) = S (rs_iter s);
    so_last : last (rs_log s) 0 = run_e0 c;
    so_best : rs_best s = rs_en s;
    so_incr : rs_incr s = 0%nat;
    so_done : rs_done s = true <-> (1 <= rs_iter s)%nat /\ (rs_iter s = rc_max c \/ rs_norm s < rc_crit c) }.

  Lemma build_sound : exists s0, run_build c = Some s0 /\ sound s0 /\ rs_iter s0 = 0%nat /\ rs_psi s0 = [] /\ rs_en s0 = run_e0 c /\ rs_log s0 = [run_e0 c] /\ rs_done s0 = false.
  Proof.
    destruct (hf_energy c U) as [gs [G E]]. destruct (get_A_spec c U [] gs G) as [o [EO EA]]. unfold run_build. rewrite (proj2 (s2_known_spec c) (us_excess c U)), (us_conv c U), EA. cbn [option_map fst snd].
    eexists. split; [reflexivity|]. split; [|repeat split; reflexivity]. constructor; cbn [rs_psi rs_A rs_norm rs_en rs_iter rs_done rs_best rs_incr rs_log].
    - intros L [].
    - exists gs, o. split; [exact G|]. split; [exact EO|]. split; [reflexivity|]. split; [reflexivity|exact E].
    - now exists [].
    - repeat constructor.
    - reflexivity.
    - reflexivity.
    - reflexivity.
    - reflexivity.
    - split; [discriminate|]. intros [? _]. lia.
  Qed.

  Lemma step_sound s : sound s -> rs_done s = false -> admissible c s ->
    exists s', run_step c s = Some s' /\ sound s' /\ rs_iter s' = S (rs_iter s) /\ rs_log s' = rs_en s' :: rs_log s /\ rs_en s' <= rs_en s - gain s.
  Proof.
    intros So ND [NE [RG SM]]. destruct (so_state s So) as [gs [o [G [EO [EA [EN EE]]]]]].
    destruct (turn c U (rs_psi s) gs o (rs_A s) G (so_ok s So) EO EA RG) as [OK' [gs' [G' D]]].
    unfold run_step. set (psi' := ans_add fstr_eqb 1 (rs_psi s) (euler_operator (rc_eps c) (rs_A s))) in *.
    destruct (measured_energy c U psi' gs' (rc_simp c) (rc_imag c) G' (us_simp c U)) as [t [Et Een]]. destruct (get_A_spec c U psi' gs' G') as [o' [EO' EA']].
    rewrite Et, EA', (us_conv c U). cbn [fst snd]. eexists. split; [reflexivity|]. rewrite Een. set (en := energy_at c (state gs')) in *. rewrite <- EE in D.
    assert (Lt : en < rs_en s). { assert (P : 0 < gain s); [|lra]. pose proof (us_eps c U). pose proof (truncated_sq (rc_eps c) (rs_A s) NE RG). repeat apply Rmult_lt_0_compat; lra. }
    destruct (so_log s So) as [older EL]. assert (All : forall y, In y (rs_log s) -> en < y).
    { intros y I. pose proof (so_sorted s So) as SS. rewrite EL in I, SS. apply StronglySorted_inv in SS. destruct SS as [_ F]. rewrite Forall_forall in F. destruct I as [<-|I]; [exact Lt|]. specialize (F y I). lra. }
    assert (NR : forall k, (1 <= k)%nat -> ~ average_R (firstn (Nat.min 3 (k + 1)) (en :: rs_log s)) <= en) by (intros k Hk; apply unrise; [rewrite EL; discriminate|exact Hk|exact All]).
    unfold run_check. cbv zeta. destruct (Rle_dec _ en) as [B|_]; [exfalso; revert B; apply NR; lia|].
    replace (if (rs_iter s =? 0)%nat then rs_en s else rs_best s) with (rs_en s) by (rewrite (so_best s So); now destruct (rs_iter s =? 0)%nat).
    destruct (Rlt_dec en (rs_en s)) as [_|B]; [|contradiction]. split; [|cbn [rs_iter rs_log rs_en]; auto].
    constructor; cbn [rs_psi rs_A rs_norm rs_en rs_iter rs_done rs_best rs_incr rs_log].
    - exact OK'.
    - exists gs', o'. split; [exact G'|]. split; [exact EO'|]. split; [reflexivity|]. split; reflexivity.
    - now exists (rs_log s).
    - constructor; [exact (so_sorted s So)|]. apply Forall_forall. exact All.
    - cbn [length]. f_equal. exact (so_length s So).
    - rewrite <- (so_last s So), EL. reflexivity.
    - reflexivity.
    - exact (so_incr s So).
    - rewrite ND. cbn [orb andb]. rewrite orb_false_r. destruct (Rlt_dec _ (rc_crit c)) as [B|B].
      + rewrite orb_true_r. split; [intros _; split; [lia|now right]|reflexivity].
      + rewrite orb_false_r, Nat.eqb_eq. split; [intro E; split; [lia|now left]|]. intros [_ [E|E]]; [exact E|contradiction].
  Qed.

  Lemma run_loop_S fuel s s' : rs_done s = false -> run_step c s = Some s' -> run_loop c (S fuel) s = run_loop c fuel s'.
  Proof. intros ND E. cbn [run_loop]. now rewrite ND, E. Qed.
  Lemma run_loop_done fuel s : rs_done s = true -> run_loop c fuel s = Some s.
  Proof. intro D. destruct fuel; cbn [run_loop]; now rewrite D. Qed.
  (** The loop with a lower bound [g] on the gain of every turn that starts from an iterate satisfying [Q]. *)
  Lemma loop_sound (g : R) fuel : forall s, sound s -> (forall k s', run_loop c k s = Some s' -> rs_done s' = false -> admissible c s' /\ g <= gain s') ->
    exists s', run_loop c fuel s = Some s' /\ sound s' /\ (rs_iter s' <= rs_iter s + fuel)%nat /\ (rs_done s' = false -> rs_iter s' = (rs_iter s + fuel)%nat) /\
      (exists newer, rs_log s' = newer ++ rs_log s) /\ (rs_done s' = false -> rs_en s' <= rs_en s - INR fuel * g).
  Proof.
    induction fuel as [|fuel IH]; intros s So V.
    - exists s. cbn [run_loop]. split; [now destruct (rs_done s)|]. split; [exact So|]. split; [lia|]. split; [lia|]. split; [now exists []|]. intros _. cbn [INR]. lra.
    - destruct (rs_done s) eqn:D.
      + exists s. split; [now apply run_loop_done|]. split; [exact So|]. split; [lia|]. split; [rewrite D; discriminate|]. split; [now exists []|rewrite D; discriminate].
      + destruct (V 0%nat s) as [Ad Hg]; [cbn [run_loop]; now rewrite D|exact D|]. destruct (step_sound s So D Ad) as [s1 [E1 [So1 [I1 [L1 G1]]]]].
        destruct (IH s1 So1) as [s' [E' [So' [I' [J' [[newer L'] G']]]]]].
        * intros k s2 E2 D2. apply (V (S k) s2); [|exact D2]. rewrite (run_loop_S k s s1 D E1). exact E2.
        * exists s'. split; [rewrite (run_loop_S fuel s s1 D E1); exact E'|]. split; [exact So'|]. split; [lia|]. split; [intro D'; rewrite (J' D'); lia|]. split.
          -- exists (newer ++ [rs_en s1]). rewrite L', L1, <- app_assoc. reflexivity.
          -- intro D'. specialize (G' D'). rewrite S_INR. lra.
  Qed.
  Lemma sound_reports s : sound s -> reports c s.
  Proof. intro So. destruct (so_state s So) as [gs [o [[EC [V [Nm [HP HU]]]] [EO [EA [EN EE]]]]]]. exists gs. cbv zeta. split; [exact EC|]. split; [exact V|]. split; [exact Nm|]. split; [exact HP|]. split; [exact HU|]. split; [exact EE|]. split; [exact EN|]. now exists o. Qed.

  Theorem run_descends : exists s0, run_build c = Some s0 /\ reports c s0 /\
    ((forall s, visited c s -> rs_done s = false -> admissible c s) ->
     forall fuel, exists s, run_loop c fuel s0 = Some s /\ reports c s /\ StronglySorted Rlt (rs_log s) /\ (exists older, rs_log s = rs_en s :: older) /\ length (rs_log s) = S (rs_iter s) /\ last (rs_log s) 0 = rs_en s0 /\
       rs_best s = rs_en s /\ rs_incr s = 0%nat /\ (rs_iter s <= fuel)%nat /\ (rs_done s = false -> rs_iter s = fuel) /\
       (rs_done s = true <-> (1 <= rs_iter s)%nat /\ (rs_iter s = rc_max c \/ rs_norm s < rc_crit c))).
  Proof.
    destruct build_sound as [s0 [E0 [So [I0 [_ [En [_ D0]]]]]]]. exists s0. split; [exact E0|]. split; [now apply sound_reports|]. intros V fuel.
    destruct (loop_sound 0 fuel s0 So) as [s [E [S' [I [J _]]]]].
    - intros k s' E D. assert (A : admissible c s') by (apply V; [now exists s0, k|exact D]). split; [exact A|]. destruct A as [NE [RG SM]].
      pose proof (us_eps c U). pose proof (truncated_sq (rc_eps c) (rs_A s') NE RG). apply Rmult_le_pos; [apply Rmult_le_pos; lra|lra].
    - exists s. rewrite I0 in I, J. split; [exact E|]. split; [now apply sound_reports|]. split; [exact (so_sorted s S')|]. split; [exact (so_log s S')|]. split; [exact (so_length s S')|].
      split; [rewrite En; exact (so_last s S')|]. split; [exact (so_best s S')|]. split; [exact (so_incr s S')|]. split; [exact I|]. split; [exact J|exact (so_done s S')].
  Qed.
End Run.
