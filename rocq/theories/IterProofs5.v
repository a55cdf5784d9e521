(** The bookkeeping of the run of the ACSE solver for arbitrary settings: the log, the best energy and the end. *)
From Coq Require Import Bool List Arith Reals Lra Lia.
From Verif Require Import Coeff ComplexR MatSpec FockSpec OpSpec CircuitModel TomoModel PlanModel StoreModel ResModel AcseModel EulerModel IterModel IterSpec IterProofs3.
Import ListNotations.
Local Open Scope R_scope.

Lemma rises_average e x log k : (length (x :: log) = S k)%nat -> average_R (firstn (Nat.min 3 (S k + 1)) (e :: x :: log)) <= e <-> rises (e :: x :: log).
Proof.
  intro L. unfold rises. replace (firstn (Nat.min 3 (S k + 1)) (e :: x :: log)) with (firstn 3 (e :: x :: log)).
  - unfold average_R. set (l := firstn 3 (e :: x :: log)). assert (P : 0 < INR (length l)) by (apply lt_0_INR; unfold l; cbn [firstn length]; lia). split; intro H.
    + apply (Rmult_le_compat_r (INR (length l))) in H; [|lra]. unfold Rdiv in H. rewrite Rmult_assoc, Rinv_l in H by lra. lra.
    + apply (Rmult_le_reg_r (INR (length l))); [exact P|]. unfold Rdiv. rewrite Rmult_assoc, Rinv_l by lra. lra.
  - destruct (le_lt_dec 3 (S k + 1)) as [G|G]; [now rewrite Nat.min_l by lia|]. rewrite Nat.min_r by lia. cbn [length] in L. assert (k = 0%nat) by lia. subst k. destruct log; [reflexivity|discriminate].
Qed.

Section Any.
  Variable c : run_cfg.
  (** What every state of a run satisfies. *)
  Record kept (s : run_state) : Prop := {
    ke_log : exists older, rs_log s = rs_en s :: older;
    ke_length : length (rs_log s) = S (rs_iter s);
    ke_last : last (rs_log s) 0 = run_e0 c;
    ke_best : In (rs_best s) (rs_log s) /\ (forall e, In e (rs_log s) -> rs_best s <= e);
    ke_count : rise_count (rs_log s) (rs_incr s);
    ke_done : rs_done s = true <-> (1 <= rs_iter s)%nat /\ (rs_iter s = rc_max c \/ rs_norm s < rc_crit c \/ (rises (rs_log s) /\ (3 <= rs_incr s)%nat)) }.

  Lemma build_kept s0 : run_build c = Some s0 -> kept s0.
  Proof.
    unfold run_build. destruct (s2_known c); [|discriminate]. intro E. assert (E' : option_map (fun a => MkState [] (fst a) (snd a) (run_e0 c) 0 false (run_e0 c) 0 [run_e0 c]) (get_A c []) = Some s0) by (destruct (rc_conv c); [discriminate|exact E|exact E]).
    clear E. destruct (get_A c []); [|discriminate]. injection E' as <-. constructor; cbn [rs_psi rs_A rs_norm rs_en rs_iter rs_done rs_best rs_incr rs_log].
    - now exists [].
    - reflexivity.
    - reflexivity.
    - split; [now left|]. intros e [<-|[]]. lra.
    - constructor.
    - split; [discriminate|]. intros [H _]. lia.
  Qed.
  Lemma check_kept psi A norm en s : kept s -> rs_done s = false -> kept (run_check c psi A norm en s).
  Proof.
    intros [[older EL] LL LA [BI BM] CN DN] ND. rewrite EL in *. set (log := rs_en s :: older) in *. pose proof (rises_average en (rs_en s) older (rs_iter s) LL) as RA. fold log in RA.
    assert (B0 : (if (rs_iter s =? 0)%nat then rs_en s else rs_best s) = rs_best s).
    { destruct (rs_iter s) eqn:I; [|reflexivity]. cbn [Nat.eqb]. unfold log in LL, BI. destruct older; [|discriminate]. destruct BI as [->|[]]. reflexivity. }
    unfold run_check. rewrite EL. fold log. cbv zeta. rewrite B0. change (S (rs_iter s)) with (S (rs_iter s))%nat.
    constructor; cbn [rs_psi rs_A rs_norm rs_en rs_iter rs_done rs_best rs_incr rs_log].
    - now exists log.
    - cbn [length]. now rewrite LL.
    - rewrite <- LA. reflexivity.
    - destruct (Rlt_dec en (rs_best s)) as [Lt|Ge].
      + split; [now left|]. intros e [<-|I]; [lra|]. specialize (BM e I). lra.
      + split; [now right|]. intros e [<-|I]; [lra|]. now apply BM.
    - destruct (Rle_dec _ en) as [H|H]; [apply rc_up|apply rc_down]; try assumption; [now apply RA|]. intro B. apply H, RA, B.
    - rewrite ND. cbn [orb]. rewrite !orb_true_iff, andb_true_iff, Nat.eqb_eq, Nat.leb_le.
      assert (C1 : (if Rlt_dec norm (rc_crit c) then true else false) = true <-> norm < rc_crit c) by (destruct (Rlt_dec _ _); intuition discriminate).
      rewrite C1. destruct (Rle_dec _ en) as [H|H].
      + apply RA in H. intuition lia.
      + assert (NR : ~ rises (en :: log)) by (intro B; apply H, RA, B). intuition (discriminate || lia).
  Qed.
  Lemma loop_kept fuel : forall s s', kept s -> run_loop c fuel s = Some s' -> kept s'.
  Proof.
    induction fuel as [|fuel IH]; intros s s' Ks; cbn [run_loop]; destruct (rs_done s) eqn:D; try (intro E; injection E as <-; exact Ks).
    destruct (run_step c s) as [s1|] eqn:E1; [|discriminate]. apply IH. unfold run_step in E1. destruct (measured _ _ _ _ _); [|discriminate]. destruct (get_A _ _); [|discriminate]. destruct (rc_conv c); try discriminate. injection E1 as <-. now apply check_kept.
  Qed.
  Theorem visited_kept s : visited c s -> kept s.
  Proof. intros [s0 [k [E0 E]]]. exact (loop_kept k s0 s (build_kept s0 E0) E). Qed.
End Any.

Lemma rise_nil k : ~ rise_count [] k.
Proof. intro H. inversion H. Qed.
Lemma rise_count_fun l k k' : rise_count l k -> rise_count l k' -> k = k'.
Proof.
  intro H. revert k'. induction H as [e|e l k H IH Hr|e l k H IH Hr]; intros k' H'; inversion H' as [e' E1 E2|e' l' k1 H1 R1 E1 E2|e' l' k1 H1 R1 E1 E2]; subst.
  - reflexivity.
  - now apply rise_nil in H1.
  - now apply rise_nil in H1.
  - now apply rise_nil in H.
  - f_equal. now apply IH.
  - contradiction.
  - now apply rise_nil in H.
  - contradiction.
  - now apply IH.
Qed.
Theorem bookkeeping c s : visited c s ->
  (exists older, rs_log s = rs_en s :: older) /\ length (rs_log s) = S (rs_iter s) /\ last (rs_log s) 0 = run_e0 c /\
  In (rs_best s) (rs_log s) /\ (forall e, In e (rs_log s) -> rs_best s <= e) /\ rise_count (rs_log s) (rs_incr s) /\
  (rs_done s = true <-> (1 <= rs_iter s)%nat /\ (rs_iter s = rc_max c \/ rs_norm s < rc_crit c \/ (rises (rs_log s) /\ exists k, rise_count (rs_log s) k /\ (3 <= k)%nat))).
Proof.
  intro V. destruct (visited_kept c s V) as [A B D [E1 E2] F G]. repeat (split; [assumption|]). rewrite G.
  assert (U : forall l k, rise_count l k -> forall k', rise_count l k' -> k = k').
  { intros l k H k' H'. exact (rise_count_fun l k k' H H'). }
  split; intros [H1 H2]; (split; [exact H1|]); destruct H2 as [H2|[H2|[H2 H3]]]; auto; right; right; (split; [exact H2|]).
  - now exists (rs_incr s).
  - destruct H3 as [k [H3 H4]]. now rewrite <- (U _ _ F k H3) in H4.
Qed.

Theorem excess_unknown c s : run_build c = Some s -> rc_a c = rc_b c \/ rc_a c = S (rc_b c) \/ rc_b c = S (rc_a c) \/ rc_a c = S (S (rc_b c)).
Proof. unfold run_build. destruct (s2_known c) eqn:E; [|discriminate]. intros _. now apply s2_known_spec. Qed.
Theorem other_conv c : usable c -> exists s0, run_build (with_conv c COther) = Some s0 /\ rs_done s0 = false /\ forall k, run_loop (with_conv c COther) (S k) s0 = None.
Proof.
  intro U. destruct (build_sound c U) as [s0 [E [_ [_ [_ [_ [_ D]]]]]]]. exists s0. split; [|split; [exact D|]].
  - rewrite <- E. unfold run_build. rewrite (us_conv c U). reflexivity.
  - intro k. cbn [run_loop]. rewrite D. unfold run_step. destruct (measured _ _ _ _ _); [|reflexivity]. destruct (get_A _ _); reflexivity.
Qed.
Theorem trust_conv c : run_build (with_conv c CTrust) = None.
Proof. unfold run_build. destruct (s2_known _); reflexivity. Qed.
