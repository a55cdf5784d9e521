(** The run of the ACSE solver ends by its norm criterion within a number of turns set by the inputs. *)
From Coq Require Import Bool List Arith ZArith Reals Lra Lia Ring Permutation Sorted.
From Verif Require Import Coeff ComplexR MatSpec MatLemmas AdjProofs FockSpec OpSpec OpTotal OperatorModel OperatorProofs FermiModel FermiProofs TransformModel
  CircuitSpec CircuitModel CircuitProofs CircuitProofs2 HamModel HamSpec InvModel InvSpec InvProofs RdmSpec RdmModel RdmProofs RdmFock TomoModel TomoProofs PlanModel PlanProofs2 PlanProofs3 PlanProofs5
  QuantSpec StoreModel StoreProofs InitProofs ResSpec ResModel ResProofs ResProofs3 VqeSpec ConsSpec ConsModel ConsProofs3 EulerSpec AcseModel EulerModel EulerProofs2 EulerProofs3 EulerProofs4
  ShapeSpec LayerSpec LayerProofs LayerProofs2 LayerProofs3 LayerProofs4 PauliModel PlanSpec IterModel IterSpec IterProofs IterProofs2 IterProofs3.
Import ListNotations.
Local Open Scope R_scope.
Add Ring CxRingI4 : (c_ring Cx).

Lemma total_ne_In X (o : cfop) : total fdec X o <> c0 -> exists x, In (X, x) o.
Proof.
  induction o as [|[Y x] o IH]; intro H; [exfalso; now apply H|]. cbn [total] in H. destruct (fdec X Y) as [<-|NE]; [exists x; now left|].
  destruct IH as [y I]; [intro Z; apply H; rewrite Z; ring|]. exists y. now right.
Qed.
Lemma sq_pos (l : cfop) : 0 <= sq l.
Proof. induction l as [|e l IH]; cbn [sq fold_right]; [lra|]; fold (sq l); nra. Qed.
Lemma sq_In (l : cfop) e : In e l -> cabs (snd e) * cabs (snd e) <= sq l.
Proof.
  induction l as [|[k [x y]] l IH]; [easy|]. pose proof (sq_pos l) as P. intros [<-|I]; cbn [sq fold_right snd fst]; fold (sq l).
  - rewrite cabs_square. cbn [fst snd]. lra.
  - specialize (IH I). nra.
Qed.
Lemma cabs_le_square (x y : Cx) : cabs x <= cabs y -> cabs x * cabs x <= cabs y * cabs y.
Proof. intro H. pose proof (cabs_pos x). nra. Qed.
Lemma rsum_bound n f b : (forall i, (i < n)%nat -> f i <= b) -> rsum n f <= INR n * b.
Proof.
  intro H. unfold rsum. assert (G : forall l, (forall i, In i l -> f i <= b) -> fold_right (fun i t => f i + t) 0 l <= INR (length l) * b).
  { induction l as [|i l IH]; intro HL; cbn [fold_right length]; [cbn; lra|]. rewrite S_INR. pose proof (HL i (or_introl eq_refl)). specialize (IH (fun j Hj => HL j (or_intror Hj))). lra. }
  rewrite <- (seq_length n 0) at 2. apply G. intros i I. apply in_seq in I. apply H. lia.
Qed.

Section Conv.
  Variables (N : nat) (K2 : tensor4) (psi : bits -> Cx) (keep : Cx -> bool) (rel smin : R).
  Hypothesis HK : real_symmetric K2.
  Hypothesis keep_opp : forall x, keep (copp x) = keep x.
  Hypothesis keep_min : forall x, keep x = false -> cabs x <= smin.
  Hypothesis Hrel : 0 <= rel <= 1.
  Notation A := (residual_of N K2 psi).
  Notation T := (truncate_rel rel (oper N A keep)).
  Notation HA := (fun _ _ _ _ _ _ _ _ => eq_refl).
  Lemma entry_bound i k j l : (i < N)%nat -> (k < N)%nat -> (j < N)%nat -> (l < N)%nat -> fst (A i k j l) * fst (A i k j l) <= smin * smin + sq T / 16.
  Proof.
    intros Hi Hk Hj Hl. pose proof (f_equal snd (residual_real Cx N K2 psi i k j l)) as RR. assert (Y : snd (A i k j l) = 0) by (destruct (A i k j l) as [x y]; cbn [Cx cconj Cconj fst snd] in *; lra).
    assert (E : fst (A i k j l) * fst (A i k j l) = cabs (A i k j l) * cabs (A i k j l)) by (rewrite cabs_square, Y; ring). pose proof (sq_pos T) as P. rewrite E.
    destruct (keep (A i k j l)) eqn:Kp; [|pose proof (keep_min _ Kp); pose proof (cabs_pos (A i k j l)); nra].
    destruct (ceqb (A i k j l) c0) eqn:Z; [apply (ceqb_spec Cx) in Z; rewrite <- E, Z; cbn [Cx c0 C0 fst]; nra|].
    assert (On : on A keep i k j l = true) by (unfold on; now rewrite Kp, Z).
    pose proof (A_sw1 N K2 psi A HK HA) as S1. pose proof (A_sw2 N K2 psi A HK HA) as S2.
    pose proof (total_four N A keep keep_opp S1 S2 i k j l Hi Hk Hj Hl On) as Tt. destruct (sent_spec N A keep S1 S2 i k j l Hi Hk Hj Hl On) as [s [u [_ [E1 [_ [Pu _]]]]]]. rewrite E1 in Tt. cbn [fst snd] in Tt.
    set (v := cmul (cadd (cadd (cadd c1 c1) c1) c1) (cmul u (copp (A i k j l)))) in *.
    assert (V : cabs v * cabs v = 16 * (cabs (A i k j l) * cabs (A i k j l))).
    { rewrite !cabs_square. unfold v. destruct Pu as [-> | ->]; destruct (A i k j l) as [x y]; cbn [Cx cmul cadd copp c1 Cmul Cadd Copp C1 fst snd]; ring. }
    assert (NZ : v <> c0). { intro V0. rewrite V0 in V. rewrite (cabs_square c0) in V. cbn [Cx c0 C0 fst snd] in V. apply not_true_iff_false in Z. apply Z. apply (ceqb_spec Cx). rewrite cabs_square in V. destruct (A i k j l) as [x y]. cbn [fst snd] in *. apply C_eq; cbn [Cx c0 C0 fst snd]; nra. }
    destruct (total_ne_In s (oper N A keep)) as [x I]; [rewrite Tt; exact NZ|].
    rewrite (total_In Cx _ _ fstr_eqb_spec' fdec s x _ (oper_NoDup N A keep) I) in Tt.
    assert (NE : oper N A keep <> []) by (intro Q; rewrite Q in I; destruct I).
    destruct (max_coeff_spec (oper N A keep) NE) as [[X IX] Mx]. specialize (Mx _ I). cbn [snd] in Mx. rewrite Tt in Mx. apply cabs_le_square in Mx.
    assert (J : In (X, max_coeff (oper N A keep)) T).
    { rewrite (truncate_filter rel _ (oper_NoDup N A keep)). apply filter_In. split; [exact IX|]. unfold cut. cbn [snd]. destruct (Rle_dec _ _) as [_|n]; [reflexivity|]. exfalso. apply n. rewrite cabs_rel, (Rabs_right rel) by lra. pose proof (cabs_pos (max_coeff (oper N A keep))). nra. }
    apply sq_In in J. cbn [snd] in J. assert (0 <= smin * smin) by nra. lra.
  Qed.
  Lemma norm_bound o : residual_operator keep N N A = Some o ->
    4 * (residual_norm N K2 psi * residual_norm N K2 psi) <= INR N * INR N * INR N * INR N * (smin * smin + sq (truncate_rel rel o) / 16).
  Proof.
    intro EO. rewrite (operator_is N A keep (A_sw1 N K2 psi A HK HA) (A_sw2 N K2 psi A HK HA)) in EO. injection EO as <-. unfold residual_norm. set (W := rsum N _).
    assert (W0 : 0 <= W).
    { assert (P : forall n f, (forall i, 0 <= f i) -> 0 <= rsum n f). { intros n f H. unfold rsum. generalize (seq 0 n). induction l as [|i l IH]; cbn [fold_right]; [lra|]. specialize (H i). lra. }
      unfold W. repeat (apply P; intro). nra. }
    replace (4 * (/ 2 * sqrt W * (/ 2 * sqrt W))) with (sqrt W * sqrt W) by field. rewrite (sqrt_sqrt W W0). unfold W. set (b := smin * smin + sq T / 16).
    replace (INR N * INR N * INR N * INR N * b) with (INR N * (INR N * (INR N * (INR N * b)))) by ring.
    apply rsum_bound. intros i Hi. apply rsum_bound. intros k Hk. apply rsum_bound. intros j Hj. apply rsum_bound. intros l Hl. exact (entry_bound i k j l Hi Hk Hj Hl).
  Qed.
End Conv.

Theorem run_converges c (smin : R) fuel : usable c -> 0 <= rc_rel c <= 1 -> (forall x, rc_keep c x = false -> cabs x <= smin) -> 0 < rc_crit c ->
  (forall s, visited c s -> rs_done s = false -> rs_A s <> [] /\ regular (euler_operator (rc_eps c) (rs_A s)) /\ 64 * size4 (2 * rc_N c) (rc_K2 c) * INR (length (rs_A s)) * rc_eps c <= 1) ->
  let r4 := INR (2 * rc_N c) * INR (2 * rc_N c) * INR (2 * rc_N c) * INR (2 * rc_N c) in
  size4 (2 * rc_N c) (rc_K2 c) * r4 < INR fuel * (rc_eps c * (4 * (rc_crit c * rc_crit c) - r4 * (smin * smin))) ->
  exists s0 s, run_build c = Some s0 /\ run_loop c (S fuel) s0 = Some s /\ rs_done s = true /\ (rs_iter s = rc_max c \/ rs_norm s < rc_crit c) /\ (rs_iter s <= S fuel)%nat.
Proof.
  intros U Hrel Hmin Hc V r4 B. destruct (build_sound c U) as [s0 [E0 [So [I0 [_ [_ [_ D0]]]]]]]. exists s0.
  assert (Ad : forall s, visited c s -> rs_done s = false -> admissible c s).
  { intros s Vs Ds. destruct (V s Vs Ds) as [NE [RG SM]]. split; [exact NE|]. split; [exact RG|]. pose proof (us_eps c U).
    assert (0 <= 32 * size4 (2 * rc_N c) (rc_K2 c) * INR (length (rs_A s)) * rc_eps c \/ 32 * size4 (2 * rc_N c) (rc_K2 c) * INR (length (rs_A s)) * rc_eps c < 0) as [X|X] by lra; lra. }
  destruct (step_sound c U s0 So D0) as [s1 [E1 [So1 [I1 [L1 G1]]]]]; [apply Ad; [exists s0, 0%nat; split; [exact E0|cbn [run_loop]; now rewrite D0]|exact D0]|].
  assert (Vs : forall k s', run_loop c k s1 = Some s' -> visited c s') by (intros k s' E; exists s0, (S k); split; [exact E0|]; now rewrite (run_loop_S c k s0 s1 D0 E1)).
  assert (Pos : forall s, admissible c s -> 0 <= rc_eps c * (sq (rs_A s) / 4) * (1 - 32 * size4 (2 * rc_N c) (rc_K2 c) * INR (length (rs_A s)) * rc_eps c)).
  { intros s [NE [RG SM]]. pose proof (us_eps c U). pose proof (sq_pos (rs_A s)). apply Rmult_le_pos; [apply Rmult_le_pos; lra|lra]. }
  set (S := size4 (2 * rc_N c) (rc_K2 c)) in *. set (g := 2 * (rc_eps c * (4 * (rc_crit c * rc_crit c) - r4 * (smin * smin))) / r4).
  assert (R0 : 0 <= r4) by (unfold r4; repeat apply Rmult_le_pos; apply pos_INR).
  assert (Snd : forall k s', run_loop c k s1 = Some s' -> sound c s' /\ (1 <= rs_iter s')%nat).
  { intros k s' E. destruct (loop_sound c U 0 k s1 So1) as [s2 [E2 [So2 [_ [_ [[nw L2] _]]]]]].
    - intros k' s2 E2 D2. assert (A2 := Ad s2 (Vs k' s2 E2) D2). split; [exact A2|now apply Pos].
    - rewrite E in E2. injection E2 as <-. split; [exact So2|]. pose proof (so_length c s' So2) as LL. rewrite L2, app_length, (so_length c s1 So1), I1 in LL. lia. }
  assert (Big : forall s', sound c s' -> (1 <= rs_iter s')%nat -> rs_done s' = false -> 4 * (rc_crit c * rc_crit c) <= r4 * (smin * smin + sq (rs_A s') / 16)).
  { intros s' So' It Ds. destruct (so_state c s' So') as [gs [o [G [EO [EA [EN _]]]]]].
    pose proof (norm_bound (2 * rc_N c) (rc_K2 c) (prepared Crt (2 * rc_N c) gs) (rc_keep c) (rc_rel c) smin (us_sym c U) (us_keep c U) Hmin Hrel o EO) as NB. rewrite <- EA, <- EN in NB. fold r4 in NB.
    assert (NC : rc_crit c <= rs_norm s'). { destruct (Rle_dec (rc_crit c) (rs_norm s')) as [X|X]; [exact X|]. exfalso. apply not_true_iff_false in Ds. apply Ds. apply (so_done c s' So'). split; [exact It|right; lra]. }
    nra. }
  destruct (rs_done s1) eqn:D1.
  - exists s1. split; [exact E0|]. rewrite (run_loop_S c fuel s0 s1 D0 E1), (run_loop_done c fuel s1 D1). split; [reflexivity|]. split; [exact D1|]. split; [apply (so_done c s1 So1); exact D1|lia].
  - assert (R1 : 0 < r4). { destruct (Req_dec r4 0) as [Z|Z]; [|lra]. pose proof (Big s1 So1 ltac:(lia) D1) as X. rewrite Z in X. nra. }
    destruct (loop_sound c U g fuel s1 So1) as [s [E [So' [It [_ [_ Q]]]]]].
    + intros k s' E D. assert (A' := Ad s' (Vs k s' E) D). split; [exact A'|]. destruct (Snd k s' E) as [So' It]. pose proof (Big s' So' It D) as X. destruct (V s' (Vs k s' E) D) as [_ [_ SM]]. fold S in SM |- *.
      pose proof (us_eps c U) as PE. pose proof (sq_pos (rs_A s')) as PS. set (n := INR (length (rs_A s'))) in *. set (eps := rc_eps c) in *. set (q := sq (rs_A s')) in *.
      apply Rle_trans with (eps * (q / 8)).
      * unfold g. apply (Rmult_le_reg_r r4); [exact R1|]. unfold Rdiv. rewrite Rmult_assoc, Rinv_l, Rmult_1_r by lra.
        assert (4 * (rc_crit c * rc_crit c) - r4 * (smin * smin) <= r4 * (q / 16)) by lra. apply Rle_trans with (2 * (eps * (r4 * (q / 16)))); [|right; field].
        apply Rmult_le_compat_l; [lra|]. apply Rmult_le_compat_l; lra.
      * replace (eps * (q / 8)) with (eps * (q / 4) * (1 / 2)) by field. apply Rmult_le_compat_l; [apply Rmult_le_pos; lra|]. lra.
    + exists s. split; [exact E0|]. rewrite (run_loop_S c fuel s0 s1 D0 E1), E. split; [reflexivity|]. destruct (rs_done s) eqn:D.
      * split; [reflexivity|]. split; [apply (so_done c s So'); exact D|lia].
      * exfalso. specialize (Q eq_refl).
        assert (Bd : forall s', sound c s' -> - S + fst (rc_en c) <= rs_en s' <= S + fst (rc_en c)).
        { intros s' Sx. destruct (so_state c s' Sx) as [gs [o [[_ [_ [Nm _]]] [_ [_ [_ EE]]]]]]. rewrite EE. unfold energy_at. pose proof (two_body_within (2 * rc_N c) (rc_K2 c) (proj1 (us_sym c U)) _ Nm) as W. fold S in W. lra. }
        pose proof (Bd s So') as Q1. pose proof (Bd s1 So1) as Q2.
        assert (X : INR fuel * g <= 2 * S) by lra.
        assert (Y : INR fuel * g * r4 = 2 * (INR fuel * (rc_eps c * (4 * (rc_crit c * rc_crit c) - r4 * (smin * smin))))) by (unfold g; field; lra). nra.
Qed.
