From Coq Require Import Bool List Arith Lia Ring.
From Verif Require Import Coeff MatSpec MatLemmas FockSpec PauliModel PauliProofs CircuitSpec CircuitModel CircuitProofs CircuitProofs2 TomoModel CountsProofs AdjProofs ItModel ItSpec.
Import ListNotations.

Section It.
  Variable K : CoefRing.
  Add Ring KRing : (c_ring K).
  Local Open Scope coef_scope.
  Variable rt : K.
  Hypothesis rt_sq : rt * rt = chalf.
  Hypothesis rt_real : cconj rt = rt.
  Variable root : K -> K.
  Variable tiny : K -> bool.
  Hypothesis tiny_zero : forall x, tiny x = true -> x = 0.

  Lemma it_gates_eq c : forall n, it_gates (K := K) n c = basis_gates n c.
  Proof. induction c as [|p c IH]; intro n; [reflexivity|]. cbn [it_gates basis_gates]. rewrite IH. destruct p; reflexivity. Qed.

  Lemma mtrace_meq N (A B : mat K) : meq N A B -> mtrace N A = mtrace N B.
  Proof. intro H. apply sumbits_ext. intros b Hb. apply H; exact Hb. Qed.
  Lemma mtrace_comm N (A B : mat K) : mtrace N (mmul N A B) = mtrace N (mmul N B A).
  Proof.
    unfold mtrace, mmul. rewrite sumbits_swap. apply sumbits_ext. intros b _. apply sumbits_ext. intros; ring.
  Qed.
  Lemma it_step_meq N (U U' r r' : mat K) : meq N U U' -> meq N r r' -> meq N (it_step N U r) (it_step N U' r').
  Proof. intros H1 H2. apply mmul_meq; [exact H1|]. apply mmul_meq; [exact H2|]. intros a b Ha Hb. unfold madj. rewrite H1 by assumption. reflexivity. Qed.

  Lemma diag_average m p (rho : mat K) : agrees p m ->
    let N := length m in
    sumbits N (fun b => sgn (outcome_parity p b) * it_step N (cmat rt N (basis_gates 0 m)) rho b b) = mtrace N (mmul N (pmat p) rho).
  Proof.
    intros A N. set (V := cmat rt N (basis_gates 0 m)). destruct (basis_change K rt rt_sq rt_real m p A) as [_ C]. fold N V in C.
    rewrite <- (mtrace_meq N _ _ (mmul_meq K N _ _ _ _ C (meq_refl K N rho))).
    transitivity (mtrace N (mmul N (it_step N V rho) (dg K (outcome_parity p)))).
    - unfold mtrace. apply sumbits_ext. intros b Hb. rewrite (mmul_dg K N _ (outcome_parity p) b b Hb Hb). ring.
    - rewrite mtrace_comm. unfold it_step.
      assert (Z : meq N (pmat (map zletter p)) (dg K (outcome_parity p))).
      { unfold N. replace (length m) with (length p) by (apply agrees_length; exact A). apply zstring_mat. }
      set (D := dg K (outcome_parity p)) in *.
      transitivity (mtrace N (mmul N (mmul N (mmul N D V) rho) (madj V))).
      { apply mtrace_meq. eapply meq_trans; [apply mmul_assoc|apply mmul_assoc]. }
      rewrite mtrace_comm. apply mtrace_meq. eapply meq_trans; [apply mmul_assoc|].
      apply mmul_meq; [|apply meq_refl]. apply mmul_meq; [apply meq_refl|]. apply mmul_meq; [apply meq_sym; exact Z|apply meq_refl].
  Qed.

  Lemma last_value_none (f : list pauli -> list K) settings c : ~ In c settings ->
    last_value c (map (fun c => (c, f c)) settings) = None.
  Proof.
    induction settings as [|x l IHl]; intro I; [reflexivity|]. cbn [map last_value]. rewrite IHl by (intro X; apply I; right; exact X).
    destruct (pauli_list_eqb x c) eqn:E; [|reflexivity]. exfalso. apply I. left. apply pauli_list_eqb_spec. exact E.
  Qed.
  Lemma last_value_map (f : list pauli -> list K) settings c : In c settings ->
    last_value c (map (fun c => (c, f c)) settings) = Some (f c).
  Proof.
    induction settings as [|k l IH]; [intros []|]. intro H. cbn [map last_value].
    destruct (in_dec (list_eq_dec (fun a b : pauli => ltac:(decide equality))) c l) as [I|I].
    - rewrite (IH I). reflexivity.
    - destruct H as [<- |H]; [|contradiction].
      rewrite last_value_none by exact I.
      replace (pauli_list_eqb k k) with true by (symmetry; apply pauli_list_eqb_spec; reflexivity). reflexivity.
  Qed.

  Lemma simulated_average gates settings (rho : mat K) m p : In m settings -> agrees p m ->
    let N := length m in
    let out := it_simulate rt root N gates settings rho in
    let V := cmat rt N (basis_gates 0 m) in
    (forall b, length b = N -> let d := it_step N V (fst out) b b in root d * cconj (root d) = d) ->
    it_measure tiny N (snd out) m p = Some (mtrace N (mmul N (pmat p) (fst out))).
  Proof.
    intros I A N out V R. unfold it_measure, out, it_simulate, it_counts. cbn [fst snd].
    rewrite (last_value_map (it_diag rt root N (it_step N (cmat rt N gates) rho))) by exact I.
    f_equal. unfold it_diag. cbv zeta. rewrite it_gates_eq. fold V.
    set (rho' := it_step N (cmat rt N gates) rho) in *. change (fst out) with rho' in R.
    rewrite (measure_sv_spec K tiny N p (fun b => root (it_step N V rho' b b))).
    pose proof (diag_average m p rho' A) as D. cbv zeta in D. fold N V in D. rewrite <- D. apply sumbits_ext. intros b Hb. pose proof (R b Hb) as Rb. cbv zeta in Rb.
    destruct (tiny (root (it_step N V rho' b b))) eqn:E.
    - apply tiny_zero in E. rewrite E in Rb. rewrite <- Rb. ring.
    - f_equal. rewrite <- Rb at 3. ring.
  Qed.
  Lemma unlisted_setting N gates settings (rho : mat K) m p : ~ In m settings ->
    it_measure tiny N (snd (it_simulate rt root N gates settings rho)) m p = None.
  Proof.
    intro I. unfold it_measure, it_simulate, it_counts. cbn [snd].
    rewrite (last_value_none (it_diag rt root N (it_step N (cmat rt N gates) rho))) by exact I. reflexivity.
  Qed.

  Lemma step_step N (U V r : mat K) : meq N (it_step N V (it_step N U r)) (it_step N (mmul N V U) r).
  Proof.
    unfold it_step. eapply meq_trans; [|apply mmul_assoc]. apply mmul_meq; [apply meq_refl|].
    eapply meq_trans; [apply meq_sym, mmul_assoc|]. apply mmul_meq; [apply meq_refl|]. eapply meq_trans; [apply meq_sym, mmul_assoc|].
    apply mmul_meq; [apply meq_refl|]. apply meq_sym. apply madj_mul.
  Qed.
  Lemma run_sequence N circuits : forall rho : mat K,
    meq N (it_run rt root N circuits rho) (it_step N (sequence rt N circuits) rho).
  Proof.
    unfold sequence. induction circuits as [|g r IH]; intro rho; cbn [it_run concat cmat].
    - unfold it_step. apply meq_sym. eapply meq_trans; [apply mmul_one_l|].
      eapply meq_trans; [apply mmul_meq; [apply meq_refl|]|apply mmul_one_r].
      intros a b Ha Hb. unfold madj, mone. rewrite bits_eqb_sym. destruct (bits_eqb a b); [apply cconj_1|apply cconj_0].
    - eapply meq_trans; [apply IH|]. unfold it_simulate. cbn [fst]. eapply meq_trans; [apply step_step|].
      apply it_step_meq; [|apply meq_refl]. apply meq_sym. apply cmat_app.
  Qed.
  Lemma step_pure N (U : mat K) psi : meq N (it_step N U (pure psi)) (pure (mvec N U psi)).
  Proof.
    intros a b Ha Hb. unfold it_step, pure, mmul, mvec, madj.
    rewrite sumbits_conj, <- sumbits_scal_r. apply sumbits_ext. intros x Hx. rewrite <- !sumbits_scal. apply sumbits_ext. intros y Hy.
    rewrite cconj_mul. ring.
  Qed.
  Lemma trace_pure N (A : mat K) psi : mtrace N (mmul N A (pure psi)) = expect N A psi.
  Proof.
    unfold mtrace, mmul, pure, expect, mvec. apply sumbits_ext. intros a Ha. rewrite <- sumbits_scal. apply sumbits_ext. intros; ring.
  Qed.
  Lemma iterated_average circuits last settings psi m p : In m settings -> agrees p m ->
    let N := length m in
    let out := it_simulate rt root N last settings (it_run rt root N circuits (pure psi)) in
    let V := cmat rt N (basis_gates 0 m) in
    (forall b, length b = N -> let d := it_step N V (fst out) b b in root d * cconj (root d) = d) ->
    it_measure tiny N (snd out) m p = Some (expect N (pmat p) (mvec N (sequence rt N (circuits ++ [last])) psi)).
  Proof.
    intros I A N out V R. pose proof (simulated_average last settings _ m p I A R) as E. fold N in E. fold out in E. rewrite E. clear E. f_equal. rewrite <- trace_pure. apply mtrace_meq.
    apply mmul_meq; [apply meq_refl|]. unfold out, it_simulate. cbn [fst].
    eapply meq_trans; [apply it_step_meq; [apply meq_refl|apply run_sequence]|].
    eapply meq_trans; [apply step_step|]. eapply meq_trans; [|apply step_pure]. apply it_step_meq; [|apply meq_refl].
    unfold sequence. rewrite concat_app. cbn [concat]. rewrite app_nil_r. apply meq_sym, cmat_app.
  Qed.
End It.
