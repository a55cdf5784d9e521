(** Measurement bases, Pauli application, gadget lists and CNOT counts. *)
From Coq Require Import Bool List Arith ZArith Lia Ring.
From Verif Require Import Coeff MatSpec MatLemmas KronLemmas FockSpec EncProofs ParityProofs BKProofs PauliModel PauliProofs TwoTerm
  CircuitSpec CircuitModel CircuitProofs.
Import ListNotations.

Section C2.
  Variable K : CoefRing.
  Add Ring KRing : (c_ring K).
  Local Open Scope coef_scope.
  Variable rt : K.
  Hypothesis rt_sq : rt * rt = chalf.
  Hypothesis rt_real : cconj rt = rt.
  Notation I2 := (@pauli1 K PI).

  Lemma Ci2 : (ci * ci : K) = - (1). Proof. apply ci_sq. Qed.

  Definition adj2 (A : mat2 K) : mat2 K := fun a b => cconj (A b a).
  Lemma kron_adj l r c : madj (kron l) r c = @kron K (map adj2 l) r c.
  Proof.
    unfold madj. revert r c. induction l as [|m l IH]; intros [|a r] [|b c]; cbn; try apply cconj_0; [apply cconj_1|].
    rewrite cconj_mul, IH. reflexivity.
  Qed.
  Lemma adj_basis2 p : eq2 (adj2 (basis2 K rt p)) (unbasis2 K rt p).
  Proof.
    intros a b. destruct p, a, b; unfold adj2, basis2, unbasis2, mul2, h2, s2, sdg2, m2; cbn [pauli1];
      rewrite ?cconj_add, ?cconj_mul, ?cconj_opp, ?cconj_i, ?cconj_1, ?cconj_0, ?rt_real; ring.
  Qed.
  Lemma adj_bas s : meq (length s) (madj (bas K rt s)) (unb K rt s).
  Proof.
    intros r c _ _. unfold bas, unb. rewrite kron_adj, map_map. apply kron_eqk, eqk_map, adj_basis2.
  Qed.
  Lemma basis_bas m : meq (length m) (cmat rt (length m) (basis_gates 0 m)) (bas K rt m).
  Proof. rewrite basis_emits. apply emits_kron, pauli_op_fwd. Qed.
  Lemma madj_meq n (A B : mat K) : meq n A B -> meq n (madj A) (madj B).
  Proof. intros H r c Hr Hc. unfold madj. rewrite H by assumption. reflexivity. Qed.

  Lemma agrees_length p m : agrees p m -> length p = length m.
  Proof. induction 1; cbn; lia. Qed.
  Lemma agrees_conj p m : agrees p m ->
    meq (length m) (mmul (length m) (unb K rt m) (mmul (length m) (pmat (map zletter p)) (bas K rt m))) (pmat p).
  Proof.
    intro H. pose proof (agrees_length _ _ H) as L.
    assert (P : forall t : list pauli, meq (length t) (@pmat K t) (kron (map pauli1 t))) by (intros t r c _ _; apply pmat_kron).
    eapply meq_trans.
    { apply mmul_meq; [apply meq_refl|]. eapply meq_trans.
      - apply mmul_meq; [|apply meq_refl]. rewrite <- L, <- (map_length zletter p) at 1. apply P.
      - apply kron_mul; rewrite !map_length; auto. }
    eapply meq_trans; [apply kron_mul; [apply map_length|]|].
    { clear -L. revert m L. induction p as [|x p IH]; intros [|y m] L; try discriminate; [reflexivity|]. cbn in *. rewrite IH; lia. }
    eapply meq_trans; [|rewrite <- L; apply meq_sym, P]. intros r c _ _. apply kron_eqk. rewrite map_map.
    clear L. induction H as [|x p m H IH|x p m H IH]; cbn [map zip2]; constructor; auto.
    - intros a b. cbn [zletter]. rewrite (mul2_eq2 K _ _ _ _ (eq2_refl K _) (mul2_I_l K _)). apply unbasis_basis. exact rt_sq.
    - apply unbasis_z_basis. exact rt_sq.
  Qed.
  Lemma basis_change m p : agrees p m ->
    let N := length m in let U := cmat rt N (basis_gates 0 m) in
    meq N (mmul N (madj U) U) mone /\ meq N (mmul N (madj U) (mmul N (pmat (map zletter p)) U)) (pmat p).
  Proof.
    intros H N U.
    assert (A : meq N (madj U) (unb K rt m)).
    { eapply meq_trans; [apply madj_meq, basis_bas|]. apply adj_bas. }
    split.
    - eapply meq_trans; [apply mmul_meq; [exact A|apply basis_bas]|]. apply unb_bas. exact rt_sq.
    - eapply meq_trans; [apply mmul_meq; [exact A|apply mmul_meq; [apply meq_refl|apply basis_bas]]|]. apply agrees_conj. exact H.
  Qed.

  (** * Averages *)
  Lemma mvec_meq N (A B : mat K) psi r : meq N A B -> length r = N -> mvec N A psi r = mvec N B psi r.
  Proof. intros H Hr. unfold mvec. apply sumbits_ext. intros b Hb. rewrite H by assumption. reflexivity. Qed.
  Lemma expect_meq N (A B : mat K) psi : meq N A B -> expect N A psi = expect N B psi.
  Proof. intro H. unfold expect. apply sumbits_ext. intros b Hb. rewrite (mvec_meq N A B) by assumption. reflexivity. Qed.
  Lemma mvec_mmul N (A B : mat K) psi r : mvec N (mmul N A B) psi r = mvec N A (mvec N B psi) r.
  Proof.
    unfold mvec, mmul. rewrite (sumbits_ext K N _ (fun c => sumbits N (fun k => A r k * B k c * psi c))).
    2:{ intros b Hb. rewrite sumbits_scal_r. reflexivity. }
    rewrite sumbits_swap. apply sumbits_ext. intros b Hb. rewrite <- sumbits_scal. apply sumbits_ext. intros; ring.
  Qed.
  Lemma expect_adj N (A B : mat K) psi :
    expect N (mmul N (madj A) B) psi = sumbits N (fun b => cconj (mvec N A psi b) * mvec N B psi b).
  Proof.
    unfold expect.
    rewrite (sumbits_ext K N _ (fun r => sumbits N (fun k => cconj (A k r * psi r) * mvec N B psi k))).
    2:{ intros r Hr. rewrite mvec_mmul. unfold mvec at 1. rewrite <- sumbits_scal. apply sumbits_ext. intros k Hk.
        unfold madj. rewrite cconj_mul. ring. }
    rewrite sumbits_swap. apply sumbits_ext. intros k Hk. unfold mvec at 2. rewrite sumbits_conj.
    rewrite <- sumbits_scal_r. reflexivity.
  Qed.
  Lemma mvec_dg N f (psi : bits -> K) r : length r = N -> mvec N (dg K f) psi r = sgn (f r) * psi r.
  Proof.
    intro Hr. unfold mvec, dg. rewrite (sumbits_ext K N _ (fun c => if bits_eqb c r then sgn (f r) * psi c else 0)).
    - apply (sumbits_pick K N r (fun c => sgn (f r) * psi c)). exact Hr.
    - intros b Hb. rewrite bits_eqb_sym. destruct (bits_eqb b r) eqn:E; [|ring]. apply bits_eqb_spec in E. subst. reflexivity.
  Qed.
  Lemma basis_average m p psi : agrees p m ->
    let N := length m in let phi := mvec N (cmat rt N (basis_gates 0 m)) psi in
    sumbits N (fun b => sgn (outcome_parity p b) * (cconj (phi b) * phi b)) = expect N (pmat p) psi.
  Proof.
    intros H N phi. destruct (basis_change m p H) as [_ C]. fold N in C.
    rewrite <- (expect_meq N _ _ psi C). rewrite expect_adj. apply sumbits_ext. intros b Hb.
    fold phi. rewrite mvec_mmul. fold phi.
    rewrite (mvec_meq N (pmat (map zletter p)) (dg K (outcome_parity p)) phi b).
    - rewrite mvec_dg by exact Hb. ring.
    - replace N with (length p) by (apply agrees_length; exact H). apply zstring_mat.
    - exact Hb.
  Qed.

  (** * Switching bases on the state vector *)
  Definition w1 : K := (1 + ci) * rt.
  Lemma w1_unit : w1 * cconj w1 = 1.
  Proof.
    unfold w1. rewrite cconj_mul, cconj_add, cconj_1, cconj_i, rt_real. pose proof Ci2 as Ci.
    transitivity (rt * rt + rt * rt); [ring [Ci]|]. rewrite rt_sq. apply chalf_dbl.
  Qed.
  Definition nxy (m : list pauli) : nat := length (filter (fun p => match p with PX | PY => true | _ => false end) m).
  Definition phase2 (p : pauli) : K := match p with PX | PY => w1 | _ => 1 end.
  Definition scal2 (x : K) (A : mat2 K) : mat2 K := fun a b => x * A a b.
  Lemma kron_scal2 (f : pauli -> mat2 K) m r c : length r = length m -> length c = length m ->
    kron (map (fun p => scal2 (phase2 p) (f p)) m) r c = cpow w1 (nxy m) * kron (map f m) r c.
  Proof.
    revert r c. induction m as [|p m IH]; intros [|a r] [|b c] Hr Hc; try discriminate; [cbn; ring|].
    cbn [map kron]. rewrite IH by (cbn in *; lia). unfold scal2, nxy. destruct p; cbn [phase2 filter length cpow]; ring.
  Qed.

  Lemma rt_half2 : rt * rt = chalf. Proof. exact rt_sq. Qed.
  Ltac gate_eq := intros [|] [|]; unfold scal2, phase2, basis2, unbasis2, mul2, h2, s2, sdg2, sx2, m2, w1; cbn [pauli1];
    pose proof Ci2 as Ci; pose proof rt_sq as Rs; ring [Ci Rs].

  Lemma undo_step N q p pre x post : length pre = q -> N = (q + S (length post))%nat ->
    meq N (mmul N (cmat rt N (match p with PX => [Gs q; Gsx q; Gs q] | PY => [Gs q; Gsx q; Gz q] | _ => [] end)) (kron (pre ++ x :: post)))
          (kron (pre ++ mul2 (scal2 (phase2 p) (unbasis2 K rt p)) x :: post)).
  Proof.
    intros Hq HN. destruct p.
    - apply emit0; [lia|gate_eq].
    - eapply emit_cons; [exact Hq|exact HN|reflexivity|intro; eapply emit_cons; [exact Hq|exact HN|reflexivity|intro; eapply emit_cons;
        [exact Hq|exact HN|reflexivity|intro; apply emit0; [lia|apply eq2_refl]|apply eq2_refl]|apply eq2_refl]|gate_eq].
    - eapply emit_cons; [exact Hq|exact HN|reflexivity|intro; eapply emit_cons; [exact Hq|exact HN|reflexivity|intro; eapply emit_cons;
        [exact Hq|exact HN|reflexivity|intro; apply emit0; [lia|apply eq2_refl]|apply eq2_refl]|apply eq2_refl]|gate_eq].
    - apply emit0; [lia|gate_eq].
  Qed.
  Lemma redo_step N q p pre x post : length pre = q -> N = (q + S (length post))%nat ->
    meq N (mmul N (cmat rt N (match p with PX => [Gs q; Gsx q; Gs q] | PY => [Gsx q; Gs q] | _ => [] end)) (kron (pre ++ x :: post)))
          (kron (pre ++ mul2 (scal2 (phase2 p) (basis2 K rt p)) x :: post)).
  Proof.
    intros Hq HN. destruct p.
    - apply emit0; [lia|gate_eq].
    - eapply emit_cons; [exact Hq|exact HN|reflexivity|intro; eapply emit_cons; [exact Hq|exact HN|reflexivity|intro; eapply emit_cons;
        [exact Hq|exact HN|reflexivity|intro; apply emit0; [lia|apply eq2_refl]|apply eq2_refl]|apply eq2_refl]|gate_eq].
    - eapply emit_cons; [exact Hq|exact HN|reflexivity|intro; eapply emit_cons; [exact Hq|exact HN|reflexivity|intro; apply emit0; [lia|apply eq2_refl]|apply eq2_refl]|gate_eq].
    - apply emit0; [lia|gate_eq].
  Qed.
  Lemma undo_mat m : meq (length m) (cmat rt (length m) (undo_gates 0 m)) (mscal (cpow w1 (nxy m)) (unb K rt m)).
  Proof.
    eapply meq_trans.
    - assert (E : forall n0, @undo_gates K n0 m = emits K (fun q p => match p with PX => [Gs q; Gsx q; Gs q] | PY => [Gs q; Gsx q; Gz q] | _ => [] end) n0 m).
      { induction m as [|p m IH]; intro n0; [reflexivity|]. cbn [undo_gates emits]. rewrite IH. reflexivity. }
      rewrite E. apply emits_kron, undo_step.
    - intros r c Hr Hc. apply kron_scal2; assumption.
  Qed.
  Lemma redo_mat m : meq (length m) (cmat rt (length m) (redo_gates 0 m)) (mscal (cpow w1 (nxy m)) (bas K rt m)).
  Proof.
    eapply meq_trans.
    - assert (E : forall n0, @redo_gates K n0 m = emits K (fun q p => match p with PX => [Gs q; Gsx q; Gs q] | PY => [Gsx q; Gs q] | _ => [] end) n0 m).
      { induction m as [|p m IH]; intro n0; [reflexivity|]. cbn [redo_gates emits]. rewrite IH. reflexivity. }
      rewrite E. apply emits_kron, redo_step.
    - intros r c Hr Hc. apply kron_scal2; assumption.
  Qed.
  Lemma cpow_unit a k : a * cconj a = 1 -> cpow a k * cconj (cpow a k) = 1 :> K.
  Proof.
    intro H. induction k as [|k IH]; cbn; [rewrite cconj_1; ring|]. rewrite cconj_mul.
    transitivity ((a * cconj a) * (cpow a k * cconj (cpow a k))); [ring|]. rewrite H, IH. ring.
  Qed.
  Lemma rebase c0' c : length c0' = length c ->
    exists w, w * cconj w = 1 /\
    meq (length c) (mmul (length c) (cmat rt (length c) (undo_gates 0 c0' ++ redo_gates 0 c)) (cmat rt (length c) (basis_gates 0 c0')))
                   (mscal w (cmat rt (length c) (basis_gates 0 c))).
  Proof.
    intro L. set (N := length c) in *. exists (cpow w1 (nxy c0') * cpow w1 (nxy c)). split.
    - rewrite cconj_mul. transitivity ((cpow w1 (nxy c0') * cconj (cpow w1 (nxy c0'))) * (cpow w1 (nxy c) * cconj (cpow w1 (nxy c)))); [ring|].
      rewrite !cpow_unit by apply w1_unit. ring.
    - eapply meq_trans; [apply mmul_meq; [apply cmat_app|apply meq_refl]|].
      eapply meq_trans; [apply meq_sym, mmul_assoc|].
      assert (U : meq N (mmul N (cmat rt N (undo_gates 0 c0')) (cmat rt N (basis_gates 0 c0'))) (mscal (cpow w1 (nxy c0')) mone)).
      { rewrite <- L. eapply meq_trans; [apply mmul_meq; [apply undo_mat|apply basis_bas]|].
        eapply meq_trans; [apply mmul_scal_l|]. apply mscal_meq. apply unb_bas. exact rt_sq. }
      eapply meq_trans; [apply mmul_meq; [apply redo_mat|exact U]|].
      eapply meq_trans; [apply mmul_scal_r|]. eapply meq_trans; [apply mscal_meq, mmul_one_r|].
      intros r c1 Hr Hc. unfold mscal. pose proof (basis_bas c r c1 Hr Hc) as B. fold N in B. rewrite B. ring.
  Qed.

  (** * Applying a Pauli string *)
  Definition yx (p : pauli) : pauli := match p with PY => PX | x => x end.
  Definition app2 (p : pauli) : mat2 K := match p with PZ => scal2 (- ci) (pauli1 PZ) | _ => pauli1 (yx p) end.
  Lemma apply_step N q p pre x post : length pre = q -> N = (q + S (length post))%nat ->
    meq N (mmul N (cmat rt N (match p with PX => [Gx q] | PY => [Grz (half_pi rt) q; Gx q; Grz (half_pi rt) q]
                                      | PZ => [Grz full_pi q] | PI => [] end)) (kron (pre ++ x :: post)))
          (kron (pre ++ mul2 (app2 p) x :: post)).
  Proof.
    intros Hq HN. destruct p.
    - apply emit0; [lia|apply eq2_refl].
    - eapply emit_cons; [exact Hq|exact HN|reflexivity|intro; apply emit0; [lia|apply eq2_refl]|].
      intros a b. symmetry. apply mul2_I_l.
    - eapply emit_cons; [exact Hq|exact HN|reflexivity|intro; eapply emit_cons; [exact Hq|exact HN|reflexivity|intro; eapply emit_cons;
        [exact Hq|exact HN|reflexivity|intro; apply emit0; [lia|apply eq2_refl]|apply eq2_refl]|apply eq2_refl]|].
      intros [|] [|]; unfold app2, yx, mul2, rz2, half_pi, m2; cbn [pauli1 fst snd]; pose proof Ci2 as Ci; try ring;
        (symmetry; transitivity (rt * rt + rt * rt); [ring [Ci]|rewrite rt_sq; apply chalf_dbl]).
    - eapply emit_cons; [exact Hq|exact HN|reflexivity|intro; apply emit0; [lia|apply eq2_refl]|].
      intros [|] [|]; unfold app2, scal2, mul2, rz2, full_pi, m2; cbn [pauli1 fst snd]; ring.
  Qed.
  Definition nz (s : list pauli) : nat := length (filter (fun p => pauli_eqb p PZ) s).
  Lemma apply_mat s : meq (length s) (cmat rt (length s) (apply_pauli rt 0 s)) (mscal (cpow (- ci) (nz s)) (pmat (map yx s))).
  Proof.
    eapply meq_trans.
    - assert (E : forall n0, apply_pauli rt n0 s = emits K (fun q p => match p with PX => [Gx q] | PY => [Grz (half_pi rt) q; Gx q; Grz (half_pi rt) q]
                                      | PZ => [Grz full_pi q] | PI => [] end) n0 s).
      { induction s as [|p s IH]; intro n0; [reflexivity|]. cbn [apply_pauli emits]. rewrite IH. reflexivity. }
      rewrite E. apply emits_kron, apply_step.
    - intros r c Hr Hc. unfold mscal. revert r c Hr Hc. induction s as [|p s IH]; intros [|a r] [|b c] Hr Hc; try discriminate; [cbn; ring|].
      cbn [map kron pmat]. rewrite IH by (cbn in *; lia). unfold nz. destruct p; cbn [app2 yx pauli_eqb filter length cpow]; unfold scal2; ring.
  Qed.
  (** Column of [pmat] after replacing Y by X. *)
  Lemma yx_column s c : length c = length s -> exists z, forall r, length r = length s ->
    pmat (map yx s) r c = ipow z * @pmat K s r c.
  Proof.
    revert c. induction s as [|p s IH]; intros [|b c] H; try discriminate.
    - exists 0%Z. intros [|a r] Hr; try discriminate. unfold ipow. cbn. ring.
    - destruct (IH c ltac:(cbn in H; lia)) as [z Hz].
      exists (match p with PY => if b then 1 + z else 3 + z | _ => z end)%Z. intros [|a r] Hr; try discriminate. cbn [map pmat].
      rewrite Hz by (cbn in Hr; lia). pose proof Ci2 as Ci.
      destruct p; cbn [yx]; try ring. destruct b; rewrite ipow_add; destruct a; cbn [pauli1]; try ring;
        [replace (@ipow K 1) with (@ci K) by reflexivity; ring [Ci]
        |replace (@ipow K 3) with (- (@ci K)) by (unfold ipow; cbn; ring); ring [Ci]].
  Qed.
  Lemma apply_column s c : length c = length s -> exists z, forall r, length r = length s ->
    cmat rt (length s) (apply_pauli rt 0 s) r c = ipow z * pmat s r c.
  Proof.
    intro H. destruct (yx_column s c H) as [z Hz].
    exists (3 * Z.of_nat (nz s) + z)%Z. intros r Hr. rewrite apply_mat by assumption. unfold mscal. rewrite Hz by exact Hr.
    rewrite ipow_add.
    assert (E : cpow (- ci) (nz s) = @ipow K (3 * Z.of_nat (nz s))).
    { generalize (nz s) as k. intro k. induction k as [|k IHk]; [reflexivity|].
      replace (3 * Z.of_nat (S k))%Z with (3 + 3 * Z.of_nat k)%Z by lia. rewrite ipow_add, <- IHk. cbn [cpow].
      unfold ipow. cbn. ring. }
    rewrite E. ring.
  Qed.
End C2.

(** * Lists of gadgets *)
Section Seq.
  Variable K : CoefRing.
  Add Ring KRing3 : (c_ring K).
  Local Open Scope coef_scope.
  Variable rt : K.
  Hypothesis rt_sq : rt * rt = chalf.
  Lemma existsb_nonid s : existsb (fun p => negb (pauli_eqb p PI)) s = false -> forall p, In p s -> p = PI.
  Proof.
    induction s as [|x s IH]; intros H p []; cbn in H; apply orb_false_iff in H; destruct H as [H1 H2].
    - subst. destruct p; try discriminate. reflexivity.
    - apply IH; assumption.
  Qed.
  Lemma gadget_seq N (items : list (angle K * list pauli)) : (forall v s, In (v, s) items -> length s = N) ->
    meq N (cmat rt N (flat_map (fun e => pauli_gadget (fst e) (snd e)) items)) (exp_seq N items).
  Proof.
    induction items as [|[v s] items IH]; intro H; [apply meq_refl|].
    cbn [flat_map exp_seq fst snd]. eapply meq_trans; [apply cmat_app|]. apply mmul_meq.
    - apply IH. intros v' s' Hin. apply (H v' s'). right. exact Hin.
    - assert (L : length s = N) by (apply (H v s); left; reflexivity). subst N. unfold exp_item.
      destruct (existsb (fun p => negb (pauli_eqb p PI)) s) eqn:E.
      + apply gadget_exact; [exact rt_sq|]. apply existsb_exists in E. destruct E as [p [Hp Hn]]. exists p. split; [exact Hp|].
        intro C. subst. discriminate.
      + rewrite gadget_identity; [apply meq_refl|]. apply existsb_nonid. exact E.
  Qed.

  (** ** Number of CNOTs *)
  Lemma active_weight n s : length (active n s) = weight s.
  Proof. unfold weight. revert n. induction s as [|p s IH]; intro n; [reflexivity|]. destruct p; cbn [active filter pauli_eqb negb length]; rewrite IH; reflexivity. Qed.
  Definition cxs (l : list (gate K)) : nat := length (filter (@is_cx K) l).
  Lemma cxs_app a b : cxs (a ++ b) = (cxs a + cxs b)%nat.
  Proof. unfold cxs. rewrite filter_app, app_length. reflexivity. Qed.
  Lemma cxs_rev a : cxs (rev a) = cxs a.
  Proof. induction a as [|g a IH]; [reflexivity|]. cbn [rev]. rewrite cxs_app, IH. unfold cxs. cbn [filter]. destruct (is_cx g); cbn; lia. Qed.
  Lemma cxs_ladder l : cxs (ladder_cx l) = (length l - 1)%nat.
  Proof.
    induction l as [|a [|b l] IH]; [reflexivity|reflexivity|]. cbn [ladder_cx] in *. unfold cxs in *. cbn [filter is_cx length] in *. lia.
  Qed.
  Lemma cxs_ops (a : list (nat * pauli)) inv : cxs (flat_map (fun e => pauli_op (fst e) (snd e) inv) a) = 0%nat.
  Proof.
    induction a as [|[q p] a IH]; [reflexivity|]. cbn [flat_map]. rewrite cxs_app, IH. destruct p, inv; reflexivity.
  Qed.
  Lemma gadget_cx (v : angle K) s : cxs (pauli_gadget v s) = (2 * (weight s - 1))%nat.
  Proof.
    destruct s as [|p [|p' s]]; [reflexivity|destruct p; reflexivity|].
    unfold pauli_gadget. pose proof (active_weight 0 (p :: p' :: s)) as W.
    destruct (active 0 (p :: p' :: s)) as [|[q0 x] a] eqn:E; [change (0 = weight (p :: p' :: s))%nat in W; rewrite <- W; reflexivity|].
    rewrite !cxs_app, cxs_rev, cxs_ladder, !cxs_ops, map_length, <- W. unfold cxs. cbn [filter is_cx length]. lia.
  Qed.
  Lemma cnot_operator_ok (v : list pauli -> angle K) o :
    cnot_operator o = Z.of_nat (cxs (flat_map (fun s => pauli_gadget (v s) s) o)).
  Proof.
    unfold cnot_operator.
    assert (G : forall u, fold_left (fun u s => if Nat.eqb (weight s) 0 then u else (u + 2 * (Z.of_nat (weight s) - 1))%Z) o u
                          = (u + Z.of_nat (cxs (flat_map (fun s => pauli_gadget (v s) s) o)))%Z).
    { induction o as [|s o IH]; intro u; [cbn; lia|]. cbn [fold_left flat_map]. rewrite IH, cxs_app, gadget_cx.
      destruct (Nat.eqb_spec (weight s) 0) as [W|W]; [rewrite W; cbn; lia|]. lia. }
    rewrite G. lia.
  Qed.
  Lemma cnot_list_ok (v : list pauli -> angle K) l :
    (forall o s, In o l -> In s o -> exists p, In p s /\ p <> PI) ->
    cnot_list l = Z.of_nat (cxs (flat_map (fun s => pauli_gadget (v s) s) (concat l))).
  Proof.
    unfold cnot_list. intro H.
    assert (W : forall s, (exists p, In p s /\ p <> PI) -> (weight s > 0)%nat).
    { intros s [p [Hp Hn]]. unfold weight. assert (In p (filter (fun p => negb (pauli_eqb p PI)) s)) as I.
      { apply filter_In. split; [exact Hp|]. destruct p; [congruence|reflexivity..]. }
      destruct (filter _ s); [destruct I|cbn; lia]. }
    assert (G1 : forall o u, (forall s, In s o -> exists p, In p s /\ p <> PI) ->
        fold_left (fun u' s => (u' + 2 * (Z.of_nat (weight s) - 1))%Z) o u = (u + Z.of_nat (cxs (flat_map (fun s => pauli_gadget (v s) s) o)))%Z).
    { induction o as [|s o IH]; intros u Ho; [cbn; lia|]. cbn [fold_left flat_map]. rewrite IH by (intros; apply Ho; right; assumption).
      rewrite cxs_app, gadget_cx. pose proof (W s (Ho s (or_introl eq_refl))). lia. }
    assert (G : forall u, fold_left (fun u o => fold_left (fun u' s => (u' + 2 * (Z.of_nat (weight s) - 1))%Z) o u) l u
                          = (u + Z.of_nat (cxs (flat_map (fun s => pauli_gadget (v s) s) (concat l))))%Z).
    { induction l as [|o l IH]; intro u; [cbn; lia|]. cbn [fold_left concat]. rewrite flat_map_app, cxs_app.
      rewrite G1 by (intros s Hs; apply (H o s); [left; reflexivity|exact Hs]). rewrite IH; [lia|].
      intros o' s Ho Hs. apply (H o' s); [right; exact Ho|exact Hs]. }
    rewrite G. lia.
  Qed.
End Seq.

(** * PauliSet *)
Section PS.
  Variable R : Type.
  Variable tiny : R -> bool.
  Lemma pauli_set_own (items : list (list pauli * (R * R))) : forall c,
    (forall s re im, In (s, (re, im)) items -> tiny re = true \/ tiny im = true) ->
    pauli_set tiny c items =
      Some (flat_map (fun it => let x := if tiny (snd (snd it)) then fst (snd it) else snd (snd it) in
                                if tiny x then [] else [(x, fst it)]) items).
  Proof.
    induction items as [|[s [re im]] items IH]; intros c H; [reflexivity|].
    cbn [pauli_set flat_map fst snd]. pose proof (H s re im (or_introl eq_refl)) as H0.
    assert (Hr : forall s re im, In (s, (re, im)) items -> tiny re = true \/ tiny im = true) by (intros; eapply H; right; eassumption).
    destruct (tiny im) eqn:Ei.
    - rewrite IH by exact Hr. destruct (tiny re); reflexivity.
    - destruct H0 as [H0|H0]; [|discriminate]. rewrite H0, IH by exact Hr. rewrite Ei. reflexivity.
  Qed.
End PS.
