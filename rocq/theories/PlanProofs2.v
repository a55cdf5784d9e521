(** A tomography run on a state vector: the plan, the settings, the values. *)
From Coq Require Import Bool List Arith ZArith Lia Ring.
From Verif Require Import Coeff MatSpec MatLemmas OpSpec FockSpec PauliModel PauliProofs OperatorModel OperatorProofs TransformModel TwoTerm JWProofs TransformLin
  CircuitSpec CircuitModel CircuitProofs CircuitProofs2 TomoModel TomoProofs CountsProofs RdmModel RdmSpec RdmEnum RdmFock RdmBuild RdmProofs HamModel ItModel ItProofs FermiModel PlanModel PlanSpec PlanProofs.
Import ListNotations.

(** * The plan *)
Lemma pop_at_app {A} (l : list A) x r : pop_at (length l) (l ++ x :: r) = l ++ r.
Proof. induction l as [|y l IH]; [reflexivity|]. cbn. rewrite IH. reflexivity. Qed.
Lemma nth_app_len {A} (l : list A) x r : nth_error (l ++ x :: r) (length l) = Some x.
Proof. induction l as [|y l IH]; [reflexivity|]. exact IH. Qed.
Lemma pop_z_spec : forall n pre post z, length pre = n ->
  pop_z n (pre ++ post) z = (filter (fun p => negb (ztype p)) pre ++ post, z ++ rev (filter ztype pre)).
Proof.
  induction n as [|n IH]; intros pre post z L.
  - destruct pre; [|discriminate]. cbn. rewrite app_nil_r. reflexivity.
  - destruct (exists_last (l := pre)) as [q [x ->]]; [intro; subst; discriminate|]. rewrite app_length in L. cbn in L. assert (Lq : length q = n) by lia.
    cbn [pop_z]. rewrite <- app_assoc. cbn [app]. rewrite <- Lq at 1. rewrite nth_app_len. rewrite !filter_app. cbn [filter].
    destruct (ztype x); cbn [negb].
    + rewrite <- Lq at 2. rewrite pop_at_app. rewrite IH by exact Lq. rewrite app_nil_r, rev_app_distr. cbn [rev app]. rewrite <- app_assoc. reflexivity.
    + rewrite IH by exact Lq. rewrite app_nil_r, <- app_assoc. reflexivity.
Qed.

Lemma ztype_agrees p : ztype p = true -> agrees p (repeat PZ (length p)).
Proof.
  induction p as [|x p IH]; intro H; [constructor|]. cbn in H. apply andb_true_iff in H. destruct H as [H1 H2].
  cbn [length repeat]. destruct x; try discriminate; constructor; apply IH; exact H2.
Qed.

Lemma pget_pset k k' v d : pget k (pset k' v d) = if pstr_eqb k k' then Some v else pget k d.
Proof.
  induction d as [|[a b] d IH]; cbn [pset pget]; [destruct (pstr_eqb k k'); reflexivity|].
  destruct (pstr_eqb k' a) eqn:E.
  - apply pstr_eqb_spec in E. subst a. cbn [pget]. destruct (pstr_eqb k k'); reflexivity.
  - cbn [pget]. rewrite IH. destruct (pstr_eqb k a) eqn:F; [|reflexivity].
    apply pstr_eqb_spec in F. subst a. destruct (pstr_eqb k k') eqn:G; [|reflexivity].
    apply pstr_eqb_spec in G. subst k'. rewrite (proj2 (pstr_eqb_spec k k) eq_refl) in E. discriminate.
Qed.
Lemma pget_In k d m : In (k, m) d -> exists m', pget k d = Some m' /\ In (k, m') d.
Proof.
  induction d as [|[a b] d IH]; [intros []|]. cbn [pget]. destruct (pstr_eqb k a) eqn:E.
  - intros _. apply pstr_eqb_spec in E. subst a. exists b. split; [reflexivity|left; reflexivity].
  - intros [H|H]; [injection H as -> ->; rewrite (proj2 (pstr_eqb_spec k k) eq_refl) in E; discriminate|].
    destruct (IH H) as [m' [H1 H2]]. exists m'. split; [exact H1|right; exact H2].
Qed.
Lemma pget_fold_const zs v : forall d k, pget k (fold_left (fun d z => pset z v d) zs d) = if existsb (pstr_eqb k) zs then Some v else pget k d.
Proof.
  induction zs as [|z zs IH]; intros d k; [reflexivity|]. cbn [fold_left existsb]. rewrite IH, pget_pset.
  destruct (existsb (pstr_eqb k) zs); [rewrite orb_true_r; reflexivity|]. rewrite orb_false_r. reflexivity.
Qed.
Lemma pget_fold_self ps : forall d k, pget k (fold_left (fun d p => pset p p d) ps d) = if existsb (pstr_eqb k) ps then Some k else pget k d.
Proof.
  induction ps as [|z zs IH]; intros d k; [reflexivity|]. cbn [fold_left existsb]. rewrite IH, pget_pset.
  destruct (existsb (pstr_eqb k) zs); [rewrite orb_true_r; reflexivity|]. rewrite orb_false_r. destruct (pstr_eqb k z) eqn:E; [|reflexivity].
  apply pstr_eqb_spec in E. subst. reflexivity.
Qed.
Lemma existsb_pstr k l : existsb (pstr_eqb k) l = true <-> In k l.
Proof.
  rewrite existsb_exists. split; [intros [x [H E]]; apply pstr_eqb_spec in E; subst; exact H|]. intro H. exists k. split; [exact H|]. apply pstr_eqb_spec. reflexivity.
Qed.

Lemma simplify_lengths rel N operators alg meas d : (forall p, In p operators -> length p = N) ->
  simplify_tomography rel operators alg = Some (meas, d) -> forall m, In m meas -> length m = N.
Proof.
  intros HN H m Hm. destruct (Nat.eq_dec (length operators) 1) as [L|L].
  - destruct operators as [|q [|]]; cbn in L; try lia. cbn in H. injection H as <- <-. destruct Hm as [<-|[]]. apply HN. left. reflexivity.
  - destruct (simplify_multi _ _ _ _ _ L H) as [E _]. cbv zeta in E. apply option_seq_some in E.
    assert (X : In (Some m) (map Some meas)) by (apply in_map; exact Hm). rewrite <- E in X. apply in_map_iff in X. destruct X as [c [X _]].
    destruct (TomoModel.dget c (color_dict 0 alg [])) as [w|]; [|discriminate]. destruct (select operators w) as [A|] eqn:SA; [|discriminate].
    apply (find_largest_len N A m); [|exact X]. intros s Hs. apply (select_spec _ _ _ SA) in Hs. destruct Hs as [i' [_ Hi']]. apply HN. eapply nth_error_In; exact Hi'.
Qed.

Lemma plan_covers simp real N paulis settings mapping : sized simp -> (forall p, In p paulis -> length p = N) ->
  measurement_plan simp real N paulis = Some (settings, mapping) ->
  (forall m, In m settings -> length m = N) /\
  forall p, In p paulis -> exists m, pget p mapping = Some m /\ In m settings /\ agrees p m.
Proof.
  intros Sz HN H. unfold measurement_plan in H.
  pose (ps := if real then filter (fun p => negb (ztype p)) paulis else paulis).
  pose (zs := if real then rev (filter ztype paulis) else []).
  assert (EP : (if real then pop_z (length paulis) paulis [] else (paulis, [])) = (ps, zs)).
  { unfold ps, zs. destruct real; [|reflexivity]. rewrite <- (app_nil_r paulis) at 2. rewrite pop_z_spec by reflexivity. rewrite app_nil_r. reflexivity. }
  rewrite EP in H.
  assert (Hps : forall p, In p ps -> length p = N).
  { intros p Hp. apply HN. unfold ps in Hp. destruct real; [apply filter_In in Hp; tauto|exact Hp]. }
  assert (G : forall ops d, match simp with Simplify rel colour => simplify_tomography rel ps (colour ps)
        | Plain => Some (ps, fold_left (fun d p => pset p p d) ps []) end = Some (ops, d) ->
      (forall m, In m ops -> length m = N) /\ forall p, In p ps -> exists m, pget p d = Some m /\ In m ops /\ agrees p m).
  { intros ops d E. destruct simp as [rel colour|].
    - split; [eapply simplify_lengths; eassumption|]. intros p Hp.
      destruct (simplify_covers rel N ps (colour ps) ops d Hps (Sz ps) E p Hp) as [m [H1 [H2 [H3 H4]]]].
      destruct (pget_In p d m H1) as [m' [G1 G2]]. exists m'. rewrite (H2 m' G2) in *. auto.
    - injection E as <- <-. split; [exact Hps|]. intros p Hp. exists p. rewrite pget_fold_self, (proj2 (existsb_pstr p ps) Hp).
      split; [reflexivity|]. split; [exact Hp|apply agrees_refl]. }
  destruct (match simp with Simplify rel colour => simplify_tomography rel ps (colour ps) | Plain => _ end) as [[ops d]|] eqn:E; [|discriminate].
  destruct (G ops d eq_refl) as [G1 G2]. clear G.
  unfold ps, zs in *. clear ps zs. destruct real; injection H as <- <-; [|split; assumption].
  split.
  - intros m Hm. apply in_app_or in Hm. destruct Hm as [Hm|[<-|[]]]; [apply G1; exact Hm|apply repeat_length].
  - intros p Hp. rewrite pget_fold_const. destruct (ztype p) eqn:Z.
    + rewrite (proj2 (existsb_pstr p (rev (filter ztype paulis)))) by (rewrite <- in_rev; apply filter_In; auto).
      exists (repeat PZ N). split; [reflexivity|]. split; [apply in_or_app; right; left; reflexivity|]. rewrite <- (HN p Hp). apply ztype_agrees. exact Z.
    + destruct (existsb (pstr_eqb p) (rev (filter ztype paulis))) eqn:X.
      { apply existsb_pstr in X. apply in_rev in X. apply filter_In in X. destruct X. congruence. }
      destruct (G2 p) as [m [M1 [M2 M3]]]; [apply filter_In; rewrite Z; auto|]. exists m. split; [exact M1|]. split; [apply in_or_app; left; exact M2|exact M3].
Qed.

Lemma proper_sized simp : proper simp -> sized simp.
Proof. destruct simp as [rel colour|]; [|auto]. intros [_ H] ps. apply H. Qed.
Lemma plan_returns simp real N paulis : proper simp -> (forall p, In p paulis -> length p = N) ->
  exists settings mapping, measurement_plan simp real N paulis = Some (settings, mapping) /\ (real = true -> settings <> []).
Proof.
  intros P HN. unfold measurement_plan.
  pose (ps := if real then filter (fun p => negb (ztype p)) paulis else paulis).
  pose (zs := if real then rev (filter ztype paulis) else []).
  assert (EP : (if real then pop_z (length paulis) paulis [] else (paulis, [])) = (ps, zs)).
  { unfold ps, zs. destruct real; [|reflexivity]. rewrite <- (app_nil_r paulis) at 2. rewrite pop_z_spec by reflexivity. rewrite app_nil_r. reflexivity. }
  rewrite EP.
  assert (Hps : forall p, In p ps -> length p = N).
  { intros p Hp. apply HN. unfold ps in Hp. destruct real; [apply filter_In in Hp; tauto|exact Hp]. }
  assert (R : exists ops d, match simp with Simplify rel colour => simplify_tomography rel ps (colour ps)
        | Plain => Some (ps, fold_left (fun d p => pset p p d) ps []) end = Some (ops, d)).
  { destruct simp as [rel colour|]; [|eexists; eexists; reflexivity]. destruct P as [-> P]. destruct (P ps) as [P1 [P2 P3]].
    apply (simplify_returns N ps (colour ps)); auto. }
  destruct R as [ops [d R]]. rewrite R. destruct real.
  - eexists. eexists. split; [reflexivity|]. intros _ C. destruct ops; discriminate.
  - exists ops, d. split; [reflexivity|discriminate].
Qed.

Section Run.
  Variable K : CoefRing.
  Add Ring KRing : (c_ring K).
  Local Open Scope coef_scope.
  Notation pop := (list (list pauli * K)).
  Variable rt : K.
  Hypothesis rt_sq : rt * rt = chalf.
  Hypothesis rt_real : cconj rt = rt.
  Variable tiny : K -> bool.
  Hypothesis exact_tiny : forall x, tiny x = true -> x = 0.

  (** The strings of all the elements are collected. *)
  Lemma collect_op op : forall ps : list (list pauli), forall s,
    In s (fold_left (fun ps (e : list pauli * K) => if existsb (pstr_eqb (fst e)) ps then ps else ps ++ [fst e]) op ps) <-> In s ps \/ In s (map fst op).
  Proof.
    induction op as [|e op IH]; intros ps s; cbn [fold_left map]; [cbn; tauto|]. rewrite IH. destruct (existsb (pstr_eqb (fst e)) ps) eqn:E.
    - apply existsb_pstr in E. cbn [In]. split; [tauto|]. intros [H|[<-|H]]; auto.
    - rewrite in_app_iff. cbn [In]. tauto.
  Qed.
  Lemma collect_In (qops : list pop) s : In s (collect qops) <-> exists op, In op qops /\ In s (map fst op).
  Proof.
    unfold collect.
    assert (G : forall ps, In s (fold_left (fun paulis op =>
      fold_left (fun ps (e : list pauli * K) => if existsb (pstr_eqb (fst e)) ps then ps else ps ++ [fst e]) op paulis) qops ps) <-> In s ps \/ exists op, In op qops /\ In s (map fst op)).
    { induction qops as [|op qops IH]; intro ps; cbn [fold_left].
      - split; [tauto|]. intros [H|[op [[] _]]]. exact H.
      - rewrite IH, collect_op. split.
        + intros [[H|H]|[op' [H1 H2]]]; [left; exact H|right; exists op; split; [left; reflexivity|exact H]|right; exists op'; split; [right; exact H1|exact H2]].
        + intros [H|[op' [[<-|H1] H2]]]; [tauto|tauto|]. right. exists op'. auto. }
    rewrite G. split; [intros [[]|H]; exact H|intro H; right; exact H].
  Qed.

  (** ** One setting *)
  Lemma measure_phase N m p (psi phi : bits -> K) w : length m = N -> agrees p m -> w * cconj w = 1 ->
    (forall r, length r = N -> phi r = w * mvec N (cmat rt N (basis_gates 0 m)) psi r) ->
    measure_sv tiny N p (sdk_array N phi) = expect N (pmat p) psi.
  Proof.
    intros L A U E. unfold sdk_array. rewrite measure_sv_spec.
    pose proof (basis_average K rt rt_sq rt_real m p psi A) as B. cbv zeta in B. rewrite L in B. rewrite <- B.
    apply sumbits_ext. intros b Hb. set (y := mvec N (cmat rt N (basis_gates 0 m)) psi b) in *.
    transitivity (sgn (outcome_parity p b) * (cconj (phi b) * phi b)).
    - destruct (tiny (phi b)) eqn:T; [|reflexivity]. rewrite (exact_tiny _ T). ring.
    - rewrite (E b Hb). fold y. rewrite cconj_mul. transitivity ((w * cconj w) * (sgn (outcome_parity p b) * (cconj y * y))); [ring|]. rewrite U. ring.
  Qed.

  Lemma run_measures N prep settings counts m p : (forall m, In m settings -> length m = N) ->
    run_settings rt N prep settings = Some counts -> In m settings -> agrees p m ->
    it_measure tiny N counts m p = Some (expect N (pmat p) (prepared rt N prep)).
  Proof.
    intros HN H Hm A. destruct settings as [|c0' rest]; [discriminate|]. cbn [run_settings] in H. injection H as <-.
    set (psi := mvec N (cmat rt N (prep ++ basis_gates 0 c0')) _).
    assert (E0 : forall r, length r = N -> psi r = mvec N (cmat rt N (basis_gates 0 c0')) (prepared rt N prep) r).
    { intros r Hr. unfold psi, prepared. rewrite (mvec_meq K N _ _ _ r (cmat_app K rt N prep (basis_gates 0 c0')) Hr). apply mvec_mmul. }
    unfold it_measure. cbn [last_value].
    destruct (in_dec (list_eq_dec (fun a b : pauli => ltac:(decide equality))) m rest) as [I|I].
    - rewrite (last_value_map K (fun c => sdk_array N (mvec N (cmat rt N (undo_gates 0 c0' ++ redo_gates 0 c)) psi)) rest m I).
      f_equal. assert (L0 : length c0' = length m) by (rewrite !HN; [reflexivity|right; exact I|left; reflexivity]).
      assert (Lm : length m = N) by (apply HN; right; exact I).
      destruct (rebase K rt rt_sq rt_real c0' m L0) as [w [U W]]. rewrite Lm in W.
      apply (measure_phase N m p (prepared rt N prep) _ w Lm A U). intros r Hr.
      transitivity (mvec N (cmat rt N (undo_gates 0 c0' ++ redo_gates 0 m)) (mvec N (cmat rt N (basis_gates 0 c0')) (prepared rt N prep)) r).
      { unfold mvec at 1 2. apply sumbits_ext. intros c Hc. rewrite E0 by exact Hc. reflexivity. }
      rewrite <- mvec_mmul. rewrite (mvec_meq K N _ _ _ r W Hr). unfold mvec, mscal. rewrite <- sumbits_scal. apply sumbits_ext. intros. ring.
    - rewrite last_value_none by exact I. destruct Hm as [<-|Hm]; [|contradiction].
      rewrite (proj2 (pauli_list_eqb_spec c0' c0') eq_refl). f_equal.
      apply (measure_phase N c0' p (prepared rt N prep) psi 1); [apply HN; left; reflexivity|exact A|rewrite cconj_1; ring|].
      intros r Hr. rewrite E0 by exact Hr. ring.
  Qed.

  (** ** One element *)
  Lemma expect_mone N (psi : bits -> K) : expect N mone psi = norm2 N psi.
  Proof.
    unfold expect, norm2. apply sumbits_ext. intros r Hr. f_equal. unfold mvec, mone.
    transitivity (sumbits N (fun c => if bits_eqb c r then psi c else 0)); [|apply (sumbits_pick K N r psi Hr)].
    apply sumbits_ext. intros c _. rewrite (bits_eqb_sym r c). destruct (bits_eqb c r); ring.
  Qed.
  Lemma all_identity s : forallb (fun p => pauli_eqb p PI) s = true -> s = repeat PI (length s).
  Proof.
    induction s as [|x s IH]; intro H; [reflexivity|]. cbn in H. apply andb_true_iff in H. destruct H as [H1 H2]. cbn. rewrite <- IH by exact H2.
    destruct x; try discriminate. reflexivity.
  Qed.
  Lemma expect_lin N (o : pop) psi : expect N (omat o) psi = lin (fun s => expect N (pmat s) psi) o.
  Proof.
    induction o as [|[s x] o IH]; cbn [omat lin].
    - unfold expect, mvec, mzero. transitivity (sumbits N (fun _ => 0 : K)); [|apply sumbits_0]. apply sumbits_ext. intros r _.
      transitivity (cconj (psi r) * sumbits N (fun _ => 0 : K)); [f_equal; apply sumbits_ext; intros; ring|rewrite sumbits_0; ring].
    - rewrite expect_madd, expect_scal, IH. reflexivity.
  Qed.
  Lemma element_value_spec N mapping counts prep (op : pop) : norm2 N (prepared rt N prep) = 1 -> (forall e, In e op -> length (fst e) = N) ->
    (forall e, In e op -> exists m, pget (fst e) mapping = Some m /\ it_measure tiny N counts m (fst e) = Some (expect N (pmat (fst e)) (prepared rt N prep))) ->
    forall temp, element_value tiny N mapping counts op temp = Some (temp + expect N (omat op) (prepared rt N prep)).
  Proof.
    intros Nm. rewrite expect_lin. induction op as [|[s c] op IH]; intros HL HM temp; cbn [element_value lin]; [f_equal; ring|].
    pose proof (HL (s, c) (or_introl eq_refl)) as L. cbn [fst] in L.
    assert (IH' : forall t, element_value tiny N mapping counts op t = Some (t + lin (fun s => expect N (pmat s) (prepared rt N prep)) op)).
    { apply IH; intros e He; [apply HL|apply HM]; right; exact He. }
    destruct (forallb (fun p => pauli_eqb p PI) s) eqn:F.
    - rewrite IH'. f_equal. apply all_identity in F. rewrite L in F. rewrite F. rewrite (expect_meq K N _ _ _ (pmat_identity K N)), expect_mone, Nm. ring.
    - destruct (HM (s, c) (or_introl eq_refl)) as [m [M1 M2]]. cbn [fst] in M1, M2. rewrite M1, M2, IH'. f_equal. ring.
  Qed.

  Hypothesis exact_small : forall x : K, dyadic 7 x -> small x = true -> x = 0.

  Lemma half_dyadic b : dyadic 1 (@half_of K b).
  Proof. destruct b; cbn [half_of]; [replace (chalf : K) with (chalf * 1 : K) by ring; apply dyadic_half, dyadic_1|apply dyadic_0]. Qed.
  Lemma fermi_new_dyadic k (c : K) l N s x : dyadic k c -> (forall e, In e l -> (snd e < N)%nat) -> fermi_new true c l N = Some (s, x) -> dyadic k x.
  Proof.
    intros D H E. destruct (FermiProofs.fermi_new_spec K c l N H) as [s' [x' [E' [_ [_ Hx]]]]]. rewrite E in E'. injection E' as <- <-.
    destruct Hx as [->|[->| ->]]; [exact D|apply dyadic_opp; exact D|apply dyadic_0].
  Qed.
  Lemma generate_rdme_within c a real imag N op : length c = length a -> (length c <= 3)%nat -> Forall (fun x => x < N)%nat c -> Forall (fun x => x < N)%nat a ->
    generate_rdme (listed c a) real imag N = Some op -> forall e, In e op -> dyadic 1 (snd e : K) /\ (count_ops (fst e) + 1 <= 7)%nat.
  Proof.
    intros L L3 Fc Fa. unfold generate_rdme. destruct (real || imag); [|discriminate]. rewrite listed_rev, !rdme_letters_listed by auto.
    assert (LL : forall c a : list nat, length c = length a -> (length c <= 3)%nat -> (length (rdm_letters c a) <= 6)%nat).
    { intros c' a' E1 E2. unfold rdm_letters. rewrite app_length, !map_length, ?rev_length. lia. }
    destruct (fermi_new true (half_of real + half_of imag) (rdm_letters c a) N) as [[s1 x1]|] eqn:E1; [|discriminate].
    destruct (shortens (listed c a)); [discriminate|].
    destruct (fermi_new true (half_of real - half_of imag) (rdm_letters a c) N) as [[s2 x2]|] eqn:E2; [|discriminate].
    intro H. injection H as <-.
    assert (C1 : (count_ops s1 + 1 <= 7)%nat) by (apply fermi_new_count in E1; specialize (LL c a L L3); lia).
    assert (C2 : (count_ops s2 + 1 <= 7)%nat) by (apply fermi_new_count in E2; specialize (LL a c); lia).
    assert (D1 : dyadic 1 x1).
    { eapply fermi_new_dyadic; [| |exact E1]; [|intros e; apply letters_bound; assumption]. apply dyadic_add; apply half_dyadic. }
    assert (D2 : dyadic 1 x2).
    { eapply fermi_new_dyadic; [| |exact E2]; [|intros e; apply letters_bound; assumption].
      replace (half_of real - half_of imag : K) with (half_of real + - half_of imag : K) by ring. apply dyadic_add; [|apply dyadic_opp]; apply half_dyadic. }
    intros e He. split.
    - revert e He. change (within K 1 (op_add_string fstr_eqb (op_add_string fstr_eqb [] (s1, x1)) (s2, x2))).
      apply (within_add K 1 _ TraceProofs.fstr_eqb_spec'); [|exact D2]. apply (within_add K 1 _ TraceProofs.fstr_eqb_spec'); [intros e []|exact D1].
    - assert (Hk : In (fst e) (map fst (op_add_string fstr_eqb (op_add_string fstr_eqb [] (s1, x1)) (s2, x2)))) by (apply in_map; exact He).
      revert Hk. generalize (fst e). intros k Hk. unfold op_add_string in Hk. cbn [op_get op_set fst snd] in Hk.
      destruct (fstr_eqb s2 s1) eqn:E; cbn [op_set map fst] in Hk; try rewrite E in Hk; cbn [map fst] in Hk;
        repeat (destruct Hk as [<-|Hk]; [assumption|]); destruct Hk.
  Qed.

  Lemma build_values p (value : list nat -> K) els : forall vals t, vals = map value els ->
    fold_left (fun t e => add_element p (fst e) (snd e) t) (combine els vals) t = fold_left (fun t r => add_element p r (value r) t) els t.
  Proof.
    induction els as [|r els IH]; intros vals t ->; [reflexivity|]. cbn [map combine fold_left fst snd]. apply IH. reflexivity.
  Qed.

  Lemma elements_listed p N real imag : (1 <= p <= 3)%nat -> real || imag = true -> forall r, In r (rdm_elements p real imag (seq 0 N) (seq N N)) ->
    exists c a, r = listed c a /\ length c = length a /\ length c = p /\ Forall (fun x => x < 2 * N)%nat c /\ Forall (fun x => x < 2 * N)%nat a /\ ((2 <= p)%nat \/ real = false -> shortens (listed c a) = false).
  Proof.
    intros Hp RI r Hr. destruct (enumeration p N real imag Hp) as [En1 En2]. destruct real.
    - destruct (En1 (or_introl eq_refl)) as [_ [H _]]. destruct (H r Hr) as [c [a [El ->]]]. pose proof El as [_ [_ [L1 [L2 [F1 [F2 _]]]]]].
      exists c, a. repeat split; auto; [congruence|]. intros [P|P]; [|discriminate]. exact (element_intact p N c a El (or_introl P)).
    - destruct imag; [|discriminate]. destruct (En2 eq_refl eq_refl) as [_ [H _]]. destruct (H r Hr) as [c [a [El [Ne ->]]]]. pose proof El as [_ [_ [L1 [L2 [F1 [F2 _]]]]]].
      exists c, a. repeat split; auto; [congruence|]. intros _. apply (element_intact p N c a El). destruct (Nat.eq_dec p 1) as [P|P]; [right; auto|left; lia].
  Qed.

  Lemma tomography_spec simp p real imag N prep : (1 <= p <= 3)%nat -> real || imag = true -> sized simp ->
    norm2 (2 * N) (prepared rt (2 * N) prep) = 1 ->
    (exists t, tomography rt tiny jw_operator simp p real imag N prep = Some t) ->
    exists value, tomography rt tiny jw_operator simp p real imag N prep = Some (build_rdm p (rdm_elements p real imag (seq 0 N) (seq N N)) value) /\
      forall r, In r (rdm_elements p real imag (seq 0 N) (seq N N)) ->
        exists op, generate_rdme r real imag (2 * N) = Some op /\ value r = expect (2 * N) (fop_mat op) (prepared rt (2 * N) prep).
  Proof.
    intros Hp RI Sz Nm [t T]. unfold tomography in *. set (els := rdm_elements p real imag (seq 0 N) (seq N N)) in *.
    set (R := (2 * N)%nat) in *.
    destruct (option_seq (map (fun r => generate_rdme r real imag R) els)) as [ops|] eqn:EO; [|discriminate].
    set (value := fun r => match generate_rdme r real imag R with Some op => expect R (fop_mat op) (prepared rt R prep) | None => 0 end).
    apply option_seq_some in EO.
    assert (GS : forall r, In r els -> exists op : list (fstr * K), generate_rdme r real imag R = Some op /\ (forall e, In e op -> length (fst e) = R /\ dyadic 1 (snd e) /\ (count_ops (fst e) + 1 <= 7)%nat)).
    { intros r Hr. destruct (elements_listed p N real imag Hp RI r Hr) as [c [a [-> [L [L3 [F1 [F2 _]]]]]]].
      assert (Sh : shortens (listed c a) = false).
      { pose proof (in_map (fun r => @generate_rdme K r real imag R) _ _ Hr) as I. rewrite EO in I. apply in_map_iff in I. destruct I as [op [I _]]. exact (generate_rdme_kept K _ _ _ _ _ (eq_sym I)). }
      destruct (generate_rdme_mat K c a real imag R L F1 F2 RI Sh) as [op [E [H _]]]. exists op. split; [exact E|]. intros e He. split; [apply H; exact He|].
      apply (generate_rdme_within c a real imag R op L ltac:(lia) F1 F2 E e He). }
    assert (OP : forall op, In op ops -> exists r, In r els /\ generate_rdme r real imag R = Some op).
    { intros op Ho. assert (X : In (Some op) (map Some ops)) by (apply in_map; exact Ho). rewrite <- EO in X. apply in_map_iff in X. destruct X as [r [X1 X2]]. exists r. auto. }
    assert (EX : forall op, In op ops -> meq R (omat (jw_operator op)) (fop_mat op) /\ (forall e, In e (jw_operator op) -> length (fst e) = R)).
    { intros op Ho. destruct (OP op Ho) as [r [H1 H2]]. destruct (GS r H1) as [op' [H3 H4]]. rewrite H2 in H3. injection H3 as <-. apply (jw_operator_exact K 7 exact_small R op 1). exact H4. }
    assert (CL : forall s, In s (collect (map jw_operator ops)) -> length s = R).
    { intros s Hs. apply collect_In in Hs. destruct Hs as [q [Hq Hs]]. apply in_map_iff in Hq. destruct Hq as [op [<- Ho]]. apply in_map_iff in Hs. destruct Hs as [e [<- He]]. apply (EX op Ho). exact He. }
    match type of T with match ?x with _ => _ end = _ => destruct x as [[settings mapping]|] eqn:EM end; [|discriminate T].
    destruct (plan_covers _ _ _ _ _ _ Sz CL EM) as [SL CV].
    match type of T with match ?x with _ => _ end = _ => destruct x as [counts|] eqn:ER end; [|discriminate T].
    exists value. split.
    - match goal with |- match ?x with _ => _ end = _ => replace x with (Some (map (fun op => expect R (fop_mat op) (prepared rt R prep)) ops)) end.
      2:{ symmetry. apply option_seq_some. rewrite !map_map. apply map_ext_in. intros op Ho. destruct (EX op Ho) as [M L].
          rewrite (element_value_spec R mapping counts prep (jw_operator op) Nm L).
          - f_equal. rewrite (expect_meq K R _ _ _ M). ring.
          - intros e He. destruct (CV (fst e)) as [m [M1 [M2 M3]]].
            + apply collect_In. exists (jw_operator op). split; [apply in_map; exact Ho|apply in_map; exact He].
            + exists m. split; [exact M1|]. apply (run_measures R prep settings counts m (fst e) SL ER M2 M3). }
      f_equal. unfold build_rdm. apply build_values.
      assert (X : map Some (map (fun op => expect R (fop_mat op) (prepared rt R prep)) ops) = map Some (map value els)).
      { rewrite !map_map. transitivity (map (fun o => match o with Some op => Some (expect R (fop_mat op) (prepared rt R prep)) | None => Some 0 end) (map Some ops)); [rewrite map_map; reflexivity|].
        rewrite <- EO, map_map. apply map_ext. intro r. unfold value. destruct (generate_rdme r real imag R); reflexivity. }
      revert X. generalize (map value els). generalize (map (fun op => expect R (fop_mat op) (prepared rt R prep)) ops). clear.
      induction l as [|x l IH]; intros [|y l0] X; try discriminate; [reflexivity|]. injection X as -> X. f_equal. apply IH. exact X.
    - intros r Hr. destruct (GS r Hr) as [op [H1 _]]. exists op. split; [exact H1|]. unfold value. rewrite H1. reflexivity.
  Qed.

  Lemma tomography_returns simp p real imag N prep : (2 <= p <= 3)%nat -> real = true -> proper simp ->
    exists t, tomography rt tiny jw_operator simp p real imag N prep = Some t.
  Proof.
    intros Hp2 -> P. assert (Hp : (1 <= p <= 3)%nat) by lia. assert (RI : true || imag = true) by reflexivity.
    unfold tomography. set (els := rdm_elements p true imag (seq 0 N) (seq N N)) in *. set (R := (2 * N)%nat) in *.
    assert (GS : forall r, In r els -> exists op : list (fstr * K), generate_rdme r true imag R = Some op /\ (forall e, In e op -> length (fst e) = R /\ dyadic 1 (snd e) /\ (count_ops (fst e) + 1 <= 7)%nat)).
    { intros r Hr. destruct (elements_listed p N true imag Hp RI r Hr) as [c [a [-> [L [L3 [F1 [F2 Sh]]]]]]]. specialize (Sh (or_introl (proj1 Hp2))).
      destruct (generate_rdme_mat K c a true imag R L F1 F2 RI Sh) as [op [E [H _]]]. exists op. split; [exact E|]. intros e He. split; [apply H; exact He|].
      apply (generate_rdme_within c a true imag R op L ltac:(lia) F1 F2 E e He). }
    destruct (option_seq_all (fun r => @generate_rdme K r true imag R) els) as [ops EO].
    { intros r Hr. destruct (GS r Hr) as [op [H _]]. exists op. exact H. }
    rewrite EO. apply option_seq_some in EO.
    assert (EX : forall op, In op ops -> (forall e, In e (jw_operator op) -> length (fst e) = R)).
    { intros op Ho. assert (X : In (Some op) (map Some ops)) by (apply in_map; exact Ho). rewrite <- EO in X. apply in_map_iff in X. destruct X as [r [X1 X2]].
      destruct (GS r X2) as [op' [H3 H4]]. rewrite X1 in H3. injection H3 as <-. apply (jw_operator_exact K 7 exact_small R op 1). exact H4. }
    assert (CL : forall s, In s (collect (map jw_operator ops)) -> length s = R).
    { intros s Hs. apply collect_In in Hs. destruct Hs as [q [Hq Hs]]. apply in_map_iff in Hq. destruct Hq as [op [<- Ho]]. apply in_map_iff in Hs. destruct Hs as [e [<- He]]. apply (EX op Ho). exact He. }
    destruct (plan_returns simp true R (collect (map jw_operator ops)) P CL) as [settings [mapping [EM NE]]]. match goal with |- exists _, match ?x with _ => _ end = _ => replace x with (Some (settings, mapping)) by (symmetry; exact EM) end.
    destruct (plan_covers _ _ _ _ _ _ (proper_sized _ P) CL EM) as [SL CV].
    destruct settings as [|c0' rest]; [contradiction (NE eq_refl); reflexivity|].
    destruct (run_settings rt R prep (c0' :: rest)) as [counts|] eqn:ER; [|discriminate].
    destruct (option_seq_all (fun op => element_value tiny R mapping counts op 0) (map jw_operator ops)) as [vals EV].
    { intros q Hq. apply in_map_iff in Hq. destruct Hq as [op [<- Ho]].
      assert (HM : forall e, In e (jw_operator op) -> exists m z, pget (fst e) mapping = Some m /\ it_measure tiny R counts m (fst e) = Some z).
      { intros e He. destruct (CV (fst e)) as [m [M1 [M2 M3]]].
        - apply collect_In. exists (jw_operator op). split; [apply in_map; exact Ho|apply in_map; exact He].
        - exists m. eexists. split; [exact M1|]. apply (run_measures R prep (c0' :: rest) counts m (fst e) SL ER M2 M3). }
      generalize (0 : K). revert HM. generalize (jw_operator op). clear. intro o. induction o as [|[s c] o IH]; intros HM t; [exists t; reflexivity|].
      cbn [element_value]. assert (IH' := IH (fun e He => HM e (or_intror He))). destruct (forallb (fun p => pauli_eqb p PI) s); [apply IH'|].
      destruct (HM (s, c) (or_introl eq_refl)) as [m [z [M1 M2]]]. cbn [fst] in M1, M2. rewrite M1, M2. apply IH'. }
    match goal with |- exists _, match ?x with _ => _ end = _ => replace x with (Some vals) by (symmetry; exact EV) end. eexists. reflexivity.
  Qed.

  (** The array is the RDM of the prepared state. *)
  Theorem tomography_rdm simp p real imag N nu prep t : (1 <= p <= 3)%nat -> real || imag = true -> sized simp ->
    norm2 (2 * N) (prepared rt (2 * N) prep) = 1 -> has_up (2 * N) N nu (prepared rt (2 * N) prep) ->
    tomography rt tiny jw_operator simp p real imag N prep = Some t ->
    forall c a, length c = p -> length a = p -> Forall (fun x => x < 2 * N)%nat c -> Forall (fun x => x < 2 * N)%nat a ->
      t (c ++ a) = part real imag (rdm_of (2 * N) (prepared rt (2 * N) prep) c a).
  Proof.
    intros Hp RI Sz Nm Up T c a Lc La Fc Fa. destruct (tomography_spec simp p real imag N prep Hp RI Sz Nm (ex_intro _ t T)) as [value [E V]].
    rewrite T in E. injection E as ->. apply (reconstruction K p N nu); assumption.
  Qed.
End Run.

Lemma tomography_one_body (K : CoefRing) (rt : K) (tiny : K -> bool) transform simp imag N prep : (0 < N)%nat -> tomography rt tiny transform simp 1 true imag N prep = None.
Proof.
  intro H. unfold tomography. set (els := rdm_elements 1 true imag (seq 0 N) (seq N N)).
  destruct (option_seq (map (fun r => generate_rdme r true imag (2 * N)) els)) as [ops|] eqn:EO; [|reflexivity]. exfalso. apply option_seq_some in EO.
  assert (I : In (listed [0%nat] [0%nat]) els).
  { destruct (enumeration 1 N true imag ltac:(lia)) as [En _]. destruct (En (or_introl eq_refl)) as [X _].
    assert (E : element 1 N [0%nat] [0%nat]) by (repeat split; repeat constructor; lia). destruct (X _ _ E); assumption. }
  pose proof (in_map (fun r => @generate_rdme K r true imag (2 * N)) _ _ I) as J. rewrite EO in J. apply in_map_iff in J. destruct J as [op [J _]].
  apply eq_sym in J. apply generate_rdme_kept in J. discriminate J.
Qed.
