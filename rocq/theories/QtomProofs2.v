(** The runs that return, and those that raise. *)
From Coq Require Import Bool List Arith ZArith Lia Ring.
From Verif Require Import Coeff MatSpec MatLemmas OpSpec FockSpec PauliModel PauliProofs OperatorModel OperatorProofs TransformModel TwoTerm JWProofs TransformLin QubitProofs
  CircuitSpec CircuitModel CircuitProofs CircuitProofs2 TomoModel TomoProofs CountsProofs RdmModel RdmSpec RdmEnum RdmFock RdmBuild RdmProofs HamModel HamSpec ItModel ItProofs FermiModel PlanModel PlanSpec PlanProofs PlanProofs2
  QRdmModel QRdmSpec QRdmProofs1 QRdmProofs2 HamProofs3 CircModel2 QtomModel QtomProofs.
Import ListNotations.

Lemma nth_upd_same {A} j (b : A) l : j < length l -> nth_error (upd j b l) j = Some b.
Proof. revert j. induction l as [|x l IH]; intros [|j] H; cbn in *; try lia; [reflexivity|]. apply IH. lia. Qed.
Lemma nth_upd_other {A} j k (b : A) l : j <> k -> nth_error (upd j b l) k = nth_error l k.
Proof. revert j k. induction l as [|x l IH]; intros [|j] [|k] H; cbn; try reflexivity; try congruence. apply IH. lia. Qed.
Lemma upd_len {A} j (b : A) l : length (upd j b l) = length l.
Proof. revert j. induction l as [|x l IH]; intros [|j]; cbn; try reflexivity. f_equal. apply IH. Qed.
Lemma upd_upd {A} j (b b' : A) l : upd j b (upd j b' l) = upd j b l.
Proof. revert j. induction l as [|x l IH]; intros [|j]; cbn; try reflexivity. f_equal. apply IH. Qed.
Lemma upd_id {A} j (b : A) l : nth_error l j = Some b -> upd j b l = l.
Proof. revert j. induction l as [|x l IH]; intros [|j] H; cbn in *; try discriminate; try reflexivity; [injection H as ->; reflexivity|]. f_equal. apply IH. exact H. Qed.
Lemma upd_comm {A} j k (b b' : A) l : j <> k -> upd j b (upd k b' l) = upd k b' (upd j b l).
Proof. revert j k. induction l as [|x l IH]; intros [|j] [|k] H; cbn; try reflexivity; try congruence. f_equal. apply IH. lia. Qed.
Lemma ones_nth n j : j < n -> nth_error (repeat true n) j = Some true.
Proof. revert j. induction n as [|n IH]; intros [|j] H; cbn; try lia; [reflexivity|]. apply IH. lia. Qed.
Lemma qubits_ones R x y : x <> y -> x < R -> y < R ->
  qubits [(Cre, x); (Cre, y); (Ann, y); (Ann, x)] (repeat true R) = Some (repeat true R).
Proof.
  intros D Hx Hy. cbn [qubits]. unfold qubit1.
  rewrite (ones_nth R x Hx). cbn [local]. rewrite (nth_upd_other x y _ _ D), (ones_nth R y Hy). cbn [local].
  rewrite nth_upd_same by (rewrite upd_len, repeat_length; exact Hy). cbn [local]. rewrite upd_upd.
  rewrite nth_upd_other by congruence. rewrite nth_upd_same by (rewrite repeat_length; exact Hx). cbn [local].
  rewrite upd_comm by congruence. rewrite upd_upd. rewrite (upd_id x) by (apply ones_nth; exact Hx).
  rewrite upd_id by (apply ones_nth; exact Hy). reflexivity.
Qed.

Section QReturns.
  Variable K : CoefRing.
  Add Ring Kq3 : (c_ring K).
  Local Open Scope coef_scope.

  Lemma expect_basis N (M : mat K) d : length d = N -> expect N M (basis_vec d) = M d d.
  Proof.
    intro H. unfold expect, basis_vec, mvec.
    transitivity (sumbits N (fun r => if bits_eqb d r then M r d else 0)).
    - apply sumbits_ext. intros r _. transitivity (cconj (if bits_eqb d r then 1 else 0) * M r d).
      + f_equal. rewrite <- (sumbits_pick K N d (fun c => M r c) H). apply sumbits_ext. intros c _. rewrite (bits_eqb_sym d c). destruct (bits_eqb c d); ring.
      + destruct (bits_eqb d r); [rewrite cconj_1|rewrite cconj_0]; ring.
    - rewrite <- (sumbits_pick K N d (fun r => M r d) H). apply sumbits_ext. intros c _. rewrite (bits_eqb_sym d c). reflexivity.
  Qed.
  Lemma qrdm_ones R x y : x <> y -> (x < R)%nat -> (y < R)%nat -> qrdm_of R (@basis_vec K (repeat true R)) [x; y] [x; y] = 1.
  Proof.
    intros D Hx Hy. rewrite qrdm_word, expect_basis by apply repeat_length. unfold rdm_letters, qubits_mat, pmap_mat. cbn [map rev app].
    rewrite (qubits_ones R x y D Hx Hy), bits_eqb_refl. reflexivity.
  Qed.

  Lemma expect_same N (M : mat K) (psi phi : bits -> K) : (forall x, length x = N -> psi x = phi x) -> expect N M psi = expect N M phi.
  Proof.
    intro H. unfold expect, mvec. apply sumbits_ext. intros r Hr. rewrite (H r Hr). f_equal. apply sumbits_ext. intros c Hc. rewrite (H c Hc). reflexivity.
  Qed.

  Variable rt : K.
  Hypothesis rt_sq : rt * rt = chalf.
  Hypothesis rt_real : cconj rt = rt.
  Variable tiny : K -> bool.
  Hypothesis exact_tiny : forall x, tiny x = true -> x = 0.
  Hypothesis exact_small : forall x : K, dyadic 7 x -> small x = true -> x = 0.

  Lemma element_value_returns N mapping counts (op : list (list pauli * K)) :
    (forall e, In e op -> exists m z, pget (fst e) mapping = Some m /\ it_measure tiny N counts m (fst e) = Some z) ->
    forall t, exists v, element_value tiny N mapping counts op t = Some v.
  Proof.
    induction op as [|[s c] o IH]; intros HM t; [exists t; reflexivity|].
    cbn [element_value]. assert (IH' := IH (fun e He => HM e (or_intror He))). destruct (forallb (fun p => pauli_eqb p PI) s); [apply IH'|].
    destruct (HM (s, c) (or_introl eq_refl)) as [m [z [M1 M2]]]. cbn [fst] in M1, M2. rewrite M1, M2. apply IH'.
  Qed.

  Lemma qubit_values_returns simp imag N prep : (0 < N)%nat -> proper simp ->
    exists vals, qubit_values rt tiny simp 2 true imag N prep = Some vals.
  Proof.
    intros HN P. unfold qubit_values. set (els := rdm_elements 2 true imag (seq 0 N) (seq N N)) in *.
    assert (GS : forall r, In r els -> exists op : list (fstr * K), generate_qrdme r true imag (2 * N) = Some op).
    { intros r Hr. destruct (elements_listed 2 N true imag ltac:(lia) eq_refl r Hr) as [c [a [-> [L [L3 [F1 [F2 Sh]]]]]]]. specialize (Sh (or_introl (le_n 2))).
      destruct (generate_qrdme_spec K c a true imag (2 * N) (fun _ => 0) L) as [op [E _]]; auto; [intros ->; discriminate|apply shortens_spec; exact Sh|]. exists op. exact E. }
    destruct (option_seq_all (fun r => @generate_qrdme K r true imag (2 * N)) els GS) as [ops EO]. rewrite EO.
    pose proof (qelements_ok K exact_small 2 true imag N ops ltac:(lia) eq_refl EO) as OK.
    assert (CL : forall s, In s (collect (map qubit_transform ops)) -> length s = (2 * N)%nat).
    { intros s Hs. apply collect_In in Hs. destruct Hs as [q [Hq Hs]]. apply in_map_iff in Hq. destruct Hq as [op [<- Ho]]. apply in_map_iff in Hs. destruct Hs as [e [<- He]]. apply (OK op Ho). exact He. }
    rewrite (qubit_plan_eq simp (2 * N)). destruct (plan_returns simp false (2 * N) _ P CL) as [settings [mapping [EM _]]].
    match goal with |- exists _, match ?x with _ => _ end = _ => replace x with (Some (settings, mapping)) by (symmetry; exact EM) end.
    destruct (plan_covers _ _ _ _ _ _ (proper_sized _ P) CL EM) as [SL CV].
    assert (NE : exists s, In s (collect (map qubit_transform ops))).
    { destruct (enumeration 2 N true imag ltac:(lia)) as [En _]. destruct (En (or_introl eq_refl)) as [X _].
      assert (E : element 2 N [0%nat; N] [0%nat; N]).
      { repeat split; repeat constructor; lia. }
      assert (I : In (listed [0%nat; N] [0%nat; N]) els) by (destruct (X _ _ E); assumption).
      apply option_seq_some in EO. pose proof (in_map (fun r => @generate_qrdme K r true imag (2 * N)) _ _ I) as J. rewrite EO in J.
      apply in_map_iff in J. destruct J as [op [J Jo]]. symmetry in J.
      destruct (qubit_transform op) as [|e o] eqn:Q.
      - exfalso. destruct (OK op Jo) as [[M _] _]. rewrite Q in M.
        destruct (generate_qrdme_spec K [0%nat; N] [0%nat; N] true imag (2 * N) (basis_vec (repeat true (2 * N))) eq_refl) as [op' [E' [_ EX]]]; auto;
          [discriminate|repeat constructor; lia|repeat constructor; lia|apply shortens_spec; exact (generate_qrdme_kept _ _ _ _ _ _ J)|].
        rewrite J in E'. injection E' as <-. rewrite <- (expect_meq K _ _ _ _ M), qrdm_ones in EX by lia.
        assert (Z : expect (2 * N) (omat []) (@basis_vec K (repeat true (2 * N))) = 0) by (rewrite expect_basis by apply repeat_length; reflexivity).
        rewrite Z in EX. apply (c1_neq0 K). revert EX. unfold part. destruct imag; [auto|]. rewrite cconj_1. intro EX. rewrite EX.
        transitivity ((chalf + chalf) * 1 : K); [rewrite chalf_dbl; ring|ring].
      - exists (fst e). apply collect_In. exists (qubit_transform op). split; [apply in_map; exact Jo|]. rewrite Q. left. reflexivity. }
    destruct (run_settings rt (2 * N) prep settings) as [counts|] eqn:ER.
    - apply (option_seq_all (fun op => element_value tiny (2 * N) mapping counts op 0)). intros q Hq. apply in_map_iff in Hq. destruct Hq as [op [<- Ho]].
      apply element_value_returns. intros e He. destruct (CV (fst e)) as [m [M1 [M2 M3]]].
      + apply collect_In. exists (qubit_transform op). split; [apply in_map; exact Ho|apply in_map; exact He].
      + exists m. eexists. split; [exact M1|]. apply (run_measures K rt rt_sq rt_real tiny exact_tiny (2 * N) prep settings counts m (fst e) SL ER M2 M3).
    - exfalso. destruct NE as [s Hs]. destruct (CV s Hs) as [m [_ [M2 _]]]. destruct settings; [destruct M2|discriminate].
  Qed.

  (** The energy of the particle-qubit Hamiltonian. *)
  Lemma qubit_energy simp N Ne nu w h V en_c prep t : sized simp -> norm2 (2 * N) (prepared rt (2 * N) prep) = 1 ->
    has_up (2 * N) N nu (prepared rt (2 * N) prep) -> has_particles (2 * N) Ne (prepared rt (2 * N) prep) ->
    (1 + 1 + 1 + 1) * w * ofnat (Ne - 1) = 1 ->
    qubit_tomography rt tiny simp 2 true true N prep = Some t ->
    evaluate (2 * N) (build_K2_q (2 * N) w h V) en_c t =
      expect (2 * N) (particle_ham (2 * N) (fun p q => h q p) (fun p t q s => V q s p t)) (prepared rt (2 * N) prep) + en_c.
  Proof.
    intros Sz Nm Up Pa Hw T. unfold evaluate. f_equal. rewrite <- (K2_q_energy K (2 * N) Ne w h V _ Pa Hw).
    rewrite !observable_eq. apply upto_ext. intros a Ha. apply upto_ext. intros b Hb. apply upto_ext. intros c Hc. apply upto_ext. intros d Hd. f_equal.
    exact (qubit_tomography_rdm K rt rt_sq rt_real tiny exact_tiny exact_small simp 2 true true N nu prep t ltac:(lia) eq_refl Sz Nm Up T [c; d] [a; b] eq_refl eq_refl
      ltac:(repeat constructor; assumption) ltac:(repeat constructor; assumption)).
  Qed.
End QReturns.

Lemma qubit_one_body (K : CoefRing) (rt : K) (tiny : K -> bool) simp imag N prep : (0 < N)%nat -> qubit_tomography rt tiny simp 1 true imag N prep = None.
Proof.
  intro H. unfold qubit_tomography, qubit_values. set (els := rdm_elements 1 true imag (seq 0 N) (seq N N)).
  destruct (option_seq (map (fun r => generate_qrdme r true imag (2 * N)) els)) as [ops|] eqn:EO; [|reflexivity]. exfalso. apply option_seq_some in EO.
  assert (I : In (listed [0%nat] [0%nat]) els).
  { destruct (enumeration 1 N true imag ltac:(lia)) as [En _]. destruct (En (or_introl eq_refl)) as [X _].
    assert (E : element 1 N [0%nat] [0%nat]) by (repeat split; repeat constructor; lia). destruct (X _ _ E); assumption. }
  pose proof (in_map (fun r => @generate_qrdme K r true imag (2 * N)) _ _ I) as J. rewrite EO in J. apply in_map_iff in J. destruct J as [op [J _]].
  apply eq_sym in J. apply generate_qrdme_kept in J. discriminate J.
Qed.
