(** A whole run of particle-qubit tomography. *)
From Coq Require Import Bool List Arith ZArith Lia Ring.
From Verif Require Import Coeff MatSpec MatLemmas OpSpec FockSpec PauliModel PauliProofs OperatorModel OperatorProofs TransformModel TwoTerm JWProofs TransformLin QubitProofs
  CircuitSpec CircuitModel CircuitProofs CircuitProofs2 TomoModel TomoProofs CountsProofs RdmModel RdmSpec RdmEnum RdmFock RdmBuild RdmProofs HamModel ItModel ItProofs FermiModel PlanModel PlanSpec PlanProofs PlanProofs2
  QRdmModel QRdmSpec QRdmProofs1 CircModel2 QtomModel.
Import ListNotations.

Section QExact.
  Variable K : CoefRing.
  Add Ring Kq : (c_ring K).
  Local Open Scope coef_scope.
  Notation pop := (list (list pauli * K)).
  Variable L : nat.
  Hypothesis small_nz : forall x : K, dyadic L x -> small x = true -> x = 0.

  Lemma qubit_loop_zeros N rs : forall new : pop, zeros K new -> qubit_loop N rs new = new \/ qubit_loop N rs new = [].
  Proof.
    induction rs as [|[| |o] rs IH]; intros new H; cbn [qubit_loop]; [left; reflexivity|apply IH; exact H| |];
      rewrite zeros_mul by exact H; right; destruct (IH [] ltac:(intros e [])); assumption.
  Qed.
  Lemma qubit_zero s : forall e, In e (@qubit_string K s 0) -> length (fst e) = length s /\ snd e = 0.
  Proof.
    unfold qubit_string. intros e He.
    destruct (qubit_loop_zeros (length s) (rev s) (pop_add_string [] (repeat PI (length s), 0))) as [E|E];
      [intros x [<-|[]]; reflexivity| |]; rewrite E in He; [|destruct He].
    destruct He as [<-|[]]. cbn. rewrite repeat_length. auto.
  Qed.
  Lemma qubit_loop_inv N (c : K) (rs : list (option fop)) k new :
    (length rs <= N)%nat -> Inv N c k (fun j => (j < length rs)%nat) new ->
    small (cpow chalf (qcount (map letter_q rs) + k)%nat * c) = false ->
    Inv N c (qcount (map letter_q rs) + k) (fun _ => False) (qubit_loop N (map letter_q rs) new).
  Proof.
    revert k new. induction rs as [|[o|] rs IH]; intros k new HN HI HS.
    - cbn. destruct HI as [H1 [H2 [H3 H4]]]. split; [|split; [|split]]; auto. intros e e' j _ _ [].
    - cbn [map letter_q qubit_loop length] in *. rewrite map_length.
      assert (Q : qcount (QO o :: map letter_q rs) = S (qcount (map letter_q rs))) by reflexivity. rewrite Q in *.
      assert (HS' : small (cpow chalf (S k) * c) = false).
      { eapply small_cpow_le; [|exact HS]. lia. }
      destruct (pop_mul_step K N c k _ (fun j => j < length rs)%nat (qubit_term N (length rs) o) new HI
                  (qubit_term_ok K N (length rs) o ltac:(lia)) HS') as [HI' _].
      replace (S (qcount (map letter_q rs)) + k)%nat with (qcount (map letter_q rs) + S k)%nat in * by lia.
      apply IH; [lia|exact HI'|exact HS].
    - cbn [map letter_q qubit_loop length] in *. apply IH; [lia| |exact HS].
      destruct HI as [H1 [H2 [H3 H4]]]. split; [|split; [|split]]; auto.
  Qed.
  Lemma qcount_letters s : qcount (map letter_q s) = count_ops s.
  Proof.
    unfold count_ops. generalize 0%nat. induction s as [|[o|] s IH]; intro n; [reflexivity| |]; unfold qcount in *; cbn [map letter_q filter length flat].
    - f_equal. apply IH.
    - apply IH.
  Qed.
  Lemma qubit_string_exact s (c : K) k : dyadic k c -> (count_ops s + k <= L)%nat ->
    meq (length s) (omat (qubit_string (map letter_q s) c)) (mscal c (qstr_mat s))
    /\ (forall e, In e (qubit_string (map letter_q s) c) -> length (fst e) = length s) /\ within K L (qubit_string (map letter_q s) c).
  Proof.
    intros Dc HL. destruct (ceqb c 0) eqn:E.
    - apply ceqb_spec in E. subst c. assert (Z := qubit_zero (map letter_q s)). rewrite map_length in Z. split; [|split; [intros e He; apply (Z e He)|]].
      2:{ intros e He. rewrite (proj2 (Z e He)). apply dyadic_0. }
      intros r q _ _. unfold mscal. transitivity (0 : K); [|ring]. rewrite omat_is_lin. revert Z. generalize (@qubit_string K (map letter_q s) 0).
      intro o. induction o as [|[k' x] o IH]; intro Z; [reflexivity|].
      cbn [lin]. rewrite IH by (intros e He; apply Z; right; exact He). pose proof (proj2 (Z (k', x) (or_introl eq_refl))) as E. cbn in E. rewrite E. ring.
    - assert (Hc : c <> 0) by (intro H; subst; rewrite (proj2 (ceqb_spec K 0 0) eq_refl) in E; discriminate).
      assert (D : dyadic L (cpow chalf (count_ops s) * c)) by (apply (dyadic_le K (count_ops s + k)); [exact HL|apply dyadic_pow; exact Dc]).
      assert (HS : small (cpow chalf (qcount (map letter_q s)) * c) = false).
      { rewrite qcount_letters. destruct (small (cpow chalf (count_ops s) * c)) eqn:ES; [|reflexivity]. apply small_nz in ES; [|exact D]. exfalso. exact (half_pow_nz K _ _ Hc ES). }
      split; [|].
      + assert (M := qubit_string_spec K (map letter_q s) c HS). rewrite map_length in M. intros r q Hr Hq. rewrite M by assumption. unfold mscal. f_equal.
        rewrite (qstr_kron K s r q Hr Hq). f_equal. rewrite map_map. apply map_ext. intros [o|]; reflexivity.
      + destruct (qubit_loop_inv (length s) c (rev s) 0 (pop_add_string [] (repeat PI (length s), c))) as [_ [W [_ I']]].
        * rewrite rev_length. lia.
        * apply Inv_init.
        * rewrite map_rev, qcount_rev, Nat.add_0_r. exact HS.
        * unfold qubit_string. rewrite map_length, <- map_rev. split; [exact W|]. intros e He. destruct (I' e He) as [z ->].
          apply dyadic_ipow. rewrite map_rev, qcount_rev, Nat.add_0_r, qcount_letters. exact D.
  Qed.
  Lemma qubit_transform_exact N (o : list (fstr * K)) k : (forall e, In e o -> length (fst e) = N /\ dyadic k (snd e) /\ (count_ops (fst e) + k <= L)%nat) ->
    meq N (omat (qubit_transform o)) (qop_mat o) /\ (forall e, In e (qubit_transform o) -> length (fst e) = N).
  Proof.
    intro H. unfold qubit_transform, op_transform.
    assert (JS : forall s c, In (s, c) o -> meq N (omat (qubit_string (map letter_q s) c)) (mscal c (qstr_mat s))
      /\ (forall e, In e (qubit_string (map letter_q s) c) -> length (fst e) = N) /\ within K L (qubit_string (map letter_q s) c)).
    { intros s c He. destruct (H _ He) as [E1 [E2 E3]]. cbn [fst snd] in *. subst N. apply (qubit_string_exact s c k); assumption. }
    split.
    - intros r q Hr Hq. rewrite omat_is_lin. rewrite (fold_op_within K L small_nz); [|intros e []|].
      + cbn [lin]. rewrite map_map. unfold qop_mat.
        transitivity (sumK (map (fun x : fstr * K => lin (fun k => pmat k r q) (qubit_string (map letter_q (fst x)) (snd x))) o)); [match goal with |- _ + ?x = ?y => change x with y end; ring|].
        f_equal. apply map_ext_in. intros [s c] He. cbn [fst snd].
        transitivity (omat (qubit_string (map letter_q s) c) r q); [symmetry; apply omat_is_lin|].
        destruct (JS s c He) as [M _]. rewrite M by assumption. reflexivity.
      + intros a Ha. apply in_map_iff in Ha. destruct Ha as [[s c] [<- He]]. apply (JS s c He).
    - destruct (fold_op_add K _ pauli_list_eqb pauli_list_eqb_spec (map (fun e : fstr * K => qubit_string (map letter_q (fst e)) (snd e)) o) [] ltac:(constructor)) as [D [_ [_ [_ [_ [_ [H6 _]]]]]]].
      intros e He. destruct (H6 (fst e)) as [X|[r [X1 X2]]]; [rewrite map_app, in_app_iff; left; apply in_map; exact He|destruct X|].
      apply in_map_iff in X1. destruct X1 as [[s c] [<- Hs]]. apply in_map_iff in X2. destruct X2 as [e' [E2 He']]. rewrite <- E2.
      apply (JS s c Hs). exact He'.
  Qed.
End QExact.

Lemma generate_count (K : CoefRing) anti (c : K) l N s c' : generate anti c l N = Some (s, c') -> count_ops s <= length l.
Proof.
  destruct l as [|e0 l0].
  - assert (Z : count_ops (repeat None N) = 0) by (unfold count_ops; rewrite <- (app_nil_r (repeat None N)), flat_nones; reflexivity).
    unfold generate. cbn. destruct (ceqb _ c0); [|discriminate]. intro H. injection H as <- <-. rewrite Z. lia.
  - intro H. apply (fermi_new_count K anti c _ N s c'). exact H.
Qed.

Section QRun.
  Variable K : CoefRing.
  Add Ring Kq2 : (c_ring K).
  Local Open Scope coef_scope.
  Notation pop := (list (list pauli * K)).
  Variable rt : K.
  Hypothesis rt_sq : rt * rt = chalf.
  Hypothesis rt_real : cconj rt = rt.
  Variable tiny : K -> bool.
  Hypothesis exact_tiny : forall x, tiny x = true -> x = 0.

  Lemma qubit_plan_eq simp N paulis : qubit_plan simp paulis = measurement_plan simp false N paulis.
  Proof. unfold qubit_plan, measurement_plan. destruct simp as [rel colour|]; [destruct (simplify_tomography rel paulis (colour paulis)) as [[]|]|]; reflexivity. Qed.

  (** * Lists of Pauli strings *)
  Lemma pauli_values_spec simp imag Nq paulis prep values : sized simp -> (forall s, In s paulis -> length s = Nq) ->
    pauli_values rt tiny simp imag Nq paulis prep = Some values ->
    values = map (fun s => pauli_factor imag * expect Nq (pmat s) (prepared rt Nq prep)) paulis.
  Proof.
    intros Sz CL H. unfold pauli_values in H. rewrite (qubit_plan_eq simp Nq) in H.
    destruct (measurement_plan simp false Nq paulis) as [[settings mapping]|] eqn:EM; [|discriminate].
    destruct (plan_covers _ _ _ _ _ _ Sz CL EM) as [SL CV].
    destruct (run_settings rt Nq prep settings) as [counts|] eqn:ER; [|discriminate].
    apply option_seq_some in H.
    assert (X : map Some values = map Some (map (fun s => pauli_factor imag * expect Nq (pmat s) (prepared rt Nq prep)) paulis)).
    { rewrite <- H, map_map. apply map_ext_in. intros s Hs. destruct (CV s Hs) as [m [M1 [M2 M3]]]. rewrite M1.
      rewrite (run_measures K rt rt_sq rt_real tiny exact_tiny Nq prep settings counts m s SL ER M2 M3). reflexivity. }
    revert X. generalize (map (fun s => pauli_factor imag * expect Nq (pmat s) (prepared rt Nq prep)) paulis). clear.
    induction values as [|x l IH]; intros [|y l0] X; try discriminate; [reflexivity|]. injection X as -> X. f_equal. apply IH. exact X.
  Qed.
  Lemma pauli_values_returns simp imag Nq paulis prep : proper simp -> paulis <> [] -> (forall s, In s paulis -> length s = Nq) ->
    exists values, pauli_values rt tiny simp imag Nq paulis prep = Some values.
  Proof.
    intros P NE CL. unfold pauli_values. rewrite (qubit_plan_eq simp Nq).
    destruct (plan_returns simp false Nq paulis P CL) as [settings [mapping [EM _]]]. rewrite EM.
    destruct (plan_covers _ _ _ _ _ _ (proper_sized _ P) CL EM) as [SL CV].
    destruct (run_settings rt Nq prep settings) as [counts|] eqn:ER.
    - apply option_seq_all. intros s Hs. destruct (CV s Hs) as [m [M1 [M2 M3]]]. rewrite M1.
      rewrite (run_measures K rt rt_sq rt_real tiny exact_tiny Nq prep settings counts m s SL ER M2 M3). eexists. reflexivity.
    - exfalso. destruct paulis as [|s paulis]; [contradiction NE; reflexivity|]. destruct (CV s (or_introl eq_refl)) as [m [_ [M2 _]]].
      destruct settings; [destruct M2|discriminate].
  Qed.
  Lemma pauli_values_empty simp imag Nq prep : sized simp -> pauli_values rt tiny simp imag Nq [] prep = None.
  Proof.
    intro Sz. unfold pauli_values, qubit_plan. destruct simp as [rel colour|]; [|reflexivity]. cbn in Sz. specialize (Sz []). destruct (colour []); [|discriminate].
    unfold simplify_tomography. cbn. reflexivity.
  Qed.
  Lemma combine_map {A B} (f : A -> B) l : combine l (map f l) = map (fun x => (x, f x)) l.
  Proof. induction l as [|x l IH]; [reflexivity|]. cbn. f_equal. exact IH. Qed.
  Lemma pauli_operator_spec simp imag Nq paulis prep o : sized simp -> (forall s, In s paulis -> length s = Nq) ->
    pauli_operator rt tiny simp imag Nq paulis prep = Some o ->
    forall s, length s = Nq -> lin (fun k => if pauli_list_eqb s k then 1 else 0) o
       = ofnat (length (filter (pauli_list_eqb s) paulis)) * (pauli_factor imag * expect Nq (pmat s) (prepared rt Nq prep)).
  Proof.
    intros Sz CL H s Hs. unfold pauli_operator in H. destruct (pauli_values rt tiny simp imag Nq paulis prep) as [values|] eqn:EV; [|discriminate].
    rewrite (pauli_values_spec simp imag Nq paulis prep values Sz CL EV), combine_map in H. injection H as <-.
    rewrite (lin_fold_add _ _ _ pauli_list_eqb_spec). cbn [lin].
    set (f := fun s => pauli_factor imag * expect Nq (pmat s) (prepared rt Nq prep)). change (pauli_factor imag * expect Nq (pmat s) (prepared rt Nq prep)) with (f s).
    transitivity (lin (fun k => if pauli_list_eqb s k then 1 else 0) (map (fun x => (x, f x)) paulis)); [match goal with |- _ + ?x = ?y => change x with y end; ring|]. clear.
    induction paulis as [|p l IH]; [cbn; ring|]. cbn [map lin filter]. rewrite IH. destruct (pauli_list_eqb s p) eqn:E; [|ring].
    apply pauli_list_eqb_spec in E. subst p. cbn [length ofnat]. ring.
  Qed.

  Lemma pauli_operator_total simp imag Nq paulis prep o : sized simp -> (forall s, In s paulis -> length s = Nq) ->
    pauli_operator rt tiny simp imag Nq paulis prep = Some o ->
    forall s, length s = Nq -> total pstr_dec s o = ofnat (count_occ pstr_dec paulis s) * (pauli_factor imag * expect Nq (pmat s) (prepared rt Nq prep)).
  Proof.
    intros Sz CL H s Hs. assert (D : forall k, (if pstr_dec s k then true else false) = pauli_list_eqb s k).
    { intro k. destruct (pstr_dec s k) as [->|D]; [symmetry; apply pauli_list_eqb_spec; reflexivity|]. destruct (pauli_list_eqb s k) eqn:E; [|reflexivity].
      apply pauli_list_eqb_spec in E. contradiction. }
    transitivity (lin (fun k => if pauli_list_eqb s k then 1 else 0) o).
    - clear H. induction o as [|[k x] o IH]; [reflexivity|]. cbn [total lin]. rewrite IH. specialize (D k). destruct (pstr_dec s k); rewrite <- D; ring.
    - rewrite (pauli_operator_spec simp imag Nq paulis prep o Sz CL H s Hs). f_equal. f_equal.
      clear - D. induction paulis as [|p l IH]; [reflexivity|]. cbn [filter count_occ]. specialize (D p). destruct (pstr_dec p s) as [E|E], (pstr_dec s p) as [E'|E']; try congruence.
      + rewrite <- D. cbn [length]. now rewrite IH.
      + rewrite <- D. exact IH.
  Qed.

  (** * RDMs *)
  Hypothesis exact_small : forall x : K, dyadic 7 x -> small x = true -> x = 0.

  Lemma qubit_new_dyadic k (c : K) l N s x : dyadic k c -> l <> [] -> (forall e, In e l -> (snd e < N)%nat) -> qubit_new c l N = Some (s, x) -> dyadic k x.
  Proof.
    intros D Ne H E. destruct (qubit_new_spec K c l N Ne H) as [s' [x' [E' [_ [_ Hx]]]]]. rewrite E in E'. injection E' as <- <-.
    destruct Hx as [->| ->]; [exact D|apply dyadic_0].
  Qed.
  Lemma generate_qrdme_within c a real imag N op : length c = length a -> (1 <= length c <= 3)%nat -> Forall (fun x => x < N)%nat c -> Forall (fun x => x < N)%nat a ->
    generate_qrdme (listed c a) real imag N = Some op -> forall e, In e op -> dyadic 1 (snd e : K) /\ (count_ops (fst e) + 1 <= 7)%nat.
  Proof.
    intros L L3 Fc Fa. unfold generate_qrdme. destruct (real || imag); [|discriminate]. rewrite listed_rev, !rdme_letters_listed by auto.
    assert (LL : forall c a : list nat, length c = length a -> (length c <= 3)%nat -> (length (rdm_letters c a) <= 6)%nat).
    { intros c' a' E1 E2. unfold rdm_letters. rewrite app_length, !map_length, ?rev_length. lia. }
    assert (LN : forall c a : list nat, (1 <= length c)%nat -> rdm_letters c a <> []).
    { intros [|x c'] a' E1; [cbn in E1; lia|discriminate]. }
    destruct (qubit_new (half_of real + half_of imag) (rdm_letters c a) N) as [[s1 x1]|] eqn:E1; [|discriminate].
    destruct (shortens (listed c a)); [discriminate|].
    destruct (qubit_new (half_of real - half_of imag) (rdm_letters a c) N) as [[s2 x2]|] eqn:E2; [|discriminate].
    intro H. injection H as <-.
    assert (C1 : (count_ops s1 + 1 <= 7)%nat) by (apply generate_count in E1; specialize (LL c a L); lia).
    assert (C2 : (count_ops s2 + 1 <= 7)%nat) by (apply generate_count in E2; specialize (LL a c); lia).
    assert (D1 : dyadic 1 x1).
    { eapply qubit_new_dyadic; [| | |exact E1]; [|apply LN; lia|intros e; apply letters_bound; assumption]. apply dyadic_add; apply half_dyadic. }
    assert (D2 : dyadic 1 x2).
    { eapply qubit_new_dyadic; [| | |exact E2]; [|apply LN; lia|intros e; apply letters_bound; assumption].
      replace (half_of real - half_of imag : K) with (half_of real + - half_of imag : K) by ring. apply dyadic_add; [|apply dyadic_opp]; apply half_dyadic. }
    intros e He. split.
    - revert e He. change (within K 1 (op_add_string fstr_eqb (op_add_string fstr_eqb [] (s1, x1)) (s2, x2))).
      apply (within_add K 1 _ TraceProofs.fstr_eqb_spec'); [|exact D2]. apply (within_add K 1 _ TraceProofs.fstr_eqb_spec'); [intros e []|exact D1].
    - assert (Hk : In (fst e) (map fst (op_add_string fstr_eqb (op_add_string fstr_eqb [] (s1, x1)) (s2, x2)))) by (apply in_map; exact He).
      revert Hk. generalize (fst e). intros k Hk. unfold op_add_string in Hk. cbn [op_get op_set fst snd] in Hk.
      destruct (fstr_eqb s2 s1) eqn:E; cbn [op_set map fst] in Hk; try rewrite E in Hk; cbn [map fst] in Hk;
        repeat (destruct Hk as [<-|Hk]; [assumption|]); destruct Hk.
  Qed.
  Lemma build_qvalues p (value : list nat -> K) els : forall vals t, vals = map value els ->
    fold_left (fun t e => add_qelement p (fst e) (snd e) t) (combine els vals) t = fold_left (fun t r => add_qelement p r (value r) t) els t.
  Proof.
    induction els as [|r els IH]; intros vals t ->; [reflexivity|]. cbn [map combine fold_left fst snd]. apply IH. reflexivity.
  Qed.
  Lemma map_Some_inj {A} (l l' : list A) : map Some l = map Some l' -> l = l'.
  Proof. revert l'. induction l as [|x l IH]; intros [|y l'] X; try discriminate; [reflexivity|]. injection X as -> X. f_equal. apply IH. exact X. Qed.

  (** The operators of the elements, and what is known of them. *)
  Lemma qelements_ok p real imag N ops : (1 <= p <= 3)%nat -> real || imag = true ->
    option_seq (map (fun r => @generate_qrdme K r real imag (2 * N)) (rdm_elements p real imag (seq 0 N) (seq N N))) = Some ops ->
    forall op, In op ops -> (meq (2 * N) (omat (qubit_transform op)) (qop_mat op) /\ (forall e, In e (qubit_transform op) -> length (fst e) = (2 * N)%nat)) /\
      exists r, In r (rdm_elements p real imag (seq 0 N) (seq N N)) /\ generate_qrdme r real imag (2 * N) = Some op.
  Proof.
    intros Hp RI EO op Ho. apply option_seq_some in EO.
    assert (X : In (Some op) (map Some ops)) by (apply in_map; exact Ho). rewrite <- EO in X. apply in_map_iff in X. destruct X as [r [X1 X2]].
    split; [|exists r; auto]. destruct (elements_listed p N real imag Hp RI r X2) as [c [a [-> [L [L3 [F1 [F2 _]]]]]]].
    apply (qubit_transform_exact K 7 exact_small (2 * N) op 1). intros e He.
    destruct (generate_qrdme_spec K c a real imag (2 * N) (fun _ => 0) L) as [op' [E' [HL _]]]; auto.
    { intros ->. cbn in L3. lia. }
    { apply shortens_spec. exact (generate_qrdme_kept _ _ _ _ _ _ X1). }
    rewrite X1 in E'. injection E' as <-. split; [apply HL; exact He|].
    apply (generate_qrdme_within c a real imag (2 * N) op L ltac:(lia) F1 F2 X1 e He).
  Qed.
  Lemma qubit_values_spec simp p real imag N prep vals : (1 <= p <= 3)%nat -> real || imag = true -> sized simp ->
    norm2 (2 * N) (prepared rt (2 * N) prep) = 1 ->
    qubit_values rt tiny simp p real imag N prep = Some vals ->
    exists value, vals = map value (rdm_elements p real imag (seq 0 N) (seq N N)) /\
      forall r, In r (rdm_elements p real imag (seq 0 N) (seq N N)) ->
        exists op, generate_qrdme r real imag (2 * N) = Some op /\ value r = expect (2 * N) (qop_mat op) (prepared rt (2 * N) prep).
  Proof.
    intros Hp RI Sz Nm T. unfold qubit_values in *. set (els := rdm_elements p real imag (seq 0 N) (seq N N)) in *.
    destruct (option_seq (map (fun r => generate_qrdme r real imag (2 * N)) els)) as [ops|] eqn:EO; [|discriminate].
    pose proof (qelements_ok p real imag N ops Hp RI EO) as OK. set (R := (2 * N)%nat) in *.
    set (value := fun r => match generate_qrdme r real imag R with Some op => expect R (qop_mat op) (prepared rt R prep) | None => 0 end).
    apply option_seq_some in EO.
    assert (CL : forall s, In s (collect (map qubit_transform ops)) -> length s = R).
    { intros s Hs. apply collect_In in Hs. destruct Hs as [q [Hq Hs]]. apply in_map_iff in Hq. destruct Hq as [op [<- Ho]]. apply in_map_iff in Hs. destruct Hs as [e [<- He]]. apply (OK op Ho). exact He. }
    rewrite (qubit_plan_eq simp R) in T.
    match type of T with match ?x with _ => _ end = _ => destruct x as [[settings mapping]|] eqn:EM end; [|discriminate T].
    destruct (plan_covers _ _ _ _ _ _ Sz CL EM) as [SL CV].
    match type of T with match ?x with _ => _ end = _ => destruct x as [counts|] eqn:ER end; [|discriminate T].
    exists value. split.
    - apply option_seq_some in T. apply map_Some_inj. rewrite <- T, !map_map.
      transitivity (map (fun op => Some (expect R (qop_mat op) (prepared rt R prep))) ops).
      + apply map_ext_in. intros op Ho. destruct (OK op Ho) as [[M L] _].
        rewrite (element_value_spec K rt tiny R mapping counts prep (qubit_transform op) Nm L).
        * f_equal. rewrite (expect_meq K R _ _ _ M). ring.
        * intros e He. destruct (CV (fst e)) as [m [M1 [M2 M3]]].
          -- apply collect_In. exists (qubit_transform op). split; [apply in_map; exact Ho|apply in_map; exact He].
          -- exists m. split; [exact M1|]. apply (run_measures K rt rt_sq rt_real tiny exact_tiny R prep settings counts m (fst e) SL ER M2 M3).
      + transitivity (map (fun o => match o with Some op => Some (expect R (qop_mat op) (prepared rt R prep)) | None => Some 0 end) (map Some ops)); [rewrite map_map; reflexivity|].
        rewrite <- EO, map_map. apply map_ext. intro r. unfold value. destruct (generate_qrdme r real imag R); reflexivity.
    - intros r Hr. pose proof (in_map (fun r => @generate_qrdme K r real imag R) _ _ Hr) as I. rewrite EO in I. apply in_map_iff in I. destruct I as [op [I _]].
      exists op. unfold value. rewrite <- I. auto.
  Qed.

  Theorem qubit_tomography_rdm simp p real imag N nu prep t : (1 <= p <= 2)%nat -> real || imag = true -> sized simp ->
    norm2 (2 * N) (prepared rt (2 * N) prep) = 1 -> has_up (2 * N) N nu (prepared rt (2 * N) prep) ->
    qubit_tomography rt tiny simp p real imag N prep = Some t ->
    forall c a, length c = p -> length a = p -> Forall (fun x => x < 2 * N)%nat c -> Forall (fun x => x < 2 * N)%nat a ->
      t (c ++ a) = part real imag (qrdm_of (2 * N) (prepared rt (2 * N) prep) c a).
  Proof.
    intros Hp RI Sz Nm Up T c a Lc La Fc Fa. unfold qubit_tomography in T.
    destruct (qubit_values rt tiny simp p real imag N prep) as [vals|] eqn:EV; [|discriminate].
    destruct (qubit_values_spec simp p real imag N prep vals ltac:(lia) RI Sz Nm EV) as [value [E V]].
    injection T as <-. rewrite (build_qvalues p value _ vals _ E). exact (qreconstruction K p N nu _ real imag value Hp RI Up V c a Lc La Fc Fa).
  Qed.
  (** The compact vector: entry by entry. *)
  Theorem qubit_compact_values simp p real imag N prep vals : (1 <= p <= 2)%nat -> real || imag = true -> sized simp ->
    norm2 (2 * N) (prepared rt (2 * N) prep) = 1 ->
    qubit_compact rt tiny simp p real imag N prep = Some vals ->
    length vals = length (rdm_elements p real imag (seq 0 N) (seq N N)) /\
    forall k c a, nth_error (rdm_elements p real imag (seq 0 N) (seq N N)) k = Some (listed c a) -> length c = p -> length a = p ->
      Forall (fun x => x < 2 * N)%nat c -> Forall (fun x => x < 2 * N)%nat a ->
      nth_error vals k = Some (part real imag (qrdm_of (2 * N) (prepared rt (2 * N) prep) c a)).
  Proof.
    intros Hp RI Sz Nm T. destruct (qubit_values_spec simp p real imag N prep vals ltac:(lia) RI Sz Nm T) as [value [-> V]].
    split; [apply map_length|]. intros k c a Hk Lc La Fc Fa. rewrite (map_nth_error value k _ Hk). f_equal.
    destruct (V _ (nth_error_In _ _ Hk)) as [op [E ->]].
    destruct (generate_qrdme_spec K c a real imag (2 * N) (prepared rt (2 * N) prep)) as [op' [E' [_ X]]]; auto; [congruence|destruct c; [cbn in Lc; lia|discriminate]|apply shortens_spec; exact (generate_qrdme_kept _ _ _ _ _ _ E)|].
    rewrite E in E'. injection E' as <-. exact X.
  Qed.
End QRun.
