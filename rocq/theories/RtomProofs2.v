(** The array of the symmetry projected tomography. *)
From Coq Require Import Bool List Arith ZArith Lia Ring Permutation Sorted ListDec.
From Verif Require Import Coeff MatSpec MatLemmas OpSpec FockSpec PauliModel PauliProofs OperatorModel OperatorProofs TransformModel TwoTerm JWProofs
  CircuitSpec CircuitModel CircuitProofs CircuitProofs2 TomoModel TomoProofs CountsProofs RdmModel RdmSpec RdmEnum RdmPerm RdmFock RdmBuild RdmProofs HamModel ItModel ItProofs FermiModel
  Sqrt2 SymSpec SymModel SymProofs4 SymProofs5 SymProofs6 PlanModel PlanSpec PlanProofs PlanProofs2 RtomModel RtomProofs.
Import ListNotations.

Section Run.
  Variable K : CoefRing.
  Add Ring KRing : (c_ring K).
  Local Open Scope coef_scope.
  Notation pop := (list (list pauli * K)).
  Variable rt : K.
  Hypothesis rt_sq : rt * rt = chalf.
  Hypothesis rt_real : cconj rt = rt.
  Variable tiny_p tiny : K -> bool.
  Hypothesis exact_tiny : forall x, tiny_p x = true -> x = 0.
  Hypothesis tiny_unit : forall z, tiny (ipow z) = false.
  Variable rank_ok : list (list K) -> bool.
  Variable solve : list (list K) -> list K -> option (list K).

  Notation gen N real imag := (fun r => generate_sp_rdme tiny rank_ok solve r real imag (fun q => q <? N)%nat (2 * N)).

  Lemma reduced_values simp p real imag N prep t : sized simp -> norm2 (2 * N) (prepared rt (2 * N) prep) = 1 ->
    (forall r Q, In r (rdm_elements p real imag (seq 0 N) (seq N N)) -> gen N real imag r = Some Q -> forall e, In e Q -> length (fst e) = (2 * N)%nat) ->
    reduced_tomography rt tiny_p tiny rank_ok solve simp p real imag N prep = Some t ->
    (forall r, In r (rdm_elements p real imag (seq 0 N) (seq N N)) -> exists Q, gen N real imag r = Some Q) /\
    t = build_rdm p (rdm_elements p real imag (seq 0 N) (seq N N))
          (fun r => match gen N real imag r with Some Q => expect (2 * N) (omat Q) (prepared rt (2 * N) prep) | None => 0 end).
  Proof.
    intros Sz Nm HL T. unfold reduced_tomography in T. set (els := rdm_elements p real imag (seq 0 N) (seq N N)) in *. set (R := (2 * N)%nat) in *.
    destruct (option_seq (map (fun r => generate_sp_rdme tiny rank_ok solve r real imag (fun q => q <? N)%nat R) els)) as [qops|] eqn:EO; [|discriminate].
    apply option_seq_some in EO.
    assert (OP : forall op, In op qops -> exists r, In r els /\ gen N real imag r = Some op).
    { intros op Ho. assert (X : In (Some op) (map Some qops)) by (apply in_map; exact Ho). rewrite <- EO in X. apply in_map_iff in X. destruct X as [r [X1 X2]]. exists r. auto. }
    assert (LN : forall op, In op qops -> forall e, In e op -> length (fst e) = R).
    { intros op Ho. destruct (OP op Ho) as [r [H1 H2]]. exact (HL r op H1 H2). }
    assert (CL : forall s, In s (collect qops) -> length s = R).
    { intros s Hs. apply collect_In in Hs. destruct Hs as [q [Hq Hs]]. apply in_map_iff in Hs. destruct Hs as [e [<- He]]. exact (LN q Hq e He). }
    match type of T with match ?x with _ => _ end = _ => destruct x as [[settings mapping]|] eqn:EM end; [|discriminate T].
    destruct (plan_covers _ _ _ _ _ _ Sz CL EM) as [SL CV].
    match type of T with match ?x with _ => _ end = _ => destruct x as [counts|] eqn:ER end; [|discriminate T].
    split.
    { intros r Hr. pose proof (in_map (fun r => generate_sp_rdme tiny rank_ok solve r real imag (fun q => q <? N)%nat R) _ _ Hr) as I. rewrite EO in I.
      apply in_map_iff in I. destruct I as [Q [I _]]. exists Q. symmetry. exact I. }
    match type of T with match ?x with _ => _ end = _ => replace x with (Some (map (fun op => expect R (omat op) (prepared rt R prep)) qops)) in T end.
    2:{ symmetry. apply option_seq_some. rewrite !map_map. apply map_ext_in. intros op Ho.
        rewrite (element_value_spec K rt tiny_p R mapping counts prep op Nm (LN op Ho)).
        - f_equal. ring.
        - intros e He. destruct (CV (fst e)) as [m [M1 [M2 M3]]].
          + apply collect_In. exists op. split; [exact Ho|apply in_map; exact He].
          + exists m. split; [exact M1|]. apply (run_measures K rt rt_sq rt_real tiny_p exact_tiny R prep settings counts m (fst e) SL ER M2 M3). }
    injection T as <-. unfold build_rdm. apply build_values.
    match goal with |- _ = map ?v els => assert (X : map Some (map (fun op => expect R (omat op) (prepared rt R prep)) qops) = map Some (map v els)) end.
    { rewrite !map_map. transitivity (map (fun o => match o with Some op => Some (expect R (omat op) (prepared rt R prep)) | None => Some 0 end) (map Some qops)); [rewrite map_map; reflexivity|].
      rewrite <- EO, map_map. apply map_ext. intro r. destruct (generate_sp_rdme tiny rank_ok solve r real imag (fun q => q <? N)%nat R); reflexivity. }
    revert X. match goal with |- _ -> _ = ?m => generalize m end. generalize (map (fun op => expect R (omat op) (prepared rt R prep)) qops). clear.
    induction l as [|x l IH]; intros [|y l0] X; try discriminate; [reflexivity|]. injection X as -> X. f_equal. apply IH. exact X.
  Qed.

  Hypothesis solver : solves solve.

  (** Every entry of the array, up to the terms below the thresholds. *)
  Theorem reduced_rdm simp p real imag N Ne nu prep t : (1 <= p <= 3)%nat -> real || imag = true -> sized simp ->
    small (cpow (chalf : K) (S (2 * p))) = false ->
    norm2 (2 * N) (prepared rt (2 * N) prep) = 1 -> has_particles (2 * N) Ne (prepared rt (2 * N) prep) -> has_up (2 * N) N nu (prepared rt (2 * N) prep) ->
    reduced_tomography rt tiny_p tiny rank_ok solve simp p real imag N prep = Some t ->
    forall c a, length c = p -> length a = p -> Forall (fun x => x < 2 * N)%nat c -> Forall (fun x => x < 2 * N)%nat a ->
      exists D : pop, (forall e, In e D -> length (fst e) = (2 * N)%nat /\ (small (snd e) = true \/ tiny (snd e) = true)) /\
        exists w, one_value K (expect (2 * N) (omat D) (prepared rt (2 * N) prep)) w /\
          t (c ++ a) + w = part real imag (rdm_of (2 * N) (prepared rt (2 * N) prep) c a).
  Proof.
    intros Hp RI Sz Sm Nm Pa Up T c a Lc La Fc Fa. set (psi := prepared rt (2 * N) prep) in *.
    set (els := rdm_elements p real imag (seq 0 N) (seq N N)) in *.
    assert (On : has_on (2 * N) (fun q => q <? N)%nat nu psi).
    { intros x Lx Hx. apply Up; [exact Lx|]. rewrite <- occ_on_firstn. exact Hx. }
    destruct (elements_good p N real imag Hp RI) as [G1 [G2 G3]]. fold els in G1, G2, G3.
    assert (SP : forall c a Q, element p N c a -> gen N real imag (listed c a) = Some Q -> exists D : opv K (list pauli),
      (forall e, In e D -> small (snd e) = true \/ tiny (snd e) = true) /\ (forall e, In e (Q ++ D) -> length (fst e) = (2 * N)%nat) /\
      expect (2 * N) (omat Q) psi + expect (2 * N) (omat D) psi = part real imag (rdm_of (2 * N) psi c a)).
    { intros c' a' Q [_ [_ [L1 [L2 [F1 [F2 UC]]]]]] HQ.
      exact (sp_rdme_spec K tiny tiny_unit rank_ok solve c' a' real imag (2 * N) p _ Ne nu psi Q solver L1 L2 F1 F2 Sm UC Pa On HQ). }
    destruct (reduced_values simp p real imag N prep t Sz Nm) as [Ex ->]; [|exact T|].
    { intros r Q Hr HQ e He. destruct (G1 r Hr) as [c' [a' [El ->]]]. destruct (SP c' a' Q El HQ) as [D [_ [H _]]]. apply H. apply in_or_app. left. exact He. }
    fold els psi in Ex |- *.
    set (value := fun r => match gen N real imag r with Some Q => expect (2 * N) (omat Q) psi | None => 0 end).
    set (target := fun r => part real imag (rdm_of (2 * N) psi (firstn p r) (rev (skipn p r)))).
    set (err := fun r => target r - value r).
    assert (TG : build_rdm p els target (c ++ a) = part real imag (rdm_of (2 * N) psi c a)).
    { apply (reconstruction K p N nu psi real imag target Hp RI Up); auto. intros r Hr. destruct (Ex r Hr) as [Q HQ].
      destruct (G1 r Hr) as [c' [a' [[S1 [S2 [L1 [L2 [F1 [F2 UC]]]]]] ->]]].
      assert (Sh : shortens (listed c' a') = false).
      { unfold generate_sp_rdme in HQ. destruct (generate_rdme (listed c' a') real imag (2 * N)) as [op|] eqn:G; [|discriminate]. exact (generate_rdme_kept K _ _ _ _ _ G). }
      destruct (generate_rdme_spec K c' a' real imag (2 * N) psi) as [op [E' X]]; auto; [congruence|now apply shortens_spec|].
      exists op. split; [exact E'|]. rewrite X. unfold target, listed. rewrite (firstn_app_l c' _ p L1), (skipn_app_l c' _ p L1), rev_involutive. reflexivity. }
    assert (ER : forall r, In r els -> exists D : pop, (forall e, In e D -> length (fst e) = (2 * N)%nat /\ (small (snd e) = true \/ tiny (snd e) = true)) /\
      err r = expect (2 * N) (omat D) psi).
    { intros r Hr. destruct (Ex r Hr) as [Q HQ]. destruct (G1 r Hr) as [c' [a' [El ->]]]. pose proof El as [_ [_ [L1 _]]].
      destruct (SP c' a' Q El HQ) as [D [D1 [D2 D3]]]. exists D. split.
      - intros e He. split; [apply D2; apply in_or_app; right; exact He|apply D1; exact He].
      - unfold err, value, target. cbv beta. rewrite HQ. unfold listed. rewrite (firstn_app_l c' _ p L1), (skipn_app_l c' _ p L1), rev_involutive, <- D3. ring. }
    pose proof (build_add K p N els value err target c a ltac:(lia) G1 Lc La) as BA. rewrite TG in BA.
    assert (X : build_rdm p els value (c ++ a) + build_rdm p els err (c ++ a) = part real imag (rdm_of (2 * N) psi c a)).
    { apply BA. intros r _. unfold err. ring. }
    destruct (build_single K p N els err c a ltac:(lia) G1 G2 G3 Lc La) as [Z|[r [Hr V]]].
    - exists []. split; [intros e []|]. exists 0. split.
      + left. symmetry. exact (expect_lin K (2 * N) [] psi).
      + rewrite Z in X. exact X.
    - destruct (ER r Hr) as [D [D1 D2]]. exists D. split; [exact D1|]. exists (build_rdm p els err (c ++ a)). split; [rewrite <- D2; exact V|exact X].
  Qed.

  (** With exact comparisons the array is the RDM. *)
  Theorem reduced_rdm_exact simp p real imag N Ne nu prep t : (forall x : K, small x = true -> x = 0) -> (forall x, tiny x = true -> x = 0) ->
    (1 <= p <= 3)%nat -> real || imag = true -> sized simp ->
    small (cpow (chalf : K) (S (2 * p))) = false ->
    norm2 (2 * N) (prepared rt (2 * N) prep) = 1 -> has_particles (2 * N) Ne (prepared rt (2 * N) prep) -> has_up (2 * N) N nu (prepared rt (2 * N) prep) ->
    reduced_tomography rt tiny_p tiny rank_ok solve simp p real imag N prep = Some t ->
    forall c a, length c = p -> length a = p -> Forall (fun x => x < 2 * N)%nat c -> Forall (fun x => x < 2 * N)%nat a ->
      t (c ++ a) = part real imag (rdm_of (2 * N) (prepared rt (2 * N) prep) c a).
  Proof.
    intros Zs Zt Hp RI Sz Sm Nm Pa Up T c a Lc La Fc Fa.
    destruct (reduced_rdm simp p real imag N Ne nu prep t Hp RI Sz Sm Nm Pa Up T c a Lc La Fc Fa) as [D [H1 [w [H2 <-]]]].
    assert (Z : expect (2 * N) (omat D) (prepared rt (2 * N) prep) = 0).
    { clear H2. rewrite expect_lin. induction D as [|[s x] D IH]; [reflexivity|]. cbn [lin]. rewrite IH.
      - destruct (H1 (s, x) (or_introl eq_refl)) as [_ [E|E]]; cbn [snd] in E; [rewrite (Zs _ E)|rewrite (Zt _ E)]; ring.
      - intros e He. apply H1. right. exact He. }
    rewrite Z in H2. destruct H2 as [->|[->|[->| ->]]]; rewrite ?cconj_0; ring.
  Qed.

  (** The run returns when the projection of every element does. *)
  Theorem reduced_returns simp p imag N prep : (1 <= p <= 3)%nat -> proper simp -> small (cpow (chalf : K) (S (2 * p))) = false ->
    (forall r, In r (rdm_elements p true imag (seq 0 N) (seq N N)) -> generate_sp_rdme tiny rank_ok solve r true imag (fun q => q <? N)%nat (2 * N) <> None) ->
    exists t, reduced_tomography rt tiny_p tiny rank_ok solve simp p true imag N prep = Some t.
  Proof.
    intros Hp1 P Sm All. assert (RI : true || imag = true) by reflexivity.
    unfold reduced_tomography. set (els := rdm_elements p true imag (seq 0 N) (seq N N)) in *. set (R := (2 * N)%nat) in *.
    destruct (elements_good p N true imag Hp1 RI) as [G1 _]. fold els in G1.
    destruct (option_seq_all (fun r => generate_sp_rdme tiny rank_ok solve r true imag (fun q => q <? N)%nat R) els) as [qops EO].
    { intros r Hr. specialize (All r Hr). fold R in All.
      destruct (generate_sp_rdme tiny rank_ok solve r true imag (fun q => q <? N)%nat R) as [Q|]; [exists Q; reflexivity|contradiction All; reflexivity]. }
    rewrite EO. apply option_seq_some in EO.
    assert (LN : forall op, In op qops -> forall e, In e op -> length (fst e) = R).
    { intros op Ho. assert (X : In (Some op) (map Some qops)) by (apply in_map; exact Ho). rewrite <- EO in X. apply in_map_iff in X. destruct X as [r [X1 X2]].
      destruct (G1 r X2) as [c [a [[S1 [S2 [L1 [L2 [F1 [F2 UC]]]]]] ->]]]. intros e He.
      destruct (sp_rdme_spec K tiny tiny_unit rank_ok solve c a true imag R p (fun q => q <? N)%nat 0 0 (fun _ => 0) op solver L1 L2 F1 F2 Sm UC ltac:(intros ? ? ?; reflexivity) ltac:(intros ? ? ?; reflexivity) X1) as [D [_ [H _]]].
      apply H. apply in_or_app. left. exact He. }
    assert (CL : forall s, In s (collect qops) -> length s = R).
    { intros s Hs. apply collect_In in Hs. destruct Hs as [q [Hq Hs]]. apply in_map_iff in Hs. destruct Hs as [e [<- He]]. exact (LN q Hq e He). }
    destruct (plan_returns simp true R (collect qops) P CL) as [settings [mapping [EM NE]]]. match goal with |- exists _, match ?x with _ => _ end = _ => replace x with (Some (settings, mapping)) by (symmetry; exact EM) end.
    destruct (plan_covers _ _ _ _ _ _ (proper_sized _ P) CL EM) as [SL CV].
    destruct settings as [|c0' rest]; [contradiction (NE eq_refl); reflexivity|].
    destruct (run_settings rt R prep (c0' :: rest)) as [counts|] eqn:ER; [|discriminate].
    destruct (option_seq_all (fun op => element_value tiny_p R mapping counts op 0) qops) as [vals EV].
    { intros op Ho.
      assert (HM : forall e, In e op -> exists m z, pget (fst e) mapping = Some m /\ it_measure tiny_p R counts m (fst e) = Some z).
      { intros e He. destruct (CV (fst e)) as [m [M1 [M2 M3]]].
        - apply collect_In. exists op. split; [exact Ho|apply in_map; exact He].
        - exists m. eexists. split; [exact M1|]. apply (run_measures K rt rt_sq rt_real tiny_p exact_tiny R prep (c0' :: rest) counts m (fst e) SL ER M2 M3). }
      generalize (0 : K). revert HM. clear. induction op as [|[s c] o IH]; intros HM t; [exists t; reflexivity|].
      cbn [element_value]. assert (IH' := IH (fun e He => HM e (or_intror He))). destruct (forallb (fun p => pauli_eqb p PI) s); [apply IH'|].
      destruct (HM (s, c) (or_introl eq_refl)) as [m [z [M1 M2]]]. cbn [fst] in M1, M2. rewrite M1, M2. apply IH'. }
    match goal with |- exists _, match ?x with _ => _ end = _ => replace x with (Some vals) by (symmetry; exact EV) end. eexists. reflexivity.
  Qed.
End Run.

(** The 1-RDM with real=True: never. *)
Lemma reduced_one_body (K : CoefRing) (rt : K) (tiny_p tiny : K -> bool) rank_ok solve simp imag N prep : (0 < N)%nat ->
  reduced_tomography rt tiny_p tiny rank_ok solve simp 1 true imag N prep = None.
Proof.
  intro H. unfold reduced_tomography. set (els := rdm_elements 1 true imag (seq 0 N) (seq N N)).
  destruct (option_seq (map (fun r => generate_sp_rdme tiny rank_ok solve r true imag (fun q => q <? N) (2 * N)) els)) as [ops|] eqn:EO; [|reflexivity]. exfalso. apply option_seq_some in EO.
  assert (I : In (listed [0%nat] [0%nat]) els).
  { destruct (enumeration 1 N true imag ltac:(lia)) as [En _]. destruct (En (or_introl eq_refl)) as [X _].
    assert (E : element 1 N [0%nat] [0%nat]) by (repeat split; repeat constructor; lia). destruct (X _ _ E); assumption. }
  pose proof (in_map (fun r => generate_sp_rdme tiny rank_ok solve r true imag (fun q => q <? N) (2 * N)) _ _ I) as J. rewrite EO in J. apply in_map_iff in J. destruct J as [op [J _]].
  cbv beta in J. rewrite sp_diagonal in J. discriminate J.
Qed.
