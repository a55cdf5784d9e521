(** Proofs about the density-matrix mode of an ACSE run. *)
From Coq Require Import Bool List Arith ZArith Lia.
From Verif Require Import Coeff MatSpec MatLemmas CircuitSpec CircuitProofs OperatorModel AcseSpec AcseModel AcseProofs ItModel ItProofs RhoModel RhoSpec.
Import ListNotations.

Section RhoProofs.
  Variable K : CoefRing.
  Variable key : Type.
  Variable keqb : key -> key -> bool.
  Notation layer := (opv K key).
  Variable rt : K.
  Variable N : nat.
  Variable G : layer -> list (gate K).
  Variable prep : list (gate K).
  Variable rho0 : mat K.
  Notation full F := (full_state rt N G prep rho0 F).

  (** More gates on a state. *)
  Lemma step_gates (g h : list (gate K)) (r : mat K) :
    meq N (it_step N (cmat rt N h) (it_step N (cmat rt N g) r)) (it_step N (cmat rt N (g ++ h)) r).
  Proof. eapply meq_trans; [apply step_step|]. apply it_step_meq; [apply meq_sym, cmat_app|apply meq_refl]. Qed.
  Lemma full_more F H (r : mat K) : meq N r (full F) -> meq N (it_step N (cmat rt N (flat_map G H)) r) (full (F ++ H)).
  Proof.
    intro E. eapply meq_trans; [apply it_step_meq; [apply meq_refl|exact E]|]. unfold full_state.
    fold (it_step N (cmat rt N (prep ++ concat (map G F))) rho0). eapply meq_trans; [apply step_gates|].
    rewrite <- app_assoc, flat_map_concat_map, <- concat_app, <- map_app. apply meq_refl.
  Qed.

  Lemma proper_tidy (Ps : list layer) : Forall proper Ps -> is_tidy Ps.
  Proof. intros H a I. rewrite Forall_forall in H. apply H. exact I. Qed.
  Lemma closed_add (A : list layer) P : is_tidy A -> proper P -> ans_add keqb 1 A P = A ++ [P].
  Proof.
    intros T H. destruct A as [|a A]; [reflexivity|]. unfold ans_add. cbn [Z.eqb Pos.eqb]. rewrite tidy_clean. apply tidy_id.
    intros b I. apply in_app_or in I. destruct I as [I|[<- |[]]]; [apply T; exact I|exact H].
  Qed.

  Lemma full_snoc closed (Ps : list layer) P : full_ansatz keqb closed (Ps ++ [P]) = ans_add keqb closed (full_ansatz keqb closed Ps) P.
  Proof. unfold full_ansatz. rewrite fold_left_app. reflexivity. Qed.
  Theorem closed_run (Ps : list layer) : Forall proper Ps ->
    let s := rho_run keqb rt N G 1 Ps (rho_build rt N G 1 prep rho0 []) in
    rs_psi s = Ps /\ full_ansatz keqb 1 Ps = Ps /\
    meq N (rs_rho s) (full Ps) /\ meq N (rs_energy s) (full Ps) /\ meq N (rs_resid s) (full Ps).
  Proof.
    induction Ps as [|P Ps IH] using rev_ind; intro H; cbv zeta.
    - unfold rho_run, full_ansatz. cbn [fold_left]. split; [reflexivity|split; [reflexivity|]].
      unfold rho_build, rho_apply, rho_gates. cbn [ans_p Z.eqb Pos.eqb rev rs_rho rs_energy rs_resid cmat].
      assert (E : meq N (it_step N (cmat rt N (prep ++ [])) rho0) (full [])) by apply meq_refl.
      split; [exact E|split; [exact E|]]. exact (full_more [] [] _ E).
    - apply Forall_app in H. destruct H as [H HP]. inversion_clear HP as [|? ? Hp _]. specialize (IH H). cbv zeta in IH.
      rewrite full_snoc. unfold rho_run in *. rewrite fold_left_app. cbn [fold_left].
      set (s := fold_left (rho_step keqb rt N G 1) Ps _) in *. destruct IH as [E1 [E2 [E3 _]]]. rewrite E2.
      unfold rho_step. cbn [ans_p Z.eqb Pos.eqb]. rewrite E1, closed_add by (try apply proper_tidy; assumption).
      cbn [rs_psi rs_rho rs_energy rs_resid]. split; [reflexivity|split; [reflexivity|]].
      assert (E : meq N (rho_apply rt N G 0 (Ps ++ [P]) (rs_rho s)) (full (Ps ++ [P]))).
      { unfold rho_apply, rho_gates. rewrite rev_app_distr. cbn [rev app].
        replace (G P) with (flat_map G [P]) by (cbn [flat_map]; apply app_nil_r). apply full_more. exact E3. }
      repeat split; exact E.
  Qed.

  (** Adding to an ansatz whose older layers are out of reach. *)
  Lemma find_ext_in {A} (f g : A -> bool) (l : list A) : (forall x, In x l -> f x = g x) -> find f l = find g l.
  Proof.
    induction l as [|x l IH]; intro H; [reflexivity|]. cbn [find]. rewrite (H x (or_introl eq_refl)).
    rewrite IH; [reflexivity|]. intros y Hy. apply H. right. exact Hy.
  Qed.
  Lemma layer_add_app i e (B X : list layer) : layer_add keqb (length B + i) e (B ++ X) = B ++ layer_add keqb i e X.
  Proof. induction B as [|b B IH]; [reflexivity|]. cbn [length plus app layer_add]. rewrite IH. reflexivity. Qed.
  Lemma string_app m (B S0 X : list layer) n e : m <= length S0 ->
    ans_string keqb m (B ++ S0) (B ++ X, n) e =
    (B ++ fst (ans_string keqb m S0 (X, n) e), snd (ans_string keqb m S0 (X, n) e)).
  Proof.
    intro H. unfold ans_string. cbn [fst snd].
    rewrite (find_ext_in _ (fun d => layer_has keqb (fst e) (nth d (rev S0) []))).
    2:{ intros d Hd. apply in_seq in Hd. rewrite rev_app_distr, app_nth1 by (rewrite rev_length; lia). reflexivity. }
    destruct (find _ (seq 0 m)) as [d|] eqn:F; cbn [fst snd]; [|reflexivity].
    apply find_some in F. destruct F as [F _]. apply in_seq in F.
    rewrite app_length. replace (length B + length S0 - 1 - d) with (length B + (length S0 - 1 - d)) by lia.
    rewrite layer_add_app. reflexivity.
  Qed.
  Lemma fold_string_app m (B S0 : list layer) P : m <= length S0 -> forall X n,
    fold_left (ans_string keqb m (B ++ S0)) P (B ++ X, n) =
    let st := fold_left (ans_string keqb m S0) P (X, n) in (B ++ fst st, snd st).
  Proof.
    intro H. induction P as [|e P IH]; intros X n; [reflexivity|]. cbn [fold_left]. rewrite string_app by exact H.
    rewrite IH. destruct (ans_string keqb m S0 (X, n) e) as [X' n']. reflexivity.
  Qed.
  Lemma clean_app (B : list layer) (T : is_tidy B) (st : list layer * layer) :
    ans_clean (match snd st with [] => B ++ fst st | n => (B ++ fst st) ++ [n] end) =
    B ++ ans_clean (match snd st with [] => fst st | n => fst st ++ [n] end).
  Proof.
    rewrite !tidy_clean. destruct (snd st) as [|e n]; [|rewrite <- app_assoc]; (etransitivity; [apply tidy_app|]; f_equal; apply tidy_id; exact T).
  Qed.
  Lemma add_app k (B S0 : list layer) P : 0 < k -> is_tidy B -> length S0 = k ->
    ans_add keqb (- Z.of_nat k) (B ++ S0) P = B ++ ans_add keqb (- Z.of_nat k) S0 P.
  Proof.
    intros Hk T L. destruct B as [|b B]; [reflexivity|]. destruct S0 as [|s S0]; [cbn in L; lia|].
    set (c := (- Z.of_nat k)%Z). unfold ans_add. cbn [app]. change (b :: B ++ s :: S0) with ((b :: B) ++ s :: S0).
    set (BB := b :: B) in *. set (SS := s :: S0) in *.
    assert (c1 : (c =? 1)%Z = false) by (apply Z.eqb_neq; lia). assert (c2 : (c =? 0)%Z = false) by (apply Z.eqb_neq; lia).
    rewrite c1. unfold ans_depth. rewrite c1, c2. replace (Z.to_nat (- c)) with k by lia.
    rewrite app_length, L. rewrite !Nat.min_l by lia. rewrite fold_string_app by lia. cbv zeta. cbn [fst snd].
    exact (clean_app BB T _).
  Qed.
  Lemma fold_string_length m (S0 : list layer) P : forall X n, length (fst (fold_left (ans_string keqb m S0) P (X, n))) = length X.
  Proof.
    induction P as [|e P IH]; intros X n; [reflexivity|]. cbn [fold_left].
    assert (L : length (fst (ans_string keqb m S0 (X, n) e)) = length X).
    { unfold ans_string. destruct (find _ _); cbn [fst]; [apply layer_add_length|reflexivity]. }
    destruct (ans_string keqb m S0 (X, n) e) as [X' n']. rewrite IH. exact L.
  Qed.
  Lemma clean_length (A : list layer) : length (ans_clean A) <= length A.
  Proof.
    unfold ans_clean. rewrite <- (map_length op_clean A). generalize (map op_clean A). intro l.
    induction l as [|x l IH]; [cbn; lia|]. cbn [filter length]. destruct x; cbn [length]; lia.
  Qed.
  Lemma add_length closed (A : list layer) P : length (ans_add keqb closed A P) <= S (length A).
  Proof.
    destruct A as [|a A]; [cbn; lia|]. unfold ans_add. eapply Nat.le_trans; [apply clean_length|].
    destruct (closed =? 1)%Z; [rewrite app_length; cbn; lia|]. cbv zeta.
    assert (X : forall st : list layer * layer, length (fst st) = length (a :: A) ->
      length (match snd st with [] => fst st | n => fst st ++ [n] end) <= S (length (a :: A))).
    { intros st L. destruct (snd st); [lia|]. rewrite app_length, L. cbn [length]. lia. }
    apply X. apply fold_string_length.
  Qed.

  Lemma growing_init closed (Ps : list layer) P : growing keqb closed (Ps ++ [P]) -> growing keqb closed Ps.
  Proof. intros H Q R P' E. apply (H Q (R ++ [P]) P'). rewrite E, <- app_assoc. reflexivity. Qed.

  Lemma limited_invariant k (Ps : list layer) : 0 < k -> growing keqb (- Z.of_nat k) Ps ->
    let s := rho_run keqb rt N G (- Z.of_nat k) Ps (rho_build rt N G (- Z.of_nat k) prep rho0 []) in
    let F := full_ansatz keqb (- Z.of_nat k) Ps in
    exists B, F = B ++ rs_psi s /\ is_tidy B /\ length (rs_psi s) <= k /\ (B = [] \/ length (rs_psi s) = k) /\
      meq N (rs_rho s) (full B) /\ meq N (rs_energy s) (full F) /\ meq N (rs_resid s) (full F).
  Proof.
    intro Hk. set (c := (- Z.of_nat k)%Z).
    assert (Hp : ans_p c = k).
    { unfold ans_p. replace (c =? 1)%Z with false by (symmetry; apply Z.eqb_neq; lia).
      replace (c =? 0)%Z with false by (symmetry; apply Z.eqb_neq; lia). lia. }
    induction Ps as [|P Ps IH] using rev_ind; intro H; cbv zeta.
    - exists []. unfold rho_run, full_ansatz. cbn [fold_left].
      unfold rho_build, rho_apply. rewrite Hp. cbn [rs_psi rs_rho rs_energy rs_resid].
      assert (E : meq N (it_step N (cmat rt N (prep ++ rho_gates G k [])) rho0) (full [])).
      { destruct k as [|k']; [lia|]. apply meq_refl. }
      split; [reflexivity|]. split; [intros a []|]. split; [cbn; lia|]. split; [left; reflexivity|].
      split; [exact E|]. split; [exact E|]. destruct k as [|k']; [lia|]. exact (full_more [] [] _ E).
    - pose proof (H Ps [] P eq_refl) as Hl. specialize (IH (growing_init _ _ _ H)). cbv zeta in IH.
      rewrite full_snoc in Hl |- *. unfold rho_run in *. rewrite fold_left_app. cbn [fold_left].
      set (s := fold_left (rho_step keqb rt N G c) Ps _) in *. set (F := full_ansatz keqb c Ps) in *.
      destruct IH as [B [E1 [T [L [D [E3 _]]]]]].
      assert (A : ans_add keqb c F P = B ++ ans_add keqb c (rs_psi s) P).
      { rewrite E1. destruct D as [-> |D]; [reflexivity|]. apply add_app; assumption. }
      unfold rho_step. rewrite Hp. destruct k as [|k'] eqn:Ek; [lia|]. rewrite <- Ek in *.
      set (psi := ans_add keqb c (rs_psi s) P) in *. rewrite A in *.
      assert (E : meq N (rho_apply rt N G k psi (rs_rho s)) (full (B ++ psi))).
      { unfold rho_apply, rho_gates. rewrite Ek. apply full_more. exact E3. }
      pose proof (add_length c (rs_psi s) P) as L1. fold psi in L1.
      assert (Hnil : B = [] \/ length psi = k \/ length psi = S k).
      { destruct D as [-> |D]; [left; reflexivity|right]. rewrite E1, !app_length in Hl. lia. }
      destruct psi as [|a psi'] eqn:Epsi.
      { cbn [rs_psi rs_rho rs_energy rs_resid length] in *. exists B. split; [reflexivity|]. split; [exact T|]. split; [lia|].
        split; [destruct Hnil as [->|[X|X]]; [left; reflexivity|lia|lia]|]. split; [exact E3|split; exact E]. }
      rewrite <- Epsi in *. destruct (k <? length psi) eqn:Lt; cbn [rs_psi rs_rho rs_energy rs_resid].
      + apply Nat.ltb_lt in Lt. exists (B ++ [a]). rewrite <- app_assoc. cbn [app]. rewrite <- Epsi. split; [reflexivity|].
        assert (L2 : length psi = S (length psi')) by (rewrite Epsi; reflexivity).
        split; [|split; [lia|split; [right; lia|split; [|split; exact E]]]].
        * intros b I. apply in_app_or in I. destruct I as [I|[<- |[]]]; [apply T; exact I|].
          assert (Hne : rs_psi s <> []). { intro X. rewrite X in L1. cbn [length] in L1. lia. }
          apply (add_tidy K key keqb c (rs_psi s) P Hne). fold psi. rewrite Epsi. left. reflexivity.
        * replace (G a) with (flat_map G [a]) by (cbn [flat_map]; apply app_nil_r). apply full_more. exact E3.
      + apply Nat.ltb_ge in Lt. exists B. split; [reflexivity|]. split; [exact T|]. split; [lia|].
        split; [destruct Hnil as [->|[X|X]]; [left; reflexivity|right; exact X|lia]|]. split; [exact E3|split; exact E].
  Qed.

  Theorem limited_run k (Ps : list layer) : 0 < k -> growing keqb (- Z.of_nat k) Ps ->
    let s := rho_run keqb rt N G (- Z.of_nat k) Ps (rho_build rt N G (- Z.of_nat k) prep rho0 []) in
    let F := full_ansatz keqb (- Z.of_nat k) Ps in
    meq N (rs_energy s) (full F) /\ meq N (rs_resid s) (full F) /\ length (rs_psi s) <= k /\ exists B, F = B ++ rs_psi s.
  Proof.
    intros Hk H s F. destruct (limited_invariant k Ps Hk H) as [B [E1 [_ [L [_ [_ [E2 E3]]]]]]].
    split; [exact E2|split; [exact E3|split; [exact L|exists B; exact E1]]].
  Qed.
End RhoProofs.
