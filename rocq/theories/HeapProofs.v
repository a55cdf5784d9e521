(** Proofs about the object-level model of Operator. *)
From Coq Require Import Bool List Arith Lia Ring.
From Verif Require Import Coeff OpSpec OperatorModel OperatorProofs OpTotal OperatorHeap HeapSpec.
Import ListNotations.

Section HeapProofs.
  Variable K : CoefRing.
  Variable key : Type.
  Variable keqb : key -> key -> bool.
  Variable keqb_spec : forall a b, keqb a b = true <-> a = b.
  Variable smul : key * K -> key * K -> key * K.
  Add Ring KRing : (c_ring K).
  Local Open Scope coef_scope.
  Notation heap := (list (key * K)).
  Notation dict := (list (key * nat)).
  Notation state := (state K key).
  Notation opv := (opv K key).

  (** * Invariant *)
  Definition dinv (h : heap) (d : dict) : Prop :=
    NoDup (map fst d) /\ forall k a, In (k, a) d -> exists c, nth_error h a = Some (k, c).
  Definition sinv (st : state) : Prop := forall d, In d (ops st) -> dinv (hp st) d.

  Definition cof (h : heap) (a : nat) : K := match nth_error h a with Some (_, c) => c | None => 0 end.
  Definition val (h : heap) (d : dict) : opv := map (fun e => (fst e, cof h (snd e))) d.

  Lemma deref_val h d : dinv h d -> deref h d = val h d.
  Proof.
    intros [_ H]. unfold deref, val. induction d as [|[k a] d IH]; [reflexivity|]. cbn [flat_map map fst snd].
    destruct (H k a (or_introl eq_refl)) as [c E]. unfold cof at 1. rewrite E. cbn. f_equal. apply IH.
    intros k' a' Hin. apply H. right. exact Hin.
  Qed.

  Lemma keys_val h d : map fst (val h d) = map fst d.
  Proof. unfold val. rewrite map_map. reflexivity. Qed.

  Lemma dinv_ext h h' d : dinv h d -> (forall a x, nth_error h a = Some x -> nth_error h' a = Some x) -> dinv h' d.
  Proof.
    intros [ND H] G. split; [exact ND|]. intros k a Hin. destruct (H k a Hin) as [c E]. exists c. apply G. exact E.
  Qed.
  Lemma val_ext h h' d : dinv h d -> (forall a x, nth_error h a = Some x -> nth_error h' a = Some x) -> val h' d = val h d.
  Proof.
    intros [ND H] G. unfold val. apply map_ext_in. intros [k a] Hin. cbn. destruct (H k a Hin) as [c E].
    unfold cof. rewrite E, (G _ _ E). reflexivity.
  Qed.

  Definition ext (h h' : heap) : Prop := exists t, h' = h ++ t.
  Lemma ext_refl h : ext h h. Proof. exists []. rewrite app_nil_r. reflexivity. Qed.
  Lemma ext_trans h h' h'' : ext h h' -> ext h' h'' -> ext h h''.
  Proof. intros [t ->] [u ->]. exists (t ++ u). rewrite app_assoc. reflexivity. Qed.
  Lemma ext_nth h h' a x : ext h h' -> nth_error h a = Some x -> nth_error h' a = Some x.
  Proof.
    intros [t ->] H. rewrite nth_error_app1; [exact H|]. apply nth_error_Some. congruence.
  Qed.

  (** * Dictionaries *)
  Lemma dget_get h d k : dinv h d ->
    match dget keqb k d with
    | Some b => In (k, b) d /\ op_get keqb k (val h d) = Some (cof h b)
    | None => op_get keqb k (val h d) = None
    end.
  Proof.
    intros [_ H]. induction d as [|[k' a] d IH]; [reflexivity|]. cbn [dget val map op_get fst snd].
    destruct (keqb k k') eqn:E.
    - apply keqb_spec in E. subst k'. split; [left|]; reflexivity.
    - specialize (IH (fun k a Hin => H k a (or_intror Hin))). fold (val h d).
      destruct (dget keqb k d) as [b|]; [|exact IH]. destruct IH as [I1 I2]. split; [right; exact I1|exact I2].
  Qed.

  Lemma val_dset h d k a : val h (dset keqb k a d) = op_set keqb k (cof h a) (val h d).
  Proof.
    induction d as [|[k' b] d IH]; [reflexivity|]. cbn [dset val map op_set fst snd].
    destruct (keqb k k'); [reflexivity|]. cbn [map fst snd]. f_equal. exact IH.
  Qed.

  Lemma In_dset k a d k' b : In (k', b) (dset keqb k a d) -> (k' = k /\ b = a) \/ In (k', b) d.
  Proof.
    induction d as [|[k1 b1] d IH]; cbn.
    - intros [H|[]]. injection H as -> ->. left. split; reflexivity.
    - destruct (keqb k k1) eqn:E; cbn.
      + apply keqb_spec in E. subst k1. intros [H|H]; [injection H as -> ->; left; split; reflexivity|right; right; exact H].
      + intros [H|H]; [right; left; exact H|]. destruct (IH H) as [G|G]; [left; exact G|right; right; exact G].
  Qed.

  Lemma dset_dinv h d k a c : dinv h d -> nth_error h a = Some (k, c) -> dinv h (dset keqb k a d).
  Proof.
    intros [ND H] E. split.
    - rewrite <- (keys_val h). rewrite val_dset. apply (op_set_NoDup _ _ _ keqb_spec). rewrite keys_val. exact ND.
    - intros k' b Hin. apply In_dset in Hin. destruct Hin as [[-> ->]|Hin]; [exists c; exact E|apply H; exact Hin].
  Qed.

  (** * Adding strings *)
  Lemma h_add_str_spec h d a k c : dinv h d -> nth_error h a = Some (k, c) ->
    exists h' d', h_add_str keqb (h, d) a = Some (h', d') /\ ext h h' /\ dinv h' d'
      /\ val h' d' = op_add_string keqb (val h d) (k, c)
      /\ (forall k' b, In (k', b) d' -> In (k', b) d \/ b = a \/ length h <= b).
  Proof.
    intros HD E. unfold h_add_str. rewrite E. pose proof (dget_get h d k HD) as G.
    unfold op_add_string. cbn [fst snd].
    destruct (dget keqb k d) as [b|].
    - destruct G as [G1 G2]. rewrite G2. destruct HD as [ND H]. destruct (H k b G1) as [cb Eb].
      rewrite Eb. eexists; eexists. split; [reflexivity|].
      assert (EX : ext h (h ++ [(k, cb + c)])) by (exists [(k, cb + c)]; reflexivity).
      assert (NE : nth_error (h ++ [(k, cb + c)]) (length h) = Some (k, cb + c)).
      { rewrite nth_error_app2, Nat.sub_diag by lia. reflexivity. }
      assert (HD' : dinv (h ++ [(k, cb + c)]) d) by (eapply dinv_ext; [split; eassumption|]; intros; eapply ext_nth; eassumption).
      split; [exact EX|]. split; [eapply dset_dinv; eassumption|]. split.
      + rewrite val_dset. unfold cof at 1. rewrite NE. unfold cof. rewrite Eb.
        rewrite (val_ext h); [reflexivity|split; assumption|]. intros. eapply ext_nth; eassumption.
      + intros k' b' Hin. apply In_dset in Hin. destruct Hin as [[-> ->]|Hin]; [right; right; lia|left; exact Hin].
    - rewrite G. eexists; eexists. split; [reflexivity|]. split; [apply ext_refl|].
      split; [eapply dset_dinv; eassumption|]. split.
      + rewrite val_dset. unfold cof at 1. rewrite E. reflexivity.
      + intros k' b' Hin. apply In_dset in Hin. destruct Hin as [[-> ->]|Hin]; [right; left; reflexivity|left; exact Hin].
  Qed.

  Lemma h_add_strs_spec l h d : dinv h d -> (forall a, In a l -> nth_error h a <> None) ->
    exists h' d', h_add_strs keqb (h, d) l = Some (h', d') /\ ext h h' /\ dinv h' d'
      /\ val h' d' = fold_left (op_add_string keqb)
           (flat_map (fun a => match nth_error h a with Some x => [x] | None => [] end) l) (val h d).
  Proof.
    revert h d. induction l as [|a l IH]; intros h d HD HL; cbn [h_add_strs flat_map].
    - exists h, d. split; [reflexivity|]. split; [apply ext_refl|]. split; [exact HD|reflexivity].
    - destruct (nth_error h a) as [[k c]|] eqn:E; [|exfalso; exact (HL a (or_introl eq_refl) E)].
      destruct (h_add_str_spec h d a k c HD E) as [h1 [d1 [E1 [X1 [D1 [V1 _]]]]]]. rewrite E1.
      destruct (IH h1 d1 D1) as [h2 [d2 [E2 [X2 [D2 V2]]]]].
      { intros b Hb. destruct (nth_error h b) eqn:Eb; [|exfalso; exact (HL b (or_intror Hb) Eb)].
        rewrite (ext_nth _ _ _ _ X1 Eb). discriminate. }
      exists h2, d2. split; [exact E2|]. split; [eapply ext_trans; eassumption|]. split; [exact D2|].
      rewrite V2, V1. cbn [app fold_left]. f_equal.
      clear - HL X1. induction l as [|b l IHl]; [reflexivity|]. cbn [flat_map].
      destruct (nth_error h b) as [x|] eqn:Eb; [|exfalso; exact (HL b (or_intror (or_introl eq_refl)) Eb)].
      rewrite (ext_nth _ _ _ _ X1 Eb). cbn. f_equal. apply IHl. intros a' [->|H]; apply HL; [left; reflexivity|right; right; exact H].
  Qed.

  Lemma objs_val h d : dinv h d ->
    flat_map (fun a => match nth_error h a with Some x => [x] | None => [] end) (map snd d) = val h d.
  Proof.
    intros [_ H]. induction d as [|[k a] d IH]; [reflexivity|]. cbn [map flat_map snd val].
    destruct (H k a (or_introl eq_refl)) as [c E]. rewrite E. cbn. unfold cof. rewrite E. f_equal.
    apply IH. intros k' a' Hin. apply H. right. exact Hin.
  Qed.

  Lemma h_clean_val h d : dinv h d -> val h (h_clean h d) = op_clean (val h d).
  Proof.
    intros [_ H]. unfold h_clean, op_clean. induction d as [|[k a] d IH]; [reflexivity|].
    destruct (H k a (or_introl eq_refl)) as [c E].
    specialize (IH (fun k a Hin => H k a (or_intror Hin))).
    assert (EC : cof h a = c) by (unfold cof; rewrite E; reflexivity).
    change (val h ((k, a) :: d)) with ((k, cof h a) :: val h d). rewrite EC. cbn [filter fst snd]. rewrite E.
    destruct (small c); cbn [negb]; [exact IH|].
    change (val h ((k, a) :: ?x)) with ((k, cof h a) :: val h x). cbn [val map fst snd]. rewrite EC. f_equal. exact IH.
  Qed.
  Lemma filter_dinv h f d : dinv h d -> dinv h (filter f d).
  Proof.
    intros [ND H]. split.
    - clear H. induction d as [|[k a] d IH]; [constructor|]. cbn. inversion ND as [|? ? Hn ND']; subst.
      destruct (f (k, a)); cbn; [|apply IH; exact ND']. constructor; [|apply IH; exact ND'].
      intro G. apply Hn. apply in_map_iff in G. destruct G as [e [E G]]. apply filter_In in G.
      cbn. rewrite <- E. apply in_map. tauto.
    - intros k a Hin. apply filter_In in Hin. apply H. tauto.
  Qed.

  Lemma h_add_op_spec h d dA : dinv h d -> dinv h dA ->
    exists h' d', h_add_op keqb h d dA = Some (h', d') /\ ext h h' /\ dinv h' d'
      /\ val h' d' = op_add keqb (val h d) (val h dA).
  Proof.
    intros HD HA. unfold h_add_op. destruct (h_add_strs_spec (map snd dA) h d HD) as [h1 [d1 [E1 [X1 [D1 V1]]]]].
    { intros a Ha. apply in_map_iff in Ha. destruct Ha as [[k a'] [<- Ha]]. destruct HA as [_ HA].
      destruct (HA k a' Ha) as [c E]. cbn. congruence. }
    rewrite E1. eexists; eexists. split; [reflexivity|]. split; [exact X1|].
    split; [apply filter_dinv; exact D1|]. rewrite h_clean_val by exact D1. rewrite V1, objs_val by exact HA. reflexivity.
  Qed.

  (** * Products *)
  Lemma h_add_fresh_spec l h d : dinv h d ->
    exists h' d', h_add_fresh keqb (h, d) l = Some (h', d') /\ ext h h' /\ dinv h' d'
      /\ val h' d' = fold_left (op_add_string keqb) l (val h d)
      /\ (forall k b, In (k, b) d' -> In (k, b) d \/ length h <= b).
  Proof.
    revert h d. induction l as [|[k c] l IH]; intros h d HD; cbn [h_add_fresh].
    - exists h, d. split; [reflexivity|]. split; [apply ext_refl|]. split; [exact HD|]. split; [reflexivity|]. auto.
    - cbn [fst snd].
      assert (X0 : ext h (h ++ [(k, c)])) by (exists [(k, c)]; reflexivity).
      assert (HD0 : dinv (h ++ [(k, c)]) d) by (eapply dinv_ext; [exact HD|]; intros; eapply ext_nth; eassumption).
      assert (N0 : nth_error (h ++ [(k, c)]) (length h) = Some (k, c)).
      { rewrite nth_error_app2, Nat.sub_diag by lia. reflexivity. }
      destruct (h_add_str_spec _ d _ k c HD0 N0) as [h1 [d1 [E1 [X1 [D1 [V1 A1]]]]]].
      rewrite E1.
      destruct (IH h1 d1 D1) as [h2 [d2 [E2 [X2 [D2 [V2 A2]]]]]].
      exists h2, d2. split; [exact E2|]. split; [eapply ext_trans; [|exact X2]; eapply ext_trans; eassumption|].
      split; [exact D2|]. split.
      + rewrite V2, V1. cbn [fold_left]. f_equal. f_equal. apply val_ext; [exact HD|]. intros; eapply ext_nth; eassumption.
      + intros k' b Hin. destruct (A2 k' b Hin) as [G|G].
        * destruct (A1 k' b G) as [G'|[->|G']]; [left; exact G'|right; lia|right; rewrite app_length in G'; cbn in G'; lia].
        * right. destruct X1 as [t ->]. rewrite !app_length in G. lia.
  Qed.

  Lemma h_mul_spec h d dA : dinv h d -> dinv h dA ->
    exists h' d', h_mul keqb smul h d dA = Some (h', d') /\ ext h h' /\ dinv h' d'
      /\ val h' d' = op_mul keqb smul (val h d) (val h dA)
      /\ (forall k b, In (k, b) d' -> length h <= b).
  Proof.
    intros HD HA. unfold h_mul.
    assert (H0 : dinv h ([] : dict)) by (split; [constructor|intros k a []]).
    destruct (h_add_fresh_spec (h_products smul h d dA) h [] H0) as [h1 [d1 [E1 [X1 [D1 [V1 A1]]]]]].
    rewrite E1. eexists; eexists. split; [reflexivity|]. split; [exact X1|]. split; [apply filter_dinv; exact D1|]. split.
    - rewrite h_clean_val by exact D1. rewrite V1. unfold h_products. rewrite !deref_val by assumption.
      rewrite op_mul_products. reflexivity.
    - intros k b Hin. apply filter_In in Hin. destruct (A1 k b (proj1 Hin)) as [[]|G]. exact G.
  Qed.

  (** * Negation in place *)
  Lemma nth_hneg a (h : heap) b : nth_error (hneg a h) b =
    if Nat.eqb a b then option_map (fun x => (fst x, snd x * - (1))) (nth_error h b) else nth_error h b.
  Proof.
    revert a b. induction h as [|[k c] h IH]; intros a b.
    - destruct a as [|a], b as [|b]; cbn [hneg nth_error]; destruct (Nat.eqb _ _); reflexivity.
    - destruct a as [|a], b as [|b]; cbn; try reflexivity. apply IH.
  Qed.
  Lemma length_hneg a (h : heap) : length (hneg a h) = length h.
  Proof. revert a. induction h as [|[k c] h IH]; intros [|a]; cbn; try reflexivity. rewrite IH. reflexivity. Qed.

  Lemma nth_h_neg_op (dA : dict) (h : heap) b : NoDup (map snd dA) -> nth_error (h_neg_op h dA) b =
    if existsb (Nat.eqb b) (map snd dA) then option_map (fun x => (fst x, snd x * - (1))) (nth_error h b) else nth_error h b.
  Proof.
    unfold h_neg_op. revert h. induction dA as [|[k a] dA IH]; intros h ND; [reflexivity|].
    cbn [fold_left map existsb snd] in *. inversion ND as [|? ? Hn ND']; subst. rewrite IH by exact ND'. rewrite nth_hneg.
    rewrite (Nat.eqb_sym a b). destruct (Nat.eqb_spec b a) as [->|n]; cbn [orb].
    - destruct (existsb (Nat.eqb a) (map snd dA)) eqn:E; [|reflexivity]. exfalso. apply Hn.
      apply existsb_exists in E. destruct E as [x [Hx Ex]]. apply Nat.eqb_eq in Ex. subst x. exact Hx.
    - reflexivity.
  Qed.

  Lemma dinv_addr_NoDup h d : dinv h d -> NoDup (map snd d).
  Proof.
    intros [ND H]. induction d as [|[k a] d IH]; [constructor|]. cbn. inversion ND as [|? ? Hn ND']; subst.
    constructor; [|apply IH; [exact ND'|intros k' a' Hin; apply H; right; exact Hin]].
    intro G. apply in_map_iff in G. destruct G as [[k' a'] [E G]]. cbn in E. subst a'.
    destruct (H k a (or_introl eq_refl)) as [c Ec]. destruct (H k' a (or_intror G)) as [c' Ec'].
    rewrite Ec in Ec'. injection Ec' as -> ->. apply Hn. change k' with (fst (k', a)). apply in_map. exact G.
  Qed.

  Lemma dinv_keep h h' d : dinv h d ->
    (forall a k c, nth_error h a = Some (k, c) -> exists c', nth_error h' a = Some (k, c')) -> dinv h' d.
  Proof.
    intros [ND H] G. split; [exact ND|]. intros k a Hin. destruct (H k a Hin) as [c E]. eapply G. exact E.
  Qed.

  Lemma hneg_keep (h : heap) a b k c : nth_error h b = Some (k, c) -> exists c', nth_error (hneg a h) b = Some (k, c').
  Proof. intro E. rewrite nth_hneg, E. destruct (Nat.eqb a b); cbn; eexists; reflexivity. Qed.
  Lemma h_neg_op_keep (h : heap) (dA : dict) b k c : nth_error h b = Some (k, c) -> exists c', nth_error (h_neg_op h dA) b = Some (k, c').
  Proof.
    unfold h_neg_op. revert h c. induction dA as [|[k' a] dA IH]; intros h c E; cbn; [eexists; exact E|].
    destruct (hneg_keep h a b k c E) as [c' E']. eapply IH. exact E'.
  Qed.

  (** * The invariant holds in every reachable state *)
  Lemma set_op_In i (d : dict) l x : In x (set_op i d l) -> x = d \/ In x l.
  Proof.
    revert i. induction l as [|y l IH]; intros [|i]; cbn; try tauto.
    - intros [H|H]; auto.
    - intros [H|H]; [right; left; exact H|]. destruct (IH i H); auto.
  Qed.
  Lemma nth_set_op_eq i (d : dict) l : i < length l -> nth_error (set_op i d l) i = Some d.
  Proof. revert i. induction l as [|y l IH]; intros [|i] H; cbn in *; try lia; [reflexivity|apply IH; lia]. Qed.
  Lemma nth_set_op_neq i j (d : dict) l : i <> j -> nth_error (set_op i d l) j = nth_error l j.
  Proof.
    revert i j. induction l as [|y l IH]; intros [|i] [|j] H; cbn; try reflexivity; try lia.
    apply IH. lia.
  Qed.

  Lemma sinv_nth st i d : sinv st -> nth_error (ops st) i = Some d -> dinv (hp st) d.
  Proof. intros H E. apply H. eapply nth_error_In. exact E. Qed.

  Lemma h_of_list_spec h l d : dinv h d -> forall d', h_of_list keqb h l d = Some d' -> dinv h d'.
  Proof.
    revert d. induction l as [|a l IH]; intros d HD d'; cbn; [intro H; injection H as <-; exact HD|].
    destruct (nth_error h a) as [[k c]|] eqn:E; [|discriminate]. apply IH. eapply dset_dinv; eassumption.
  Qed.

  Lemma sinv_upd st h' i d' : sinv st ->
    (forall a k c, nth_error (hp st) a = Some (k, c) -> exists c', nth_error h' a = Some (k, c')) ->
    dinv h' d' -> sinv (MkState h' (set_op i d' (ops st))).
  Proof.
    intros H G D x Hx. cbn in *. apply set_op_In in Hx. destruct Hx as [->|Hx]; [exact D|].
    eapply dinv_keep; [apply H; exact Hx|exact G].
  Qed.
  Lemma sinv_app st h' d' : sinv st ->
    (forall a k c, nth_error (hp st) a = Some (k, c) -> exists c', nth_error h' a = Some (k, c')) ->
    dinv h' d' -> sinv (MkState h' (ops st ++ [d'])).
  Proof.
    intros H G D x Hx. cbn in *. apply in_app_or in Hx. destruct Hx as [Hx|[<-|[]]]; [|exact D].
    eapply dinv_keep; [apply H; exact Hx|exact G].
  Qed.
  Lemma ext_keep h h' : ext h h' ->
    forall a k c, nth_error h a = Some (k, c) -> exists c', nth_error h' a = Some (k, c').
  Proof. intros X a k c E. exists c. eapply ext_nth; eassumption. Qed.

  Lemma dinv_single h a k c : nth_error h a = Some (k, c) -> dinv h [(k, a)].
  Proof.
    intro E. split; [repeat constructor; intros []|]. intros k' a' [H|[]]. injection H as <- <-. exists c. exact E.
  Qed.

  Lemma step_sinv c st st' : sinv st -> step keqb smul c st = Some st' -> sinv st'.
  Proof.
    intro H. destruct c as [k x|l|i a|i j|i a|i j|i a|i j|i|i k]; cbn [step].
    - intro E; injection E as <-. intros d Hd. cbn in *.
      eapply dinv_keep; [apply H; exact Hd|]. apply ext_keep. exists [(k, x)]. reflexivity.
    - destruct (h_of_list keqb (hp st) l []) as [d|] eqn:E; [|discriminate].
      intro E'; injection E' as <-. apply sinv_app; [exact H|eauto|].
      eapply h_of_list_spec; [|exact E]. split; [constructor|intros ? ? []].
    - destruct (nth_error (ops st) i) as [d|] eqn:Ei; [|discriminate].
      pose proof (sinv_nth _ _ _ H Ei) as HD.
      destruct (nth_error (hp st) a) as [[k c]|] eqn:Ea; [|unfold h_add_str; rewrite Ea; discriminate].
      destruct (h_add_str_spec _ d a k c HD Ea) as [h' [d' [E [X [D _]]]]]. rewrite E.
      intro E'; injection E' as <-. apply sinv_upd; [exact H|apply ext_keep; exact X|exact D].
    - destruct (nth_error (ops st) i) as [d|] eqn:Ei; [|discriminate].
      destruct (nth_error (ops st) j) as [dA|] eqn:Ej; [|discriminate].
      destruct (h_add_op_spec (hp st) d dA (sinv_nth _ _ _ H Ei) (sinv_nth _ _ _ H Ej)) as [h' [d' [E [X [D _]]]]].
      rewrite E. intro E'; injection E' as <-. apply sinv_upd; [exact H|apply ext_keep; exact X|exact D].
    - destruct (nth_error (ops st) i) as [d|] eqn:Ei; [|discriminate].
      pose proof (dinv_keep _ (hneg a (hp st)) d (sinv_nth _ _ _ H Ei) (fun b k c => hneg_keep (hp st) a b k c)) as HD.
      destruct (nth_error (hneg a (hp st)) a) as [[k c]|] eqn:Ea; [|unfold h_add_str; rewrite Ea; discriminate].
      destruct (h_add_str_spec _ d a k c HD Ea) as [h' [d' [E [X [D _]]]]]. rewrite E.
      intro E'; injection E' as <-. apply sinv_upd; [exact H| |exact D].
      intros b kb cb Eb. destruct (hneg_keep (hp st) a b kb cb Eb) as [c' E']. eapply ext_keep; eassumption.
    - destruct (nth_error (ops st) i) as [d|] eqn:Ei; [|discriminate].
      destruct (nth_error (ops st) j) as [dA|] eqn:Ej; [|discriminate].
      destruct (h_add_op_spec (h_neg_op (hp st) dA) d dA) as [h' [d' [E [X [D _]]]]].
      { eapply dinv_keep; [exact (sinv_nth _ _ _ H Ei)|]. intros; eapply h_neg_op_keep; eassumption. }
      { eapply dinv_keep; [exact (sinv_nth _ _ _ H Ej)|]. intros; eapply h_neg_op_keep; eassumption. }
      rewrite E. intro E'; injection E' as <-. apply sinv_upd; [exact H| |exact D].
      intros b kb cb Eb. destruct (h_neg_op_keep (hp st) dA b kb cb Eb) as [c' E']. eapply ext_keep; eassumption.
    - destruct (nth_error (ops st) i) as [d|] eqn:Ei; [|discriminate].
      destruct (nth_error (hp st) a) as [[k c]|] eqn:Ea; [|discriminate].
      destruct (h_mul_spec (hp st) d [(k, a)] (sinv_nth _ _ _ H Ei) (dinv_single _ _ _ _ Ea)) as [h' [d' [E [X [D _]]]]].
      rewrite E. intro E'; injection E' as <-. apply sinv_app; [exact H|apply ext_keep; exact X|exact D].
    - destruct (nth_error (ops st) i) as [d|] eqn:Ei; [|discriminate].
      destruct (nth_error (ops st) j) as [dA|] eqn:Ej; [|discriminate].
      destruct (h_mul_spec (hp st) d dA (sinv_nth _ _ _ H Ei) (sinv_nth _ _ _ H Ej)) as [h' [d' [E [X [D _]]]]].
      rewrite E. intro E'; injection E' as <-. apply sinv_app; [exact H|apply ext_keep; exact X|exact D].
    - destruct (nth_error (ops st) i) as [d|] eqn:Ei; [|discriminate].
      intro E'; injection E' as <-. apply sinv_upd; [exact H|eauto|]. apply filter_dinv. exact (sinv_nth _ _ _ H Ei).
    - destruct (nth_error (ops st) i) as [d|] eqn:Ei; [|discriminate].
      intro E'; injection E' as <-. apply sinv_upd; [exact H|eauto|]. apply filter_dinv. exact (sinv_nth _ _ _ H Ei).
  Qed.

  Lemma run_sinv cs st st' : sinv st -> run keqb smul cs st = Some st' -> sinv st'.
  Proof.
    revert st. induction cs as [|c cs IH]; intros st H; cbn; [intro E; injection E as <-; exact H|].
    destruct (step keqb smul c st) as [st1|] eqn:E; [|discriminate]. apply IH. eapply step_sinv; eassumption.
  Qed.
  Lemma init_sinv : sinv init.
  Proof. intros d []. Qed.

  (** * Observable consequences *)
  Lemma contents_val (st : state) i d : sinv st -> nth_error (ops st) i = Some d -> holds st i (val (hp st) d).
  Proof.
    intros H E. unfold holds, contents. rewrite E. cbn [option_map]. f_equal. unfold val. rewrite map_map.
    apply map_ext_in. intros [k a] Hin. cbn [fst snd]. destruct (sinv_nth _ _ _ H E) as [_ G].
    destruct (G k a Hin) as [c Ec]. unfold cof. rewrite Ec. reflexivity.
  Qed.

  Lemma holds_inj (st : state) i v w : holds st i v -> holds st i w -> v = w.
  Proof.
    unfold holds. intros -> E. injection E as E. revert w E. induction v as [|[k c] v IH]; intros [|[k' c'] w] E; try discriminate.
    - reflexivity.
    - cbn in E. inversion E; subst. f_equal. apply IH. assumption.
  Qed.

  Lemma holds_inv (st : state) i v : sinv st -> holds st i v ->
    exists d, nth_error (ops st) i = Some d /\ v = val (hp st) d /\ NoDup (map fst v).
  Proof.
    intros H Hv. assert (Hv' := Hv). unfold holds, contents in Hv. destruct (nth_error (ops st) i) as [d|] eqn:E; [|discriminate].
    exists d. split; [reflexivity|]. pose proof (holds_inj _ _ _ _ Hv' (contents_val st i d H E)) as G. split; [exact G|].
    subst v. rewrite keys_val. apply (sinv_nth _ _ _ H E).
  Qed.

  Lemma reach_keys cs st : run keqb smul cs init = Some st ->
    forall i l, contents st i = Some l ->
      NoDup (map fst l) /\ forall k o, In (k, o) l -> exists c, o = Some (k, c).
  Proof.
    intros R i l E. pose proof (run_sinv _ _ _ init_sinv R) as H.
    unfold contents in E. destruct (nth_error (ops st) i) as [d|] eqn:Ei; [|discriminate]. injection E as <-.
    destruct (sinv_nth _ _ _ H Ei) as [ND G]. split.
    - rewrite map_map. cbn. exact ND.
    - intros k o Hin. apply in_map_iff in Hin. destruct Hin as [[k' a] [E Hin]]. cbn in E. injection E as -> <-.
      apply G. exact Hin.
  Qed.

  (** Frame and result of each call. *)
  Lemma contents_keep (st : state) h' l' m d : sinv st -> nth_error (ops st) m = Some d -> nth_error l' m = Some d ->
    (forall k a, In (k, a) d -> nth_error h' a = nth_error (hp st) a) ->
    contents (MkState h' l') m = contents st m.
  Proof.
    intros H E E' G. unfold contents. cbn. rewrite E, E'. cbn. f_equal. apply map_ext_in. intros [k a] Hin. cbn.
    rewrite (G k a Hin). reflexivity.
  Qed.

  Lemma ext_same (st : state) h' d : sinv st -> ext (hp st) h' -> In d (ops st) ->
    forall k a, In (k, a) d -> nth_error h' a = nth_error (hp st) a.
  Proof.
    intros H X Hd k a Hin. destruct (H d Hd) as [_ G]. destruct (G k a Hin) as [c E].
    rewrite E. eapply ext_nth; eassumption.
  Qed.

  Lemma contents_bound (st : state) m : m < length (ops st) -> exists d, nth_error (ops st) m = Some d.
  Proof. intro H. destruct (nth_error (ops st) m) eqn:E; [eexists; reflexivity|]. apply nth_error_None in E. lia. Qed.

  Lemma holds_bound (st : state) i v : holds st i v -> i < length (ops st).
  Proof.
    unfold holds, contents. destruct (nth_error (ops st) i) eqn:E; [|discriminate]. intros _.
    apply nth_error_Some. congruence.
  Qed.

  Lemma add_op_step st i j A B : sinv st -> holds st i A -> holds st j B ->
    exists st', step keqb smul (AddOp i j) st = Some st' /\ holds st' i (op_add keqb A B)
      /\ length (ops st') = length (ops st)
      /\ (forall m, m <> i -> m < length (ops st) -> contents st' m = contents st m).
  Proof.
    intros H HA HB. pose proof (holds_bound _ _ _ HA) as Li.
    destruct (holds_inv _ _ _ H HA) as [d [Ei [EA _]]]. destruct (holds_inv _ _ _ H HB) as [dA [Ej [EB _]]].
    cbn [step]. rewrite Ei, Ej.
    destruct (h_add_op_spec (hp st) d dA (sinv_nth _ _ _ H Ei) (sinv_nth _ _ _ H Ej)) as [h' [d' [E [X [D V]]]]].
    rewrite E. eexists. split; [reflexivity|].
    assert (S' : sinv (MkState h' (set_op i d' (ops st)))) by (apply sinv_upd; [exact H|apply ext_keep; exact X|exact D]).
    split; [|split].
    - subst A B. rewrite <- V. apply (contents_val (MkState h' (set_op i d' (ops st)))); [exact S'|].
      cbn. apply nth_set_op_eq. exact Li.
    - cbn. clear. revert i. induction (ops st); intros [|i]; cbn; auto.
    - intros m Hm Lm. destruct (contents_bound st m Lm) as [dm Em].
      eapply contents_keep; [exact H|exact Em|cbn; rewrite nth_set_op_neq by congruence; exact Em|].
      intros k a. eapply ext_same; [exact H|exact X|eapply nth_error_In; exact Em].
  Qed.

  Lemma add_str_step st i a k c A : sinv st -> holds st i A -> nth_error (hp st) a = Some (k, c) ->
    exists st', step keqb smul (AddStr i a) st = Some st' /\ holds st' i (op_add_string keqb A (k, c))
      /\ (forall m, m <> i -> m < length (ops st) -> contents st' m = contents st m).
  Proof.
    intros H HA Ea. pose proof (holds_bound _ _ _ HA) as Li.
    destruct (holds_inv _ _ _ H HA) as [d [Ei [EA _]]].
    cbn [step]. rewrite Ei.
    destruct (h_add_str_spec (hp st) d a k c (sinv_nth _ _ _ H Ei) Ea) as [h' [d' [E [X [D [V _]]]]]].
    rewrite E. eexists. split; [reflexivity|].
    assert (S' : sinv (MkState h' (set_op i d' (ops st)))) by (apply sinv_upd; [exact H|apply ext_keep; exact X|exact D]).
    split.
    - subst A. rewrite <- V. apply (contents_val (MkState h' (set_op i d' (ops st)))); [exact S'|].
      cbn. apply nth_set_op_eq. exact Li.
    - intros m Hm Lm. destruct (contents_bound st m Lm) as [dm Em].
      eapply contents_keep; [exact H|exact Em|cbn; rewrite nth_set_op_neq by congruence; exact Em|].
      intros k' a'. eapply ext_same; [exact H|exact X|eapply nth_error_In; exact Em].
  Qed.

  Lemma mul_op_step st i j A B : sinv st -> holds st i A -> holds st j B ->
    exists st', step keqb smul (MulOp i j) st = Some st' /\ holds st' (length (ops st)) (op_mul keqb smul A B)
      /\ length (ops st') = S (length (ops st))
      /\ (forall m, m < length (ops st) -> contents st' m = contents st m)
      /\ (forall d k b, nth_error (ops st') (length (ops st)) = Some d -> In (k, b) d -> length (hp st) <= b)
      /\ (forall m, m < length (ops st) -> nth_error (ops st') m = nth_error (ops st) m)
      /\ ext (hp st) (hp st').
  Proof.
    intros H HA HB.
    destruct (holds_inv _ _ _ H HA) as [d [Ei [EA _]]]. destruct (holds_inv _ _ _ H HB) as [dA [Ej [EB _]]].
    cbn [step]. rewrite Ei, Ej.
    destruct (h_mul_spec (hp st) d dA (sinv_nth _ _ _ H Ei) (sinv_nth _ _ _ H Ej)) as [h' [d' [E [X [D [V F]]]]]].
    rewrite E. eexists. split; [reflexivity|].
    assert (S' : sinv (MkState h' (ops st ++ [d']))) by (apply sinv_app; [exact H|apply ext_keep; exact X|exact D]).
    assert (NL : nth_error (ops st ++ [d']) (length (ops st)) = Some d').
    { rewrite nth_error_app2, Nat.sub_diag by lia. reflexivity. }
    split; [|split; [|split; [|split; [|split]]]].
    - subst A B. rewrite <- V. apply (contents_val (MkState h' (ops st ++ [d']))); [exact S'|exact NL].
    - cbn. rewrite app_length. cbn. lia.
    - intros m Lm. destruct (contents_bound st m Lm) as [dm Em].
      eapply contents_keep; [exact H|exact Em|cbn; rewrite nth_error_app1 by exact Lm; exact Em|].
      intros k a. eapply ext_same; [exact H|exact X|eapply nth_error_In; exact Em].
    - cbn. rewrite NL. intros d0 k b E0 Hin. injection E0 as <-. eapply F. exact Hin.
    - intros m Lm. cbn. apply nth_error_app1. exact Lm.
    - exact X.
  Qed.

  Lemma sub_op_step st i j A B : sinv st -> holds st i A -> holds st j B -> share_nothing st i j ->
    exists st', step keqb smul (SubOp i j) st = Some st'
      /\ holds st' i (op_sub keqb A B)
      /\ (i <> j -> holds st' j (op_neg B))
      /\ length (ops st') = length (ops st)
      /\ (forall m, m <> i -> m < length (ops st) -> share_nothing st m j -> contents st' m = contents st m).
  Proof.
    intros H HA HB SH. pose proof (holds_bound _ _ _ HA) as Li. pose proof (holds_bound _ _ _ HB) as Lj.
    destruct (holds_inv _ _ _ H HA) as [d [Ei [EA _]]]. destruct (holds_inv _ _ _ H HB) as [dA [Ej [EB _]]].
    pose proof (sinv_nth _ _ _ H Ei) as Di. pose proof (sinv_nth _ _ _ H Ej) as Dj.
    pose proof (dinv_addr_NoDup _ _ Dj) as NA.
    set (h1 := h_neg_op (hp st) dA).
    assert (K1 : forall b k c, nth_error (hp st) b = Some (k, c) -> exists c', nth_error h1 b = Some (k, c')).
    { intros; eapply h_neg_op_keep; eassumption. }
    assert (Di1 : dinv h1 d) by (eapply dinv_keep; eassumption).
    assert (Dj1 : dinv h1 dA) by (eapply dinv_keep; eassumption).
    assert (NS : forall (d0 : dict) m, nth_error (ops st) m = Some d0 -> share_nothing st m j ->
                 forall k a, In (k, a) d0 -> nth_error h1 a = nth_error (hp st) a).
    { intros d0 m Em SHm k a Hin. unfold h1. rewrite nth_h_neg_op by exact NA.
      destruct (existsb (Nat.eqb a) (map snd dA)) eqn:EX; [|reflexivity]. exfalso.
      apply existsb_exists in EX. destruct EX as [x [Hx Ex]]. apply Nat.eqb_eq in Ex. subst x.
      apply in_map_iff in Hx. destruct Hx as [[k' a'] [E Hx]]. cbn in E. subst a'.
      exact (SHm d0 dA a k k' Em Ej Hin Hx). }
    assert (Vi : val h1 d = val (hp st) d).
    { unfold val. apply map_ext_in. intros [k a] Hin. unfold cof. cbn. rewrite (NS d i Ei SH k a Hin). reflexivity. }
    assert (Vj : val h1 dA = op_neg (val (hp st) dA)).
    { unfold val, op_neg. rewrite map_map. apply map_ext_in. intros [k a] Hin. unfold cof, h1. cbn [fst snd].
      rewrite nth_h_neg_op by exact NA.
      assert (EX : existsb (Nat.eqb a) (map snd dA) = true).
      { apply existsb_exists. exists a. split; [change a with (snd (k, a)); apply in_map; exact Hin|apply Nat.eqb_refl]. }
      rewrite EX. destruct Dj as [_ G]. destruct (G k a Hin) as [c Ec]. rewrite Ec. reflexivity. }
    cbn [step]. rewrite Ei, Ej. fold h1.
    destruct (h_add_op_spec h1 d dA Di1 Dj1) as [h' [d' [E [X [D V]]]]].
    rewrite E. eexists. split; [reflexivity|].
    assert (S' : sinv (MkState h' (set_op i d' (ops st)))).
    { apply sinv_upd; [exact H| |exact D]. intros b kb cb Eb. destruct (K1 b kb cb Eb) as [c' E']. eapply ext_keep; eassumption. }
    split; [|split; [|split]].
    - subst A B. unfold op_sub. rewrite <- Vj, <- Vi, <- V. apply (contents_val (MkState h' (set_op i d' (ops st)))); [exact S'|].
      cbn. apply nth_set_op_eq. exact Li.
    - intro Hij. subst B. rewrite <- Vj. rewrite <- (val_ext h1 h' dA Dj1).
      2:{ intros; eapply ext_nth; eassumption. }
      apply (contents_val (MkState h' (set_op i d' (ops st)))); [exact S'|]. cbn. rewrite nth_set_op_neq by exact Hij. exact Ej.
    - cbn. clear. revert i. induction (ops st); intros [|i]; cbn; auto.
    - intros m Hm Lm SHm. destruct (contents_bound st m Lm) as [dm Em].
      eapply contents_keep; [exact H|exact Em|cbn; rewrite nth_set_op_neq by congruence; exact Em|].
      intros k a Hin. rewrite <- (NS dm m Em SHm k a Hin).
      pose proof (sinv_nth _ _ _ H Em) as [_ G]. destruct (G k a Hin) as [c Ec]. destruct (K1 _ _ _ Ec) as [c' Ec'].
      rewrite Ec'. eapply ext_nth; eassumption.
  Qed.

  Lemma sub_str_step st i a k c A : sinv st -> holds st i A -> nth_error (hp st) a = Some (k, c) -> not_stored st i a ->
    exists st', step keqb smul (SubStr i a) st = Some st'
      /\ holds st' i (op_add_string keqb A (k, c * - (1)))
      /\ nth_error (hp st') a = Some (k, c * - (1))
      /\ (forall m, m <> i -> m < length (ops st) -> not_stored st m a -> contents st' m = contents st m).
  Proof.
    intros H HA Ea NSi. pose proof (holds_bound _ _ _ HA) as Li.
    destruct (holds_inv _ _ _ H HA) as [d [Ei [EA _]]]. pose proof (sinv_nth _ _ _ H Ei) as Di.
    set (h1 := hneg a (hp st)).
    assert (K1 : forall b k c, nth_error (hp st) b = Some (k, c) -> exists c', nth_error h1 b = Some (k, c')).
    { intros; eapply hneg_keep; eassumption. }
    assert (Di1 : dinv h1 d) by (eapply dinv_keep; eassumption).
    assert (Ea1 : nth_error h1 a = Some (k, c * - (1))).
    { unfold h1. rewrite nth_hneg, Nat.eqb_refl, Ea. reflexivity. }
    assert (NS : forall (d0 : dict) m, nth_error (ops st) m = Some d0 -> not_stored st m a ->
                 forall k b, In (k, b) d0 -> nth_error h1 b = nth_error (hp st) b).
    { intros d0 m Em SHm k0 b Hin. unfold h1. rewrite nth_hneg. destruct (Nat.eqb_spec a b) as [<-|n]; [|reflexivity].
      exfalso. exact (SHm d0 k0 Em Hin). }
    assert (Vi : val h1 d = val (hp st) d).
    { unfold val. apply map_ext_in. intros [k0 b] Hin. unfold cof. cbn. rewrite (NS d i Ei NSi k0 b Hin). reflexivity. }
    cbn [step]. rewrite Ei. fold h1.
    destruct (h_add_str_spec h1 d a k _ Di1 Ea1) as [h' [d' [E [X [D [V _]]]]]].
    rewrite E. eexists. split; [reflexivity|].
    assert (S' : sinv (MkState h' (set_op i d' (ops st)))).
    { apply sinv_upd; [exact H| |exact D]. intros b kb cb Eb. destruct (K1 b kb cb Eb) as [c' E']. eapply ext_keep; eassumption. }
    split; [|split].
    - subst A. rewrite <- Vi, <- V. apply (contents_val (MkState h' (set_op i d' (ops st)))); [exact S'|].
      cbn. apply nth_set_op_eq. exact Li.
    - cbn. eapply ext_nth; eassumption.
    - intros m Hm Lm SHm. destruct (contents_bound st m Lm) as [dm Em].
      eapply contents_keep; [exact H|exact Em|cbn; rewrite nth_set_op_neq by congruence; exact Em|].
      intros k0 b Hin. rewrite <- (NS dm m Em SHm k0 b Hin).
      pose proof (sinv_nth _ _ _ H Em) as [_ G]. destruct (G k0 b Hin) as [c0 Ec]. destruct (K1 _ _ _ Ec) as [c' Ec'].
      rewrite Ec'. eapply ext_nth; eassumption.
  Qed.

  (** Every call other than a subtraction leaves every existing operator but its target alone,
      whatever objects are shared. *)
  Lemma step_frame c st st' : sinv st -> is_sub c = false -> step keqb smul c st = Some st' ->
    forall m, m < length (ops st) -> target c <> Some m -> contents st' m = contents st m.
  Proof.
    intros H Hs E m Lm Ht. destruct (contents_bound st m Lm) as [dm Em].
    assert (SAME : forall h' l', ext (hp st) h' -> nth_error l' m = Some dm -> contents (MkState h' l') m = contents st m).
    { intros h' l' X El. eapply contents_keep; [exact H|exact Em|exact El|].
      intros k a. eapply ext_same; [exact H|exact X|eapply nth_error_In; exact Em]. }
    destruct c as [k x|l|i a|i j|i a|i j|i a|i j|i|i k]; try discriminate Hs; cbn [step target] in *.
    - injection E as <-. apply SAME; [exists [(k, x)]; reflexivity|exact Em].
    - destruct (h_of_list keqb (hp st) l []) as [d|]; [|discriminate]. injection E as <-.
      apply SAME; [apply ext_refl|]. rewrite nth_error_app1 by exact Lm. exact Em.
    - destruct (nth_error (ops st) i) as [d|] eqn:Ei; [|discriminate].
      destruct (nth_error (hp st) a) as [[k c]|] eqn:Ea; [|unfold h_add_str in E; rewrite Ea in E; discriminate].
      destruct (h_add_str_spec _ d a k c (sinv_nth _ _ _ H Ei) Ea) as [h' [d' [E1 [X _]]]]. rewrite E1 in E.
      injection E as <-. apply SAME; [exact X|]. rewrite nth_set_op_neq by congruence. exact Em.
    - destruct (nth_error (ops st) i) as [d|] eqn:Ei; [|discriminate].
      destruct (nth_error (ops st) j) as [dA|] eqn:Ej; [|discriminate].
      destruct (h_add_op_spec (hp st) d dA (sinv_nth _ _ _ H Ei) (sinv_nth _ _ _ H Ej)) as [h' [d' [E1 [X _]]]].
      rewrite E1 in E. injection E as <-. apply SAME; [exact X|]. rewrite nth_set_op_neq by congruence. exact Em.
    - destruct (nth_error (ops st) i) as [d|] eqn:Ei; [|discriminate].
      destruct (nth_error (hp st) a) as [[k c]|] eqn:Ea; [|discriminate].
      destruct (h_mul_spec (hp st) d [(k, a)] (sinv_nth _ _ _ H Ei) (dinv_single _ _ _ _ Ea)) as [h' [d' [E1 [X _]]]].
      rewrite E1 in E. injection E as <-. apply SAME; [exact X|]. rewrite nth_error_app1 by exact Lm. exact Em.
    - destruct (nth_error (ops st) i) as [d|] eqn:Ei; [|discriminate].
      destruct (nth_error (ops st) j) as [dA|] eqn:Ej; [|discriminate].
      destruct (h_mul_spec (hp st) d dA (sinv_nth _ _ _ H Ei) (sinv_nth _ _ _ H Ej)) as [h' [d' [E1 [X _]]]].
      rewrite E1 in E. injection E as <-. apply SAME; [exact X|]. rewrite nth_error_app1 by exact Lm. exact Em.
    - destruct (nth_error (ops st) i) as [d|] eqn:Ei; [|discriminate]. injection E as <-.
      apply SAME; [apply ext_refl|]. rewrite nth_set_op_neq by congruence. exact Em.
    - destruct (nth_error (ops st) i) as [d|] eqn:Ei; [|discriminate]. injection E as <-.
      apply SAME; [apply ext_refl|]. rewrite nth_set_op_neq by congruence. exact Em.
  Qed.

  (** After adding, subtracting or multiplying Operators (or cleaning) nothing small is stored in the
      result. *)
  Lemma clean_small h d : dinv h d -> forall k a, In (k, a) (h_clean h d) ->
    exists c, nth_error h a = Some (k, c) /\ small c = false.
  Proof.
    intros [_ G] k a Hin. unfold h_clean in Hin. apply filter_In in Hin. destruct Hin as [Hin S].
    destruct (G k a Hin) as [c Ec]. exists c. split; [exact Ec|]. cbn in S. rewrite Ec in S.
    apply negb_true_iff. exact S.
  Qed.

  Lemma step_cleaned c st st' i : sinv st -> step keqb smul c st = Some st' -> cleaned c st = Some i ->
    forall l k o, contents st' i = Some l -> In (k, o) l -> exists x, o = Some (k, x) /\ small x = false.
  Proof.
    intros H E Hi l k o El Hin.
    assert (DONE : forall h' l' d0, dinv h' d0 -> nth_error l' i = Some (h_clean h' d0) -> st' = MkState h' l' ->
              exists x, o = Some (k, x) /\ small x = false).
    { intros h' l' d0 D0 N0 ->. unfold contents in El. cbn in El. rewrite N0 in El. injection El as <-.
      apply in_map_iff in Hin. destruct Hin as [[k' a] [E1 Hin]]. cbn in E1. injection E1 as -> <-.
      exact (clean_small h' d0 D0 k a Hin). }
    assert (NS : forall d0 d', nth_error (ops st) i = Some d0 -> nth_error (set_op i d' (ops st)) i = Some d').
    { intros d0 d' E0. apply nth_set_op_eq. apply nth_error_Some. congruence. }
    assert (NA : forall d' : dict, nth_error (ops st ++ [d']) (length (ops st)) = Some d').
    { intro d'. rewrite nth_error_app2, Nat.sub_diag by lia. reflexivity. }
    destruct c as [k0 x|l0|i0 a|i0 j|i0 a|i0 j|i0 a|i0 j|i0|i0 k0]; try discriminate Hi; cbn [step cleaned] in *;
      injection Hi as <-.
    - destruct (nth_error (ops st) i0) as [d|] eqn:Ei; [|discriminate].
      destruct (nth_error (ops st) j) as [dA|] eqn:Ej; [|discriminate].
      unfold h_add_op in E.
      destruct (h_add_strs_spec (map snd dA) (hp st) d (sinv_nth _ _ _ H Ei)) as [h1 [d1 [E1 [X1 [D1 V1]]]]].
      { intros a Ha. apply in_map_iff in Ha. destruct Ha as [[k' a'] [<- Ha]].
        destruct (sinv_nth _ _ _ H Ej) as [_ HA]. destruct (HA k' a' Ha) as [c E0]. cbn. congruence. }
      rewrite E1 in E. injection E as <-. eapply DONE; [exact D1|eapply NS; reflexivity|reflexivity].
    - destruct (nth_error (ops st) i0) as [d|] eqn:Ei; [|discriminate].
      destruct (nth_error (ops st) j) as [dA|] eqn:Ej; [|discriminate].
      unfold h_add_op in E.
      destruct (h_add_strs_spec (map snd dA) (h_neg_op (hp st) dA) d) as [h1 [d1 [E1 [X1 [D1 V1]]]]].
      { eapply dinv_keep; [exact (sinv_nth _ _ _ H Ei)|]. intros; eapply h_neg_op_keep; eassumption. }
      { intros a Ha. apply in_map_iff in Ha. destruct Ha as [[k' a'] [<- Ha]].
        destruct (sinv_nth _ _ _ H Ej) as [_ HA]. destruct (HA k' a' Ha) as [c E0].
        destruct (h_neg_op_keep (hp st) dA _ _ _ E0) as [c' E0']. cbn. congruence. }
      rewrite E1 in E. injection E as <-. eapply DONE; [exact D1|eapply NS; reflexivity|reflexivity].
    - destruct (nth_error (ops st) i0) as [d|] eqn:Ei; [|discriminate].
      destruct (nth_error (hp st) a) as [[ka ca]|] eqn:Ea; [|discriminate].
      unfold h_mul in E.
      destruct (h_add_fresh_spec (h_products smul (hp st) d [(ka, a)]) (hp st) []) as [h1 [d1 [E1 [X1 [D1 V1]]]]].
      { split; [constructor|intros ? ? []]. }
      rewrite E1 in E. injection E as <-. eapply DONE; [exact D1|apply NA|reflexivity].
    - destruct (nth_error (ops st) i0) as [d|] eqn:Ei; [|discriminate].
      destruct (nth_error (ops st) j) as [dA|] eqn:Ej; [|discriminate].
      unfold h_mul in E.
      destruct (h_add_fresh_spec (h_products smul (hp st) d dA) (hp st) []) as [h1 [d1 [E1 [X1 [D1 V1]]]]].
      { split; [constructor|intros ? ? []]. }
      rewrite E1 in E. injection E as <-. eapply DONE; [exact D1|apply NA|reflexivity].
    - destruct (nth_error (ops st) i0) as [d|] eqn:Ei; [|discriminate]. injection E as <-.
      eapply DONE; [exact (sinv_nth _ _ _ H Ei)|eapply NS; reflexivity|reflexivity].
  Qed.

  (** * Commutator *)
  Lemma commutator_step st i j A B : sinv st -> holds st i A -> holds st j B ->
    exists st' p, h_commutator keqb smul i j st = Some (p, st')
      /\ holds st' p (op_commutator keqb smul A B)
      /\ (forall m, m < length (ops st) -> contents st' m = contents st m).
  Proof.
    intros H HA HB. unfold h_commutator. cbn [run].
    destruct (mul_op_step st i j A B H HA HB) as [st1 [E1 [V1 [L1 [C1 [F1 [N1 X1]]]]]]]. rewrite E1.
    pose proof (step_sinv _ _ _ H E1) as H1.
    assert (HA1 : holds st1 i A) by (unfold holds; rewrite C1 by (eapply holds_bound; exact HA); exact HA).
    assert (HB1 : holds st1 j B) by (unfold holds; rewrite C1 by (eapply holds_bound; exact HB); exact HB).
    destruct (mul_op_step st1 j i B A H1 HB1 HA1) as [st2 [E2 [V2 [L2 [C2 [F2 [N2 X2]]]]]]]. rewrite E2.
    pose proof (step_sinv _ _ _ H1 E2) as H2. rewrite L1 in *.
    assert (VP : holds st2 (length (ops st)) (op_mul keqb smul A B)).
    { unfold holds. rewrite C2 by lia. exact V1. }
    assert (ALLOC : forall m d k b, m < S (length (ops st)) -> nth_error (ops st2) m = Some d -> In (k, b) d -> b < length (hp st1)).
    { intros m d k b Lm Em Hin. rewrite N2 in Em by lia. destruct (sinv_nth _ _ _ H1 Em) as [_ G].
      destruct (G k b Hin) as [c Ec]. apply nth_error_Some. congruence. }
    assert (SH : forall m, m < S (length (ops st)) -> share_nothing st2 m (S (length (ops st)))).
    { intros m Lm d e a k k' Ed Ee Hd He. pose proof (ALLOC m d k a Lm Ed Hd). pose proof (F2 e k' a Ee He). lia. }
    destruct (sub_op_step st2 (length (ops st)) (S (length (ops st))) _ _ H2 VP V2 (SH (length (ops st)) ltac:(lia)))
      as [st3 [E3 [V3 [_ [_ C3]]]]]. rewrite E3.
    exists st3, (length (ops st)). split; [reflexivity|]. split; [exact V3|].
    intros m Lm. rewrite C3; [|lia|lia|apply SH; lia]. rewrite C2 by lia. apply C1. exact Lm.
  Qed.
End HeapProofs.

Section HeapSub.
  Variable K : CoefRing.
  Variable key : Type.
  Variable keqb : key -> key -> bool.
  Variable keqb_spec : forall a b, keqb a b = true <-> a = b.
  Variable keq : forall a b : key, {a = b} + {a <> b}.
  Variable smul : key * K -> key * K -> key * K.
  Add Ring KRing2 : (c_ring K).
  Local Open Scope coef_scope.

  Lemma total_neg k (B : opv K key) : total keq k (op_neg B) = - total keq k B.
  Proof.
    unfold op_neg. induction B as [|[k' x] B IH]; cbn in *; [ring|]. destruct (keq k k'); rewrite IH; ring.
  Qed.
  Lemma keys_neg (B : opv K key) : keys (op_neg B) = keys B.
  Proof. unfold keys, op_neg. rewrite map_map. reflexivity. Qed.

  Lemma sub_spec cs (st : state K key) i j A B :
    run keqb smul cs init = Some st -> holds st i A -> holds st j B -> share_nothing st i j ->
    exists st' C, step keqb smul (SubOp i j) st = Some st' /\ holds st' i C /\ NoDup (keys C)
      /\ (forall k c, In (k, c) C <->
            (In k (keys A) \/ In k (keys B)) /\ c = total keq k A - total keq k B /\ small c = false)
      /\ (i <> j -> holds st' j (map (fun e => (fst e, - snd e)) B))
      /\ (forall m, m <> i -> (m < length (ops st))%nat -> share_nothing st m j -> contents st' m = contents st m).
  Proof.
    intros R HA HB SH. pose proof (run_sinv K _ _ keqb_spec _ _ _ _ (init_sinv K _) R) as SI.
    destruct (holds_inv K _ _ _ _ SI HA) as [_ [_ [_ NA]]]. destruct (holds_inv K _ _ _ _ SI HB) as [_ [_ [_ NB]]].
    destruct (sub_op_step K _ _ keqb_spec smul st i j A B SI HA HB SH) as [st' [E [V [N [_ F]]]]].
    destruct (op_add_spec K _ _ keqb_spec keq A (op_neg B) NA) as [ND SP].
    { rewrite keys_neg. exact NB. }
    exists st', (op_sub keqb A B). repeat (split; [assumption|]). split; [|split].
    - intros k c. unfold op_sub. rewrite SP, keys_neg, total_neg.
      replace (total keq k A + - total keq k B) with (total keq k A - total keq k B) by ring. reflexivity.
    - intro Hij. replace (map (fun e => (fst e, - snd e)) B) with (op_neg B); [exact (N Hij)|].
      unfold op_neg. apply map_ext. intros [k x]. cbn. f_equal. ring.
    - exact F.
  Qed.

  Lemma sub_str_spec cs (st : state K key) i a k c A :
    run keqb smul cs init = Some st -> holds st i A -> nth_error (hp st) a = Some (k, c) -> not_stored st i a ->
    exists st' C, step keqb smul (SubStr i a) st = Some st' /\ holds st' i C /\ NoDup (keys C)
      /\ (forall k', total keq k' C = total keq k' A - (if keq k' k then c else 0))
      /\ nth_error (hp st') a = Some (k, - c)
      /\ (forall m, m <> i -> (m < length (ops st))%nat -> not_stored st m a -> contents st' m = contents st m).
  Proof.
    intros R HA Ea NS. pose proof (run_sinv K _ _ keqb_spec _ _ _ _ (init_sinv K _) R) as SI.
    destruct (holds_inv K _ _ _ _ SI HA) as [_ [_ [_ NA]]].
    destruct (sub_str_step K _ _ keqb_spec smul st i a k c A SI HA Ea NS) as [st' [E [V [N F]]]].
    exists st', (op_add_string keqb A (k, c * - (1))). split; [exact E|]. split; [exact V|]. split; [|split; [|split]].
    - apply (op_add_string_NoDup _ _ _ keqb_spec). exact NA.
    - intro k'.
      assert (TL : forall o : opv K key, total keq k' o = lin (fun x => if keq k' x then 1 else 0) o).
      { induction o as [|[x y] o IHo]; [reflexivity|]. cbn [total lin]. cbn. destruct (keq k' x); rewrite IHo; cbn; ring. }
      rewrite !TL, (lin_add_string _ _ _ keqb_spec). cbn. destruct (keq k' k); ring.
    - rewrite N. do 2 f_equal. ring.
    - exact F.
  Qed.
End HeapSub.
