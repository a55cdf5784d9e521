(** Proofs about Ansatz addition. *)
From Coq Require Import Bool List Arith ZArith Lia Ring.
From Verif Require Import Coeff OpSpec OperatorModel OperatorProofs OpTotal AcseSpec AcseModel.
Import ListNotations.

Section AnsatzProofs.
  Variable K : CoefRing.
  Variable key : Type.
  Variable keqb : key -> key -> bool.
  Variable keqb_spec : forall a b, keqb a b = true <-> a = b.
  Variable keq : forall a b : key, {a = b} + {a <> b}.
  Add Ring KRing : (c_ring K).
  Local Open Scope coef_scope.
  Notation layer := (list (key * K)).

  Definition ind (k k' : key) : K := if keq k k' then 1 else 0.

  Lemma total_lin k (o : layer) : total keq k o = lin (ind k) o.
  Proof.
    induction o as [|[k' x] o IH]; cbn; [reflexivity|]. unfold ind at 1. destruct (keq k k'); rewrite IH; ring.
  Qed.

  Lemma total_add k (o : layer) e :
    total keq k (op_add_string keqb o e) = total keq k o + snd e * ind k (fst e).
  Proof. rewrite !total_lin. apply (lin_add_string _ _ _ keqb_spec). Qed.

  Lemma total_cons k (o : layer) e : total keq k (e :: o) = snd e * ind k (fst e) + total keq k o.
  Proof. destruct e as [k' x]. rewrite !total_lin. reflexivity. Qed.

  Lemma tidy_clean (A : list layer) : ans_clean A = tidy A.
  Proof.
    unfold ans_clean, tidy. apply filter_ext. intros [|e a]; reflexivity.
  Qed.

  Lemma tidy_is_tidy (A : list layer) : is_tidy (tidy A).
  Proof.
    intros a H. unfold tidy in H. apply filter_In in H. destruct H as [H N]. split.
    - intro E. subst. discriminate.
    - intros e I. apply in_map_iff in H. destruct H as [b [E _]]. subst a. apply filter_In in I.
      apply negb_true_iff. tauto.
  Qed.

  Lemma filter_id {T} (f : T -> bool) l : (forall x, In x l -> f x = true) -> filter f l = l.
  Proof.
    induction l as [|x l IH]; cbn; [reflexivity|]. intro H. rewrite (H x (or_introl eq_refl)). f_equal. apply IH.
    intros y I. apply H. right. exact I.
  Qed.

  Lemma tidy_id (A : list layer) : is_tidy A -> tidy A = A.
  Proof.
    intro H. unfold tidy. replace (map _ A) with A.
    - apply filter_id. intros a I. destruct (H a I) as [N _]. destruct a; [contradiction|reflexivity].
    - symmetry. rewrite <- (map_id A) at 2. apply map_ext_in. intros a I. apply filter_id.
      intros e J. apply negb_true_iff. apply (H a I). exact J.
  Qed.

  Lemma tidy_app (A B : list layer) : tidy (A ++ B) = tidy A ++ tidy B.
  Proof. unfold tidy. rewrite map_app, filter_app. reflexivity. Qed.

  Lemma gross_app k (A B : list layer) : gross keq k (A ++ B) = gross keq k A + gross keq k B.
  Proof.
    unfold gross, sumK. induction A as [|a A IH]; cbn [app map fold_right]; [ring|]. rewrite IH. ring.
  Qed.

  Lemma sumK_app (a b : list K) : sumK (a ++ b) = sumK a + sumK b.
  Proof. unfold sumK. induction a as [|x a IH]; cbn; [ring|]. rewrite IH. ring. Qed.

  (** Cleaning one layer: the removed coefficients of string [k]. *)
  Lemma clean_total k (o : layer) : exists D : list K, (forall x, In x D -> small x = true) /\
    total keq k (filter (fun e => negb (small (snd e))) o) + sumK D = total keq k o /\
    (NoDup (keys o) -> (length D <= 1)%nat) /\ (~ In k (keys o) -> D = []).
  Proof.
    induction o as [|[k' x] o [D [S [E [L N]]]]].
    - exists []. cbn. split; [intros y []|]. split; [ring|]. split; [lia|reflexivity].
    - cbn [filter snd]. destruct (small x) eqn:Sx; cbn [negb].
      + destruct (keq k k') as [->|n].
        * exists (x :: D). split; [intros y [<-|I]; [exact Sx|apply S; exact I]|]. split.
          -- change (sumK (x :: D)) with (x + sumK D). cbn [total].
             destruct (keq k' k'); [|contradiction]. rewrite <- E. ring.
          -- split.
             ++ intro ND. cbn in ND. inversion ND as [|? ? Hn ND']; subst. rewrite (N Hn). cbn. lia.
             ++ intro H. exfalso. apply H. left. reflexivity.
        * exists D. split; [exact S|]. split.
          -- cbn [total]. destruct (keq k k'); [contradiction|]. exact E.
          -- split; [intro ND; inversion ND; subst; apply L; assumption|].
             intro H. apply N. intro I. apply H. right. exact I.
      + exists D. split; [exact S|]. split; [cbn [total]; destruct (keq k k'); rewrite <- E; ring|].
        split; [intro ND; inversion ND; subst; apply L; assumption|].
        intro H. apply N. intro I. apply H. right. exact I.
  Qed.

  Lemma tidy_gross k (A : list layer) : exists D : list K, (forall x, In x D -> small x = true) /\
    gross keq k (tidy A) + sumK D = gross keq k A /\
    ((forall a, In a A -> NoDup (keys a)) -> (length D <= length A)%nat).
  Proof.
    induction A as [|a A [D [S [E L]]]].
    - exists []. split; [intros x []|]. split; [cbn; ring|cbn; lia].
    - destruct (clean_total k a) as [Da [Sa [Ea [La _]]]]. exists (Da ++ D). split; [|split].
      + intros x I. apply in_app_or in I. destruct I; [apply Sa|apply S]; assumption.
      + rewrite sumK_app. cbn [tidy map filter]. unfold gross at 2. cbn [map sumK fold_right].
        fold (sumK (map (total keq k) A)). change (sumK (map (total keq k) A)) with (gross keq k A).
        rewrite <- Ea, <- E. unfold tidy. cbn [map filter].
        destruct (filter (fun e : key * K => negb (small (snd e))) a) eqn:F.
        * cbn [length Nat.eqb negb]. fold (tidy A). cbn [total]. ring.
        * cbn [length Nat.eqb negb]. unfold gross at 1. cbn [map sumK fold_right].
          fold (tidy A). change (fold_right cadd 0 (map (total keq k) (tidy A))) with (gross keq k (tidy A)). ring.
      + intro ND. rewrite app_length. cbn [length].
        specialize (La (ND a (or_introl eq_refl))).
        assert (length D <= length A)%nat by (apply L; intros b I; apply ND; right; exact I). lia.
  Qed.

  (** ** The fold over the strings of the added operator. *)
  Lemma layer_add_length i e (A : list layer) : length (layer_add keqb i e A) = length A.
  Proof. revert i. induction A as [|a A IH]; intros [|i]; cbn; auto. Qed.

  Lemma layer_add_nth i e (A : list layer) j : (i < length A)%nat ->
    nth j (layer_add keqb i e A) [] = if Nat.eqb j i then op_add_string keqb (nth i A []) e else nth j A [].
  Proof.
    revert i j. induction A as [|a A IH]; intros i j H; cbn in H; [lia|].
    destruct i as [|i], j as [|j]; cbn; try reflexivity. apply IH. lia.
  Qed.

  Lemma gross_layer_add k i e (A : list layer) : (i < length A)%nat ->
    gross keq k (layer_add keqb i e A) = gross keq k A + snd e * ind k (fst e).
  Proof.
    revert i. induction A as [|a A IH]; intros i H; cbn in H; [lia|]. destruct i as [|i].
    - unfold gross. cbn [layer_add map sumK fold_right]. rewrite total_add. ring.
    - unfold gross. cbn [layer_add map sumK fold_right].
      change (total keq k a + gross keq k (layer_add keqb i e A) = total keq k a + gross keq k A + snd e * ind k (fst e)).
      rewrite IH by lia. ring.
  Qed.

  Lemma layer_has_spec k (l : layer) : layer_has keqb k l = true <-> In k (keys l).
  Proof.
    unfold layer_has. destruct (op_get keqb k l) eqn:G.
    - split; [intros _|reflexivity]. apply (op_get_In _ _ _ keqb_spec) in G. unfold keys.
      change k with (fst (k, c)). apply in_map. exact G.
    - split; [discriminate|]. intro H. apply (op_get_None _ _ _ keqb_spec) in G. contradiction.
  Qed.

  Definition seek (m : nat) (A : list layer) (k : key) : option nat :=
    find (fun d => layer_has keqb k (nth d (rev A) [])) (seq 0 m).

  Lemma find_seq_first (f : nat -> bool) m d : find f (seq 0 m) = Some d ->
    (d < m)%nat /\ f d = true /\ forall j, (j < d)%nat -> f j = false.
  Proof.
    cut (forall s, find f (seq s m) = Some d -> (s <= d < s + m)%nat /\ f d = true /\ forall j, (s <= j < d)%nat -> f j = false).
    { intros H F. destruct (H 0%nat F) as [A [B C]]. split; [lia|]. split; [exact B|]. intros j L. apply C. lia. }
    induction m as [|m IH]; intros s H; cbn in H; [discriminate|].
    destruct (f s) eqn:F.
    - injection H as ->. split; [lia|]. split; [exact F|]. intros j L. lia.
    - destruct (IH _ H) as [A [B C]]. split; [lia|]. split; [exact B|]. intros j L.
      destruct (Nat.eq_dec j s) as [->|N]; [exact F|]. apply C. lia.
  Qed.

  Lemma seek_home m (A : list layer) k d : (m <= length A)%nat -> seek m A k = Some d ->
    (d < m)%nat /\ home k A m (length A - 1 - d).
  Proof.
    intros L H. unfold seek in H. apply find_seq_first in H. destruct H as [Dm [Hd Hj]]. split; [exact Dm|].
    rewrite layer_has_spec, rev_nth in Hd by lia.
    split; [lia|]. split; [lia|]. split.
    - replace (length A - 1 - d)%nat with (length A - S d)%nat by lia. exact Hd.
    - intros j J1 J2 I. assert (J : (length A - 1 - j < d)%nat) by lia. apply Hj in J.
      rewrite rev_nth in J by lia. replace (length A - S (length A - 1 - j))%nat with j in J by lia.
      apply layer_has_spec in I. congruence.
  Qed.

  Lemma seek_none m (A : list layer) k i : (m <= length A)%nat -> seek m A k = None -> ~ home k A m i.
  Proof.
    intros L H [I1 [I2 [I3 _]]]. unfold seek in H.
    assert (F := find_none _ _ H (length A - 1 - i)%nat). cbn beta in F.
    rewrite rev_nth in F by lia. replace (length A - S (length A - 1 - i))%nat with i in F by lia.
    apply layer_has_spec in I3. rewrite I3 in F.
    assert (true = false); [apply F; apply in_seq; lia|discriminate].
  Qed.

  Lemma home_unique k (A : list layer) m i j : home k A m i -> home k A m j -> i = j.
  Proof.
    intros [A1 [A2 [A3 A4]]] [B1 [B2 [B3 B4]]]. destruct (lt_eq_lt_dec i j) as [[L|E]|L]; [|exact E|].
    - exfalso. apply (A4 j L B1). exact B3.
    - exfalso. apply (B4 i L A1). exact A3.
  Qed.

  (** Contribution of the strings whose home is layer [i] ([Some i]) or that have none ([None]). *)
  Definition part (m : nat) (A : list layer) (i : option nat) (P : layer) : layer :=
    filter (fun e => match seek m A (fst e), i with
                     | Some d, Some i => Nat.eqb i (length A - 1 - d)
                     | None, None => true
                     | _, _ => false end) P.

  Lemma ans_fold m (A : list layer) : (m <= length A)%nat -> forall P (B : list layer) (n : layer), length B = length A ->
    let st := fold_left (ans_string keqb m A) P (B, n) in
    length (fst st) = length A /\
    (forall i, (i < length A)%nat -> nth i (fst st) [] = fold_left (op_add_string keqb) (part m A (Some i) P) (nth i B [])) /\
    snd st = fold_left (op_add_string keqb) (part m A None P) n.
  Proof.
    intros Lm P. induction P as [|e P IH]; intros B n LB; cbn zeta.
    - cbn. auto.
    - cbn [fold_left]. 
      assert (Q : ans_string keqb m A (B, n) e = match seek m A (fst e) with
                  | Some d => (layer_add keqb (length A - 1 - d) e B, n)
                  | None => (B, op_add_string keqb n e) end) by reflexivity.
      rewrite Q. clear Q. destruct (seek m A (fst e)) as [d|] eqn:Sk.
      + destruct (IH (layer_add keqb (length A - 1 - d) e B) n) as [H1 [H2 H3]].
        { rewrite layer_add_length. exact LB. }
        destruct (seek_home _ _ _ _ Lm Sk) as [Dm _].
        split; [exact H1|]. split.
        * intros i Hi. rewrite H2 by exact Hi. rewrite layer_add_nth by lia.
          cbn [part filter]. unfold part. cbn [filter]. rewrite Sk.
          destruct (Nat.eqb i (length A - 1 - d)) eqn:Ei; [|reflexivity].
          apply Nat.eqb_eq in Ei. subst i. reflexivity.
        * etransitivity; [exact H3|]. unfold part. cbn [filter]. rewrite Sk. reflexivity.
      + destruct (IH B (op_add_string keqb n e) LB) as [H1 [H2 H3]].
        split; [exact H1|]. split.
        * intros i Hi. rewrite H2 by exact Hi. unfold part. cbn [filter]. rewrite Sk. reflexivity.
        * etransitivity; [exact H3|]. unfold part. cbn [filter]. rewrite Sk. reflexivity.
  Qed.

  Lemma total_fold k a (o : layer) :
    total keq k (fold_left (op_add_string keqb) a o) = total keq k o + total keq k a.
  Proof. rewrite !total_lin. apply (lin_fold_add _ _ _ keqb_spec). Qed.

  Lemma total_filter_key k (f : key -> bool) (P : layer) :
    total keq k (filter (fun e => f (fst e)) P) = if f k then total keq k P else 0.
  Proof.
    induction P as [|[k' x] P IH]; cbn; [destruct (f k); reflexivity|].
    destruct (f k') eqn:F; cbn; destruct (keq k k') as [->|n].
    - rewrite F in *. rewrite IH. reflexivity.
    - exact IH.
    - rewrite F in *. exact IH.
    - exact IH.
  Qed.

  Lemma part_home k m (A : list layer) i P : (m <= length A)%nat -> home k A m i ->
    total keq k (part m A (Some i) P) = total keq k P /\ total keq k (part m A None P) = 0.
  Proof.
    intros L H. unfold part.
    rewrite (total_filter_key k (fun k0 => match seek m A k0 with Some d => Nat.eqb i (length A - 1 - d) | None => false end)).
    rewrite (total_filter_key k (fun k0 => match seek m A k0 with Some _ => false | None => true end)).
    destruct (seek m A k) as [d|] eqn:Sk.
    - destruct (seek_home _ _ _ _ L Sk) as [_ H']. rewrite (home_unique _ _ _ _ _ H H'), Nat.eqb_refl. auto.
    - exfalso. apply (seek_none _ _ _ i L Sk). exact H.
  Qed.

  Lemma part_away k m (A : list layer) i P : (m <= length A)%nat -> ~ home k A m i ->
    total keq k (part m A (Some i) P) = 0.
  Proof.
    intros L H. unfold part.
    rewrite (total_filter_key k (fun k0 => match seek m A k0 with Some d => Nat.eqb i (length A - 1 - d) | None => false end)).
    destruct (seek m A k) as [d|] eqn:Sk; [|reflexivity].
    destruct (seek_home _ _ _ _ L Sk) as [_ H']. destruct (Nat.eqb i (length A - 1 - d)) eqn:Ei; [|reflexivity].
    apply Nat.eqb_eq in Ei. subst. contradiction.
  Qed.

  Lemma part_deep m (A : list layer) i P : (m <= length A)%nat -> (i < length A - m)%nat -> part m A (Some i) P = [].
  Proof.
    intros L H. unfold part. induction P as [|e P IH]; cbn; [reflexivity|]. rewrite IH.
    destruct (seek m A (fst e)) as [d|] eqn:Sk; [|reflexivity].
    destruct (seek_home _ _ _ _ L Sk) as [Dm _]. destruct (Nat.eqb i (length A - 1 - d)) eqn:Ei; [|reflexivity].
    apply Nat.eqb_eq in Ei. lia.
  Qed.

  Lemma part_nohome k m (A : list layer) P : (m <= length A)%nat -> (forall i, ~ home k A m i) ->
    total keq k (part m A None P) = total keq k P.
  Proof.
    intros L H. unfold part.
    rewrite (total_filter_key k (fun k0 => match seek m A k0 with Some _ => false | None => true end)).
    destruct (seek m A k) as [d|] eqn:Sk; [|reflexivity].
    destruct (seek_home _ _ _ _ L Sk) as [_ H']. exfalso. apply (H _ H').
  Qed.

  Lemma depth_le closed (A : list layer) : (ans_depth closed A <= length A)%nat.
  Proof. unfold ans_depth, opv in *. destruct (closed =? 1)%Z; [lia|]. destruct (closed =? 0)%Z; lia. Qed.

  Lemma tidy_nil_end (A : list layer) : tidy (A ++ [[]]) = tidy A.
  Proof. rewrite tidy_app. cbn. rewrite app_nil_r. reflexivity. Qed.

  (** The layers before cleaning. *)
  Lemma ans_add_layers closed (A : list layer) P : closed <> 1%Z -> A <> [] ->
    exists R, length R = S (length A) /\ ans_add keqb closed A P = tidy R /\
      (forall i, (i < length A)%nat -> nth i R [] = fold_left (op_add_string keqb) (part (ans_depth closed A) A (Some i) P) (nth i A [])) /\
      nth (length A) R [] = fold_left (op_add_string keqb) (part (ans_depth closed A) A None P) [].
  Proof.
    intros Hc HA. set (m := ans_depth closed A).
    destruct (ans_fold m A (depth_le closed A) P A [] eq_refl) as [H1 [H2 H3]].
    set (st := fold_left (ans_string keqb m A) P (A, [])) in *.
    exists (fst st ++ [snd st]). split; [rewrite app_length; cbn; lia|]. split.
    - destruct A as [|a A]; [contradiction|]. unfold ans_add.
      apply Z.eqb_neq in Hc. rewrite Hc. rewrite tidy_clean.
      change (tidy (match snd st with [] => fst st | n => fst st ++ [n] end) = tidy (fst st ++ [snd st])).
      destruct (snd st); [rewrite tidy_nil_end; reflexivity|reflexivity].
    - split.
      + intros i Hi. rewrite app_nth1 by lia. apply H2. exact Hi.
      + rewrite app_nth2 by lia. replace (length A - length (fst st))%nat with 0%nat by lia. exact H3.
  Qed.

  Theorem add_layers closed (A : list layer) P : closed <> 1%Z -> A <> [] ->
    exists R, length R = S (length A) /\ ans_add keqb closed A P = tidy R /\
      (forall i, (i < length A - ans_depth closed A)%nat -> nth i R [] = nth i A []) /\
      (forall k i, (i < length A)%nat -> home k A (ans_depth closed A) i ->
         total keq k (nth i R []) = total keq k (nth i A []) + total keq k P) /\
      (forall k i, (i < length A)%nat -> ~ home k A (ans_depth closed A) i ->
         total keq k (nth i R []) = total keq k (nth i A [])) /\
      (forall k, (forall i, ~ home k A (ans_depth closed A) i) -> total keq k (nth (length A) R []) = total keq k P) /\
      (forall k i, home k A (ans_depth closed A) i -> total keq k (nth (length A) R []) = 0).
  Proof.
    intros Hc HA. destruct (ans_add_layers closed A P Hc HA) as [R [L [E [H1 H2]]]].
    assert (D := depth_le closed A).
    exists R. split; [exact L|]. split; [exact E|]. split; [|split; [|split; [|split]]].
    - intros i Hi. rewrite H1 by lia. rewrite part_deep by assumption. reflexivity.
    - intros k i Hi Hh. rewrite H1 by exact Hi. rewrite total_fold. f_equal. apply part_home; assumption.
    - intros k i Hi Hh. rewrite H1 by exact Hi. rewrite total_fold, part_away by assumption. ring.
    - intros k Hh. rewrite H2, total_fold, part_nohome by assumption. cbn. ring.
    - intros k i Hh. rewrite H2, total_fold. destruct (part_home k _ A i P D Hh) as [_ ->]. cbn. ring.
  Qed.

  Lemma seek_dec m (A : list layer) k : (m <= length A)%nat -> (exists i, home k A m i) \/ forall i, ~ home k A m i.
  Proof.
    intro L. destruct (seek m A k) as [d|] eqn:Sk.
    - left. destruct (seek_home _ _ _ _ L Sk) as [_ H]. eauto.
    - right. intro i. apply seek_none; assumption.
  Qed.

  Lemma gross_diff k (A B : list layer) (c : K) i : length A = length B -> (i < length A)%nat ->
    (forall j, (j < length A)%nat -> j <> i -> total keq k (nth j B []) = total keq k (nth j A [])) ->
    total keq k (nth i B []) = total keq k (nth i A []) + c -> gross keq k B = gross keq k A + c.
  Proof.
    revert B i. induction A as [|a A IH]; intros [|b B] i L Hi Hj Hc; cbn in L, Hi; try lia.
    unfold gross. cbn [map sumK fold_right].
    change (total keq k b + gross keq k B = total keq k a + gross keq k A + c).
    destruct i as [|i].
    - cbn in Hc. rewrite Hc.
      assert (E : gross keq k B = gross keq k A).
      { clear - Hj L. injection L as L. assert (H : forall j, (j < length A)%nat -> total keq k (nth j B []) = total keq k (nth j A [])).
        { intros j Hl. apply (Hj (S j)); cbn; lia. }
        clear Hj. revert B L H. induction A as [|x A IH]; intros [|y B] L H; cbn in L; try lia; [reflexivity|].
        unfold gross. cbn [map sumK fold_right]. f_equal; [apply (H 0%nat); cbn; lia|].
        apply IH; [lia|]. intros j Hl. apply (H (S j)). cbn. lia. }
      rewrite E. ring.
    - rewrite (IH B i).
      + pose proof (Hj 0%nat ltac:(cbn; lia) ltac:(lia)) as H0. cbn in H0. rewrite H0. ring.
      + lia.
      + lia.
      + intros j Hl Hn. apply (Hj (S j)); cbn; lia.
      + exact Hc.
  Qed.

  Lemma gross_same k (A B : list layer) : length A = length B ->
    (forall j, (j < length A)%nat -> total keq k (nth j B []) = total keq k (nth j A [])) ->
    gross keq k B = gross keq k A.
  Proof.
    revert B. induction A as [|x A IH]; intros [|y B] L H; cbn in L; try lia; [reflexivity|].
    unfold gross. cbn [map sumK fold_right]. f_equal; [apply (H 0%nat); cbn; lia|].
    apply IH; [lia|]. intros j Hl. apply (H (S j)). cbn. lia.
  Qed.

  Lemma part_total k m (A : list layer) P : (m <= length A)%nat -> forall R, length R = S (length A) ->
    (forall i, (i < length A)%nat -> nth i R [] = fold_left (op_add_string keqb) (part m A (Some i) P) (nth i A [])) ->
    nth (length A) R [] = fold_left (op_add_string keqb) (part m A None P) [] ->
    gross keq k R = gross keq k A + total keq k P.
  Proof.
    intros L R LR H1 H2.
    transitivity (gross keq k (A ++ [[]]) + total keq k P).
    2:{ rewrite gross_app. unfold gross at 2. cbn. ring. }
    assert (LA : length (A ++ [[]]) = S (length A)) by (rewrite app_length; cbn; lia).
    destruct (seek_dec m A k L) as [[i Hh]|Hn].
    - assert (Hi : (i < length A)%nat) by apply Hh.
      apply (gross_diff k (A ++ [[]]) R _ i); [lia|lia| |].
      + intros j Hj Nj. destruct (Nat.eq_dec j (length A)) as [->|Nl].
        * rewrite H2, total_fold. destruct (part_home k m A i P L Hh) as [_ ->].
          rewrite app_nth2 by lia. rewrite Nat.sub_diag. cbn. ring.
        * rewrite H1 by lia. rewrite total_fold, part_away by (try exact L; intro H'; apply Nj; apply (home_unique k A m j i H' Hh)).
          rewrite app_nth1 by lia. ring.
      + rewrite H1 by exact Hi. rewrite total_fold. destruct (part_home k m A i P L Hh) as [-> _].
        rewrite app_nth1 by lia. reflexivity.
    - apply (gross_diff k (A ++ [[]]) R _ (length A)); [lia|lia| |].
      + intros j Hj Nj. rewrite H1 by lia. rewrite total_fold, part_away by (exact L || apply Hn).
        rewrite app_nth1 by lia. ring.
      + rewrite H2, total_fold, part_nohome by assumption. rewrite app_nth2 by lia. rewrite Nat.sub_diag. cbn. ring.
  Qed.

  Theorem add_total closed (A : list layer) P k : exists D : list K,
    (forall x, In x D -> small x = true) /\
    gross keq k (ans_add keqb closed A P) + sumK D = gross keq k A + total keq k P.
  Proof.
    destruct A as [|a A].
    - exists []. split; [intros x []|]. cbn. unfold gross. cbn. ring.
    - destruct (Z.eq_dec closed 1) as [->|Hc].
      + unfold ans_add. cbn [Z.eqb Pos.eqb]. rewrite tidy_clean.
        destruct (tidy_gross k ((a :: A) ++ [P])) as [D [S [E _]]]. exists D. split; [exact S|].
        etransitivity; [exact E|]. rewrite gross_app. unfold gross at 2. cbn. ring.
      + destruct (ans_add_layers closed (a :: A) P Hc ltac:(discriminate)) as [R [L [E [H1 H2]]]].
        destruct (tidy_gross k R) as [D [S [ED _]]]. exists D. split; [exact S|].
        rewrite E, ED. apply (part_total k _ _ P (depth_le closed (a :: A)) R L H1 H2).
  Qed.

  Theorem add_deep closed (A : list layer) P : A <> [] ->
    exists rest, ans_add keqb closed A P = tidy (firstn (length A - ans_depth closed A) A) ++ rest /\
      (length rest <= S (ans_depth closed A))%nat.
  Proof.
    intro HA. assert (F : forall R : list layer, (length (tidy R) <= length R)%nat).
    { intro R. unfold tidy. rewrite <- (map_length (filter (fun e => negb (small (snd e)))) R). 
      generalize (map (filter (fun e : key * K => negb (small (snd e)))) R). intro l.
      induction l as [|x l IH]; cbn; [lia|]. destruct (negb _); cbn; lia. }
    destruct (Z.eq_dec closed 1) as [->|Hc].
    - destruct A as [|a A]; [contradiction|]. unfold ans_add. cbn [Z.eqb Pos.eqb]. rewrite tidy_clean, tidy_app.
      unfold ans_depth. cbn [Z.eqb Pos.eqb]. rewrite Nat.sub_0_r, firstn_all. eexists. split; [reflexivity|].
      apply (F [P]).
    - destruct (add_layers closed A P Hc HA) as [R [L [E [H _]]]]. assert (D := depth_le closed A).
      exists (tidy (skipn (length A - ans_depth closed A) R)). split.
      + rewrite E. rewrite <- (firstn_skipn (length A - ans_depth closed A) R) at 1. rewrite tidy_app. do 2 f_equal.
        apply (nth_ext _ _ [] []).
        * rewrite !firstn_length. lia.
        * intros n Hn. rewrite firstn_length in Hn.
          assert (N : forall l : list layer, nth n (firstn (length A - ans_depth closed A) l) [] =
                      if (n <? length A - ans_depth closed A)%nat then nth n l [] else []).
          { intro l. clear. revert n l. generalize (length A - ans_depth closed A)%nat. intro q.
            induction q as [|q IH]; intros n l; cbn [firstn].
            - destruct n; reflexivity.
            - destruct l as [|x l]; [destruct n; cbn [nth]; [reflexivity|destruct (S n <? S q)%nat; reflexivity]|].
              destruct n as [|n]; [reflexivity|]. cbn [nth]. rewrite IH. reflexivity. }
          rewrite !N. destruct (n <? length A - ans_depth closed A)%nat eqn:C; [|reflexivity].
          apply Nat.ltb_lt in C. apply H. exact C.
      + etransitivity; [apply F|]. rewrite skipn_length. lia.
  Qed.

  Theorem add_tidy closed (A : list layer) P : A <> [] -> is_tidy (ans_add keqb closed A P).
  Proof.
    intro H. destruct A as [|a A]; [contradiction|]. unfold ans_add. rewrite tidy_clean. apply tidy_is_tidy.
  Qed.

  Lemma sub_fold_total k P (o : layer) :
    total keq k (fold_left (fun new e => op_add_string keqb new (fst e, cmul (snd e) (copp c1))) P o)
    = total keq k o - total keq k P.
  Proof.
    revert o. induction P as [|e P IH]; intro o; cbn [fold_left]; [cbn; ring|].
    rewrite IH, total_add, total_cons. cbn [fst snd]. ring.
  Qed.

  Theorem sub_total closed (A : list layer) P k : exists D : list K,
    (forall x, In x D -> small x = true) /\
    gross keq k (ans_sub keqb closed A P) + sumK D = gross keq k A - total keq k P.
  Proof.
    unfold ans_sub.
    destruct (add_total closed A (fold_left (fun new e => op_add_string keqb new (fst e, cmul (snd e) (copp c1))) P []) k)
      as [D [S E]].
    exists D. split; [exact S|]. rewrite E, sub_fold_total. cbn. ring.
  Qed.
End AnsatzProofs.
