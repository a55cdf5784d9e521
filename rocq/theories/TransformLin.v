(** Linearity of Operator.transform and of the transforms over Operators. *)
From Coq Require Import Bool List Arith Lia Ring.
From Verif Require Import Coeff MatSpec MatLemmas OpSpec OpTotal PauliModel PauliProofs OperatorModel
  OperatorProofs FockSpec FermiModel FermiProofs TransformModel TwoTerm JWProofs.
Import ListNotations.

Section Lin.
  Variable K : CoefRing.
  Variables key key' : Type.
  Variable keqb : key' -> key' -> bool.
  Variable keqb_spec : forall a b, keqb a b = true <-> a = b.
  Variable keq : forall a b : key', {a = b} + {a <> b}.
  Add Ring KRing : (c_ring K).
  Local Open Scope coef_scope.

  Lemma total_lin k (o : opv K key') :
    total keq k o = lin (fun k' => if keq k k' then 1 else 0) o.
  Proof. induction o as [|[k' x] o IH]; cbn; [reflexivity|]. rewrite IH. destruct (keq k k'); ring. Qed.

  Lemma NoDup_app_l {A} (l m : list A) : NoDup (l ++ m) -> NoDup l.
  Proof.
    induction l as [|x l IH]; cbn; intro H; [constructor|]. inversion H as [|? ? Hn ND]; subst.
    constructor; [|apply IH; exact ND]. intro G. apply Hn. apply in_or_app. left. exact G.
  Qed.

  Lemma fold_op_add (rs : list (opv K key')) (o : opv K key') : NoDup (map fst o) ->
    exists D : opv K key',
      (forall e, In e D -> small (snd e) = true) /\
      (length D <= length o + list_sum (map (@length _) rs))%nat /\
      NoDup (map fst (fold_left (fun new r => op_add keqb new r) rs o)) /\
      (forall e, In e (fold_left (fun new r => op_add keqb new r) rs o) -> small (snd e) = false \/ (rs = [] /\ In e o)) /\
      (forall f, lin f (fold_left (fun new r => op_add keqb new r) rs o) + lin f D =
                 lin f o + sumK (map (lin f) rs)) /\
      (forall k, In k (map fst (fold_left (fun new r => op_add keqb new r) rs o ++ D)) ->
                 In k (map fst o) \/ exists r, In r rs /\ In k (map fst r)) /\
      (length (fold_left (fun new r => op_add keqb new r) rs o) + length D <=
         length o + list_sum (map (@length _) rs))%nat.
  Proof.
    revert o. induction rs as [|r rs IH]; intros o ND; cbn [fold_left map list_sum].
    - exists []. split; [intros e []|]. split; [cbn; lia|]. split; [exact ND|].
      split; [intros e He; right; split; [reflexivity|exact He]|].
      split; [intro f; cbn; ring|]. split; [|cbn; lia].
      intros k Hk. left. rewrite app_nil_r in Hk. exact Hk.
    - destruct (IH (op_add keqb o r)) as [D [H1 [H2 [H3 [H4 [H5 [H6 H7]]]]]]].
      { unfold op_add. apply op_clean_NoDup, (fold_add_NoDup _ _ _ keqb_spec). exact ND. }
      set (F := fold_left (op_add_string keqb) r o) in *.
      assert (EA : op_add keqb o r = op_clean F) by reflexivity.
      assert (LF : (length (op_clean F) + length (dropped F) = length F)%nat).
      { unfold op_clean, dropped. clear. induction F as [|e F IH]; cbn; [reflexivity|].
        destruct (small (snd e)); cbn; lia. }
      assert (LF' : (length F <= length o + length r)%nat) by apply length_fold_add.
      exists (dropped F ++ D). split; [|split; [|split; [exact H3|split; [|split; [|split]]]]].
      + intros e He. apply in_app_or in He. destruct He as [He|He]; [eapply dropped_small; exact He|auto].
      + rewrite app_length. rewrite EA in H7, H2. unfold list_sum in *. cbn [fold_right map] in *. lia.
      + intros e He. left. destruct (H4 e He) as [G|[-> G]]; [exact G|]. eapply clean_not_small. exact G.
      + intro f. rewrite lin_app.
        transitivity (lin f (fold_left (fun new r0 => op_add keqb new r0) rs (op_add keqb o r)) +
                      lin f D + lin f (dropped F)); [ring|].
        rewrite H5, EA. cbn [map sumK fold_right].
        transitivity (lin f (op_clean F) + lin f (dropped F) + sumK (map (lin f) rs)); [ring|].
        rewrite lin_clean. unfold F. rewrite (lin_fold_add _ _ _ keqb_spec). unfold sumK. ring.
      + intros k Hk. rewrite map_app, in_app_iff, map_app, in_app_iff in Hk.
        assert (HF : In k (map fst F) -> In k (map fst o) \/ exists r0, In r0 (r :: rs) /\ In k (map fst r0)).
        { intro HF. apply (In_fst_fold_add _ _ _ keqb_spec) in HF. destruct HF as [HF|HF]; [|left; exact HF].
          right. exists r. split; [left; reflexivity|exact HF]. }
        assert (HR : In k (map fst (fold_left (fun new r0 => op_add keqb new r0) rs (op_add keqb o r) ++ D)) ->
                     In k (map fst o) \/ exists r0, In r0 (r :: rs) /\ In k (map fst r0)).
        { intro G. destruct (H6 k G) as [G'|[r0 [G1 G2]]].
          - rewrite EA in G'. apply HF. apply In_fst_clean in G'. exact G'.
          - right. exists r0. split; [right; exact G1|exact G2]. }
        destruct Hk as [Hk|[Hk|Hk]].
        * apply HR. rewrite map_app, in_app_iff. left. exact Hk.
        * apply HF. apply in_map_iff in Hk. destruct Hk as [e [<- He]]. apply in_map.
          unfold dropped in He. apply filter_In in He. tauto.
        * apply HR. rewrite map_app, in_app_iff. right. exact Hk.
      + rewrite app_length. rewrite EA in H7. rewrite EA. unfold list_sum in *. cbn [fold_right map] in *. lia.
  Qed.

  Lemma op_transform_spec (T : key * K -> opv K key') (o : opv K key) :
    exists D : opv K key',
      (forall e, In e D -> small (snd e) = true) /\
      (length D <= list_sum (map (fun e => length (T e)) o))%nat /\
      NoDup (keys (op_transform keqb T o)) /\
      (forall e, In e (op_transform keqb T o) -> small (snd e) = false) /\
      (forall k, total keq k (op_transform keqb T o) + total keq k D = sumK (map (fun e => total keq k (T e)) o)).
  Proof.
    unfold op_transform. destruct (fold_op_add (map T o) [] ltac:(constructor)) as [D [H1 [H2 [H3 [H4 [H5 _]]]]]].
    exists D. split; [exact H1|]. split; [|split; [exact H3|split]].
    - rewrite map_map in H2. cbn in H2. exact H2.
    - intros e He. destruct (H4 e He) as [G|[_ []]]. exact G.
    - intro k. rewrite !total_lin, H5. cbn [lin]. rewrite map_map.
      transitivity (sumK (map (fun x => lin (fun k' => if keq k k' then 1 else 0) (T x)) o)); [ring|].
      f_equal. apply map_ext. intro e. symmetry. apply total_lin.
  Qed.

  (** When no partial sum is cancelled to a small value the residual is absent; stated for images
      with pairwise different strings. *)
  Lemma op_transform_fresh (T : key * K -> opv K key') (o : opv K key) :
    NoDup (map fst (concat (map T o))) -> (forall e, In e (concat (map T o)) -> small (snd e) = false) ->
    op_transform keqb T o = concat (map T o).
  Proof.
    unfold op_transform. intros ND SM.
    assert (G : forall (rs : list (opv K key')) acc, NoDup (map fst (acc ++ concat rs)) ->
              (forall e, In e (acc ++ concat rs) -> small (snd e) = false) ->
              fold_left (fun new r => op_add keqb new r) rs acc = acc ++ concat rs).
    { induction rs as [|r rs IH]; intros acc ND' SM'; cbn in *; [rewrite app_nil_r; reflexivity|].
      rewrite app_assoc in *. unfold op_add at 2.
      rewrite (fold_add_fresh _ _ _ keqb_spec).
      2:{ rewrite map_app in ND'. apply NoDup_app_l in ND'. exact ND'. }
      rewrite clean_id; [apply IH; assumption|].
      intros e He. apply SM'. apply in_or_app. left. exact He. }
    apply (G (map T o) []); assumption.
  Qed.
End Lin.

Lemma op_transform_pool_eq (K : CoefRing) (key key' : Type) (keqb : key' -> key' -> bool)
  (T : key * K -> list (key' * K)) (chunks : list (list (key * K))) :
  op_transform_pool keqb T chunks = op_transform keqb T (concat chunks).
Proof. unfold op_transform_pool, op_transform. rewrite concat_map. reflexivity. Qed.

Section JWOp.
  Variable K : CoefRing.
  Add Ring KRing2 : (c_ring K).
  Local Open Scope coef_scope.

  Lemma jw_exact (s : fstr) (c : K) :
    small (cpow chalf (length (flat 0 s)) * c) = false ->
    meq (length s) (omat (jw_string (s, c))) (mscal c (fstr_mat s)).
  Proof. intro H. apply (jw_string_spec K s c H). Qed.

  Lemma jw_size (s : fstr) (c : K) :
    small (cpow chalf (length (flat 0 s)) * c) = false ->
    NoDup (keys (jw_string (s, c))) /\ length (jw_string (s, c)) = (2 ^ length (flat 0 s))%nat.
  Proof. intro H. destruct (jw_string_spec K s c H) as [_ [[ND _] L]]. split; [exact ND|exact L]. Qed.

  Lemma omat_is_lin (o : opv K (list pauli)) r c : omat o r c = lin (fun k => pmat k r c) o.
  Proof.
    induction o as [|[k x] o IH]; [reflexivity|]. rewrite omat_cons, IH. cbn. reflexivity.
  Qed.

  Lemma jw_operator_spec (N : nat) (o : list (fstr * K)) :
    (forall e, In e o -> length (fst e) = N /\ small (cpow chalf (length (flat 0 (fst e))) * snd e) = false) ->
    exists D : list (list pauli * K),
      (forall e, In e D -> small (snd e) = true) /\
      (length D <= list_sum (map (fun e => 2 ^ length (flat 0 (fst e))) o))%nat /\
      meq N (madd (omat (jw_operator o)) (omat D))
            (fun r c => sumK (map (fun e => snd e * fstr_mat (fst e) r c) o)).
  Proof.
    intro H. unfold jw_operator, op_transform.
    destruct (fold_op_add K _ pauli_list_eqb pauli_list_eqb_spec (map jw_string o) [] ltac:(constructor))
      as [D [H1 [H2 [H3 [H4 [H5 _]]]]]].
    exists D. split; [exact H1|]. split.
    - cbn [length plus] in H2. eapply Nat.le_trans; [exact H2|]. rewrite map_map.
      clear - H. induction o as [|[s c] o IH]; [cbn; lia|]. unfold list_sum in *. cbn [map fold_right fst].
      destruct (H (s, c) (or_introl eq_refl)) as [_ HS]. cbn [fst snd] in HS.
      destruct (jw_size s c HS) as [_ L]. rewrite L. apply Nat.add_le_mono_l. apply IH. intros e He. apply H. right. exact He.
    - intros r q Hr Hq. unfold madd. rewrite !omat_is_lin, H5. cbn [lin]. rewrite map_map.
      transitivity (sumK (map (fun x => lin (fun k => pmat k r q) (jw_string x)) o)); [ring|].
      clear - H Hr Hq. induction o as [|[s c] o IH]; [reflexivity|]. cbn [map sumK fold_right].
      f_equal; [|apply IH; intros e He; apply H; right; exact He].
      destruct (H (s, c) (or_introl eq_refl)) as [L HS]. cbn [fst snd] in *.
      rewrite <- omat_is_lin. rewrite (jw_exact s c HS r q) by congruence. reflexivity.
  Qed.
End JWOp.
