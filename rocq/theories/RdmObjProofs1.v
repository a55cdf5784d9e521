(** Reshaping, traces and sums of RDM objects. *)
From Coq Require Import Bool List Arith Lia Ring.
From Verif Require Import Coeff MatSpec MatLemmas OpSpec FermiModel RdmModel RdmSpec RdmFock RdmProofs HamModel RdmObjModel RdmObjSpec.
Import ListNotations.

Lemma entries_repeat r n : entries (repeat r n) = r ^ n.
Proof. induction n as [|n IH]; cbn; [reflexivity|now rewrite IH]. Qed.
Lemma entries_app a b : entries (a ++ b) = entries a * entries b.
Proof. induction a as [|n a IH]; cbn; [lia|rewrite IH; lia]. Qed.
Lemma rank_acc r l : forall k, fold_left (fun a x => a * r + x) l k = k * r ^ length l + rank r l.
Proof.
  unfold rank. induction l as [|x l IH]; intro k; cbn [fold_left length Nat.pow]; [lia|].
  rewrite (IH (k * r + x)), (IH (0 * r + x)). lia.
Qed.
Lemma rank_cons r x l : rank r (x :: l) = x * r ^ length l + rank r l.
Proof. unfold rank at 1. cbn [fold_left]. rewrite rank_acc. lia. Qed.
Lemma rank_app r a b : rank r (a ++ b) = rank r a * r ^ length b + rank r b.
Proof. unfold rank at 1. rewrite fold_left_app. fold (rank r a). apply rank_acc. Qed.
Lemma rank_lt r p l : orbital_list r p l -> rank r l < r ^ p.
Proof.
  intros [<- F]. induction F as [|x l Hx F IH]; [cbn; lia|]. rewrite rank_cons. cbn [length Nat.pow].
  assert (x * r ^ length l + r ^ length l <= r * r ^ length l) by nia. lia.
Qed.
Lemma ravel_tensor r l : Forall (fun x => x < r) l -> ravel (repeat r (length l)) l = Some (rank r l).
Proof.
  induction l as [|x l IH]; intro F; [reflexivity|]. inversion F as [|? ? Hx F']; subst. cbn [length repeat ravel].
  apply Nat.ltb_lt in Hx. rewrite Hx, IH by assumption. cbn [option_map]. rewrite entries_repeat, rank_cons. reflexivity.
Qed.
Lemma ravel_matrix n m i j : i < n -> j < m -> ravel [n; m] [i; j] = Some (i * m + j).
Proof.
  intros Hi Hj. cbn [ravel entries]. apply Nat.ltb_lt in Hi, Hj. rewrite Hi, Hj. cbn [option_map]. f_equal. lia.
Qed.
Lemma tuples_rank r p : map (rank r) (tuples r p) = seq 0 (r ^ p).
Proof.
  induction p as [|p IH]; [reflexivity|]. cbn [tuples Nat.pow].
  assert (G : forall n k, map (rank r) (flat_map (fun x => map (cons x) (tuples r p)) (seq k n)) = seq (k * r ^ p) (n * r ^ p)).
  { induction n as [|n IHn]; intro k; [reflexivity|]. cbn [seq flat_map]. rewrite map_app, IHn, map_map.
    assert (E : map (fun x => rank r (k :: x)) (tuples r p) = map (fun t => k * r ^ p + t) (map (rank r) (tuples r p))).
    { rewrite map_map. apply map_ext_in. intros t Ht. rewrite rank_cons. f_equal. f_equal. f_equal.
      revert t Ht. clear. induction p as [|p IH]; intros t Ht; cbn in Ht; [destruct Ht as [<- | []]; reflexivity|].
      apply in_flat_map in Ht. destruct Ht as [x [_ Ht]]. apply in_map_iff in Ht. destruct Ht as [u [<- Hu]]. cbn. f_equal. now apply IH. }
    rewrite E, IH. cbn [Nat.mul]. rewrite seq_app. f_equal; [|f_equal; lia].
    clear. generalize (k * r ^ p) as b. generalize (r ^ p) as m. intros m b.
    revert b. induction m as [|m IH] using nat_ind; intro b; [reflexivity|]. rewrite seq_S, map_app, IH. cbn [map]. rewrite seq_S. reflexivity. }
  rewrite G. f_equal.
Qed.
Lemma tuples_orb r p l : In l (tuples r p) -> orbital_list r p l.
Proof.
  revert l. induction p as [|p IH]; intros l H; cbn in H.
  - destruct H as [<- | []]. split; [reflexivity|constructor].
  - apply in_flat_map in H. destruct H as [x [Hx H]]. apply in_map_iff in H. destruct H as [u [<- Hu]]. destruct (IH u Hu) as [L F].
    split; [cbn; lia|]. constructor; [apply in_seq in Hx; lia|exact F].
Qed.

Section Obj.
  Variable K : CoefRing.
  Add Ring KRing : (c_ring K).
  Local Open Scope coef_scope.

  (** Either shape means the same flat content. *)
  Definition content (r p : nat) (a : nda K) (T : list nat -> list nat -> K) : Prop :=
    forall c d, orbital_list r p c -> orbital_list r p d -> flat a (rank r c * r ^ p + rank r d)%nat = T c d.
  Lemma tensor_content r p (a : nda K) T : shape a = repeat r (2 * p) -> (stores_tensor r p a T <-> content r p a T).
  Proof.
    intro Hs. assert (G : forall c d, orbital_list r p c -> orbital_list r p d -> get a (c ++ d) = Some (flat a (rank r c * r ^ p + rank r d)%nat)).
    { intros c d [Lc Fc] [Ld Fd]. unfold get. rewrite Hs. replace (2 * p)%nat with (length (c ++ d)) by (rewrite app_length; lia).
      rewrite ravel_tensor by (apply Forall_app; split; assumption). cbn [option_map]. rewrite rank_app, Ld. reflexivity. }
    split.
    - intros [_ H] c d Hc Hd. specialize (H c d Hc Hd). rewrite G in H by assumption. congruence.
    - intro H. split; [exact Hs|]. intros c d Hc Hd. rewrite G by assumption. now rewrite H.
  Qed.
  Lemma matrix_content r p (a : nda K) T : shape a = [(r ^ p)%nat; (r ^ p)%nat] -> (stores_matrix r p a T <-> content r p a T).
  Proof.
    intro Hs. assert (G : forall c d, orbital_list r p c -> orbital_list r p d -> get a [rank r c; rank r d] = Some (flat a (rank r c * r ^ p + rank r d)%nat)).
    { intros c d Hc Hd. unfold get. rewrite Hs, ravel_matrix by now apply rank_lt. reflexivity. }
    split.
    - intros [_ H] c d Hc Hd. specialize (H c d Hc Hd). rewrite G in H by assumption. congruence.
    - intro H. split; [exact Hs|]. intros c d Hc Hd. rewrite G by assumption. now rewrite H.
  Qed.
  Lemma stores_entries r p (a : nda K) T : stores r p a T -> entries (shape a) = (r ^ p * r ^ p)%nat.
  Proof.
    intros [[H _] | [H _]]; rewrite H; [|cbn; lia]. rewrite entries_repeat. replace (2 * p)%nat with (p + p)%nat by lia. apply Nat.pow_add_r.
  Qed.
  Lemma stores_content r p (a : nda K) T : stores r p a T -> content r p a T.
  Proof. intros [H | H]; [apply (tensor_content r p a T (proj1 H)), H|apply (matrix_content r p a T (proj1 H)), H]. Qed.

  Definition wf (o : rdm K) (T : list nat -> list nat -> K) : Prop := stores (so o) (ord o) (arr o) T.
  Lemma so_with (o : rdm K) a : so (with_arr o a) = so o. Proof. reflexivity. Qed.
  Lemma p1_shape r (a : nda K) T : stores r 1 a T -> shape a = [r; r] /\ stores_matrix r 1 a T /\ stores_tensor r 1 a T.
  Proof.
    intro H. assert (Hs : shape a = [r; r]) by (destruct H as [[E _] | [E _]]; rewrite E; cbn; [reflexivity|now rewrite Nat.mul_1_r]).
    split; [exact Hs|]. apply stores_content in H. split; [apply matrix_content|apply tensor_content]; try exact H; rewrite Hs; cbn; [now rewrite Nat.mul_1_r|reflexivity].
  Qed.
  Lemma contract_spec (o : rdm K) T : wf o T -> exists o', contract o = Some o' /\ ord o' = ord o /\ alp o' = alp o /\ bet o' = bet o /\ ne o' = ne o /\ stores_matrix (so o) (ord o) (arr o') T.
  Proof.
    intro H. unfold contract. destruct (Nat.eqb_spec (ord o) 1) as [E | E].
    - exists o. repeat split; try reflexivity; unfold wf in H; rewrite E in *; apply p1_shape in H; apply H.
    - unfold reshape. rewrite (stores_entries _ _ _ _ H).
      replace (entries [(so o ^ ord o)%nat; (so o ^ ord o)%nat]) with (so o ^ ord o * so o ^ ord o)%nat by (cbn; lia). rewrite Nat.eqb_refl. cbn [option_map].
      eexists. split; [reflexivity|]. repeat (split; [reflexivity|]). cbn [arr with_arr]. apply matrix_content; [reflexivity|]. exact (stores_content _ _ _ _ H).
  Qed.
  Lemma expand_spec (o : rdm K) T : wf o T -> exists o', expand o = Some o' /\ ord o' = ord o /\ alp o' = alp o /\ bet o' = bet o /\ ne o' = ne o /\ stores_tensor (so o) (ord o) (arr o') T.
  Proof.
    intro H. unfold expand. destruct (Nat.eqb_spec (ord o) 1) as [E | E].
    - exists o. repeat (split; [reflexivity|]). unfold wf in H. rewrite E in *. apply p1_shape in H. apply H.
    - unfold reshape. rewrite (stores_entries _ _ _ _ H), entries_repeat.
      assert (Q : (so o ^ (2 * ord o) = so o ^ ord o * so o ^ ord o)%nat) by (replace (2 * ord o)%nat with (ord o + ord o)%nat by lia; apply Nat.pow_add_r).
      rewrite Q, Nat.eqb_refl. cbn [option_map].
      eexists. split; [reflexivity|]. repeat (split; [reflexivity|]). cbn [arr with_arr]. apply tensor_content; [reflexivity|]. exact (stores_content _ _ _ _ H).
  Qed.
  Lemma switch_spec (o : rdm K) T : wf o T -> exists o', switch o = Some o' /\ ord o' = ord o /\ alp o' = alp o /\ bet o' = bet o /\ ne o' = ne o /\ wf o' T /\
     (ord o <> 1%nat -> shape (arr o) = repeat (so o) (2 * ord o) -> ord o <> O -> stores_matrix (so o) (ord o) (arr o') T) /\
     (ord o <> 1%nat -> shape (arr o) = [(so o ^ ord o)%nat; (so o ^ ord o)%nat] -> stores_tensor (so o) (ord o) (arr o') T).
  Proof.
    intro H. destruct (contract_spec o T H) as [o1 [E1 [P1 [A1 [B1 [N1 S1]]]]]]. destruct (expand_spec o T H) as [o2 [E2 [P2 [A2 [B2 [N2 S2]]]]]].
    unfold switch. destruct (Nat.eqb (length (shape (arr o))) 2 && negb (Nat.eqb (ord o) 1)) eqn:E.
    - exists o2. repeat (split; [assumption|]). split; [|split].
      + unfold wf, so. rewrite P2, A2, B2. left. exact S2.
      + intros D Hs Hp. exfalso. apply andb_true_iff in E. destruct E as [E _]. apply Nat.eqb_eq in E. rewrite Hs, repeat_length in E. lia.
      + intros _ _. exact S2.
    - exists o1. repeat (split; [assumption|]). split; [|split].
      + unfold wf, so. rewrite P1, A1, B1. right. exact S1.
      + intros _ _ _. exact S1.
      + intros D Hs. exfalso. rewrite Hs in E. cbn in E. apply negb_false_iff, Nat.eqb_eq in E. contradiction.
  Qed.

  (** ** Traces *)
  Lemma sum_range_tuples r p (f : nat -> K) : sum_range (r ^ p) f = sumK (map (fun c => f (rank r c)) (tuples r p)).
  Proof.
    rewrite sum_range_lsum. rewrite <- tuples_rank. rewrite lsum_map. unfold lsum, sumK. induction (tuples r p) as [|c l IH]; [reflexivity|].
    cbn [fold_right map]. now rewrite IH.
  Qed.
  Lemma sumK_ext' {A} (l : list A) (f g : A -> K) : (forall x, In x l -> f x = g x) -> sumK (map f l) = sumK (map g l).
  Proof. intro H. f_equal. now apply map_ext_in. Qed.
  Lemma sum_range_ext n (f g : nat -> K) : (forall i, (i < n)%nat -> f i = g i) -> sum_range n f = sum_range n g.
  Proof. intro H. rewrite !sum_range_lsum. apply lsum_ext. intros x Hx. apply in_seq in Hx. apply H. lia. Qed.
  Lemma matrix_trace r p (a : nda K) T : stores_matrix r p a T -> np_trace a = Some (Number (sumK (map (fun c => T c c) (tuples r p)))).
  Proof.
    intro H. pose proof (proj1 (matrix_content r p a T (proj1 H)) H) as C. destruct H as [Hs _]. unfold np_trace. rewrite Hs. cbv zeta. f_equal. f_equal.
    rewrite Nat.min_id, sum_range_tuples. apply sumK_ext'. intros c Hc. apply tuples_orb in Hc. cbn [entries].
    rewrite <- (C c c Hc Hc). f_equal. lia.
  Qed.
  Lemma trace_spec (o : rdm K) T : (0 < so o)%nat -> (0 < ord o)%nat -> wf o T ->
    exists o', trace_ o = Some (o', Number (sumK (map (fun c => T c c) (tuples (so o) (ord o))))) /\ ord o' = ord o /\ alp o' = alp o /\ bet o' = bet o /\ ne o' = ne o /\
      wf o' T /\ shape (arr o') = shape (arr o).
  Proof.
    intros Hr Hp H. unfold trace_. assert (D : stores_matrix (so o) (ord o) (arr o) T \/ (ord o <> 1%nat /\ stores_tensor (so o) (ord o) (arr o) T)).
    { destruct (Nat.eq_dec (ord o) 1) as [E | E].
      - left. unfold wf in H. rewrite E in *. apply p1_shape in H. apply H.
      - destruct H as [H | H]; [right; auto|left; exact H]. }
    destruct D as [D | [N1 D]].
    - rewrite (matrix_trace _ _ _ _ D). cbn [index00]. exists o. repeat (split; [reflexivity|]). split; [exact H|reflexivity].
    - assert (Sh := proj1 D). destruct (switch_spec o T H) as [o1 [E1 [P1 [A1 [B1 [N1' [W1 [SM _]]]]]]]]. specialize (SM N1 Sh ltac:(lia)).
      assert (R1 : so o1 = so o) by (unfold so; now rewrite A1, B1).
      destruct (switch_spec o1 T W1) as [o2 [E2 [P2 [A2 [B2 [N2 [W2 [_ ST]]]]]]]]. rewrite P1, R1 in ST. specialize (ST N1 (proj1 SM)).
      unfold np_trace at 1. rewrite Sh. destruct (ord o) as [|[|q]] eqn:Eq; [lia|congruence|].
      replace (2 * S (S q))%nat with (S (S (S (S (2 * q))))) by lia. cbn [repeat]. cbv zeta. cbn [index00 shape].
      destruct (Nat.ltb_spec 0 (so o)) as [_ | L]; [|lia]. cbn [andb]. rewrite E1, (matrix_trace _ _ _ _ SM), E2.
      exists o2. split; [reflexivity|]. rewrite P2, A2, B2, N2. repeat (split; [assumption|]). rewrite (proj1 ST).
      replace (2 * S (S q))%nat with (S (S (S (S (2 * q))))) by lia. reflexivity.
  Qed.
  Lemma dot_trace r p (a b : nda K) A T : stores_matrix r p a A -> stores_matrix r p b T ->
    exists d, np_dot a b = Some d /\ np_trace d = Some (Number (sumK (map (fun c => sumK (map (fun d => A c d * T d c) (tuples r p))) (tuples r p)))).
  Proof.
    intros HA HB. pose proof (proj1 (matrix_content r p a A (proj1 HA)) HA) as CA. pose proof (proj1 (matrix_content r p b T (proj1 HB)) HB) as CB.
    destruct HA as [Sa _], HB as [Sb _]. unfold np_dot. rewrite Sa, Sb, Nat.eqb_refl. eexists. split; [reflexivity|]. unfold np_trace. cbn [shape]. cbv zeta.
    f_equal. f_equal. rewrite Nat.min_id, sum_range_tuples. apply sumK_ext'. intros c Hc. apply tuples_orb in Hc. cbn [flat entries]. rewrite sum_range_tuples. apply sumK_ext'.
    intros d Hd. apply tuples_orb in Hd. pose proof (rank_lt r p c Hc) as Lc.
    replace ((rank r c * r ^ p + rank r c) * 1 + 0)%nat with (rank r c + rank r c * r ^ p)%nat by lia.
    rewrite Nat.div_add, Nat.mod_add, Nat.div_small, Nat.mod_small by lia. cbn [Nat.add]. rewrite (CA c d Hc Hd), (CB d c Hd Hc). reflexivity.
  Qed.
  Lemma observable_spec (o : rdm K) T (H : nda K) A : wf o T -> stores_matrix (so o) (ord o) H A ->
    exists o', observable_ H o = Some (o', Number (sumK (map (fun c => sumK (map (fun d => A c d * T d c) (tuples (so o) (ord o)))) (tuples (so o) (ord o))))) /\
      ord o' = ord o /\ alp o' = alp o /\ bet o' = bet o /\ ne o' = ne o /\ stores_tensor (so o) (ord o) (arr o') T.
  Proof.
    intros W HA. unfold observable_. destruct (contract_spec o T W) as [o1 [E1 [P1 [A1 [B1 [N1 S1]]]]]]. rewrite E1.
    destruct (dot_trace _ _ _ _ _ _ HA S1) as [d [Ed Et]]. rewrite Ed, Et. assert (R1 : so o1 = so o) by (unfold so; now rewrite A1, B1).
    assert (W1 : wf o1 T) by (unfold wf; rewrite R1, P1; right; exact S1).
    destruct (expand_spec o1 T W1) as [o2 [E2 [P2 [A2 [B2 [N2 S2]]]]]]. rewrite E2. exists o2. split; [reflexivity|].
    rewrite P2, A2, B2, N2. repeat (split; [assumption|]). rewrite <- R1, <- P1. exact S2.
  Qed.
  Lemma calls_spec : forall (l : list (call K)) (o : rdm K) T, (0 < so o)%nat -> (0 < ord o)%nat -> wf o T ->
    (forall H, In (CObservable H) l -> shape H = [(so o ^ ord o)%nat; (so o ^ ord o)%nat]) ->
    exists o', do_calls l o = Some o' /\ ord o' = ord o /\ alp o' = alp o /\ bet o' = bet o /\ ne o' = ne o /\ wf o' T.
  Proof.
    induction l as [|c l IH]; intros o T Hr Hp W HH; [exists o; repeat (split; [reflexivity|]); exact W|]. cbn [do_calls].
    assert (G : exists o1, do_call c o = Some o1 /\ ord o1 = ord o /\ alp o1 = alp o /\ bet o1 = bet o /\ ne o1 = ne o /\ wf o1 T).
    { destruct c as [| | | |H]; cbn [do_call].
      - destruct (contract_spec o T W) as [o1 [E [P [A [B [N S]]]]]]. exists o1. repeat (split; [assumption|]). unfold wf, so. rewrite P, A, B. right. exact S.
      - destruct (expand_spec o T W) as [o1 [E [P [A [B [N S]]]]]]. exists o1. repeat (split; [assumption|]). unfold wf, so. rewrite P, A, B. left. exact S.
      - destruct (switch_spec o T W) as [o1 [E [P [A [B [N [S _]]]]]]]. exists o1. repeat (split; [assumption|]). exact S.
      - destruct (trace_spec o T Hr Hp W) as [o1 [E [P [A [B [N [S _]]]]]]]. exists o1. rewrite E. repeat (split; [reflexivity || assumption|]). exact S.
      - assert (HS : stores_matrix (so o) (ord o) H (fun c d => flat H (rank (so o) c * so o ^ ord o + rank (so o) d)%nat)).
        { apply matrix_content; [apply HH; now left|]. intros c d _ _. reflexivity. }
        destruct (observable_spec o T H _ W HS) as [o1 [E [P [A [B [N S]]]]]]. exists o1. rewrite E. repeat (split; [reflexivity || assumption|]).
        unfold wf, so. rewrite P, A, B. left. exact S. }
    destruct G as [o1 [E [P [A [B [N W1]]]]]]. rewrite E. assert (R1 : so o1 = so o) by (unfold so; now rewrite A, B).
    destruct (IH o1 T) as [o2 [E2 [P2 [A2 [B2 [N2 W2]]]]]]; [lia|lia|exact W1| |].
    - intros H Hi. rewrite R1, P. apply HH. now right.
    - exists o2. rewrite P2, A2, B2, N2. repeat (split; [assumption|]). exact W2.
  Qed.

  (** ** Sums *)
  Lemma combine_spec (f : K -> K -> K) (o o' : rdm K) T T' : alp o' = alp o -> bet o' = bet o -> ord o' = ord o -> wf o T -> wf o' T' ->
    exists o1 o1' n, combine_ f o o' = Some (o1, o1', n) /\ stores_tensor (so o) (ord o) (arr o1) T /\ stores_tensor (so o) (ord o) (arr o1') T' /\
      stores_tensor (so o) (ord o) (arr n) (fun c d => f (T c d) (T' c d)) /\
      ord n = ord o /\ alp n = alp o /\ bet n = bet o /\ ne n = ne o.
  Proof.
    intros Ha Hb Hp W W'. unfold combine_, same_system. rewrite Ha, Hb, Hp, Nat.eqb_refl.
    destruct (list_eq_dec Nat.eq_dec (alp o) (alp o)) as [_ | N]; [|congruence]. destruct (list_eq_dec Nat.eq_dec (bet o) (bet o)) as [_ | N]; [|congruence]. cbn [andb].
    assert (R : so o' = so o) by (unfold so; now rewrite Ha, Hb).
    destruct (expand_spec o T W) as [o1 [E [P [A [B [N S]]]]]]. destruct (expand_spec o' T' W') as [o2 [E2 [P2 [A2 [B2 [N2 S2]]]]]]. rewrite R, Hp in S2.
    rewrite E, E2. unfold np_map2. destruct (list_eq_dec Nat.eq_dec (shape (arr o1)) (shape (arr o2))) as [_ | D]; [|exfalso; apply D; rewrite (proj1 S), (proj1 S2); reflexivity].
    cbn [option_map]. eexists _, _, _. split; [reflexivity|]. split; [exact S|]. split; [exact S2|]. split; [|cbn; auto].
    cbn [arr with_arr]. apply tensor_content; [exact (proj1 S)|]. intros c d Hc Hd. cbn [flat].
    rewrite (proj1 (tensor_content _ _ _ _ (proj1 S)) S c d Hc Hd), (proj1 (tensor_content _ _ _ _ (proj1 S2)) S2 c d Hc Hd). reflexivity.
  Qed.
  Lemma combine_refused (f : K -> K -> K) (o o' : rdm K) : alp o' <> alp o \/ bet o' <> bet o \/ ord o' <> ord o -> combine_ f o o' = None.
  Proof.
    intro H. unfold combine_, same_system. destruct (list_eq_dec Nat.eq_dec (alp o) (alp o')) as [E | _]; cbn [andb]; [|reflexivity].
    destruct (list_eq_dec Nat.eq_dec (bet o) (bet o')) as [E' | _]; cbn [andb]; [|reflexivity]. destruct (Nat.eqb_spec (ord o) (ord o')) as [E'' | _]; [|reflexivity].
    exfalso. destruct H as [H | [H | H]]; congruence.
  Qed.
  Lemma scale_spec (o : rdm K) T (v : K) : wf o T ->
    forall x, x = PyInt v \/ x = PyFloat v -> exists n, scale_ o x = Some n /\ wf n (fun c d => T c d * v) /\ ord n = ord o /\ alp n = alp o /\ bet n = bet o /\ ne n = ne o.
  Proof.
    intros W x Hx. assert (E : scale_ o x = Some (with_arr o (Nda (shape (arr o)) (fun t => flat (arr o) t * v)))) by (destruct Hx as [-> | ->]; reflexivity).
    rewrite E. eexists. split; [reflexivity|]. split; [|cbn; auto]. unfold wf. rewrite so_with. cbn [ord arr with_arr].
    pose proof (stores_content _ _ _ _ W) as C. destruct W as [[Hs _] | [Hs _]].
    - left. apply tensor_content; [exact Hs|]. intros c d Hc Hd. cbn [flat]. now rewrite (C c d Hc Hd).
    - right. apply matrix_content; [exact Hs|]. intros c d Hc Hd. cbn [flat]. now rewrite (C c d Hc Hd).
  Qed.
End Obj.
