(** A tomography run on a state vector: values of the elements. *)
From Coq Require Import Bool List Arith ZArith Lia Ring.
From Verif Require Import Coeff MatSpec MatLemmas OpSpec FockSpec PauliModel PauliProofs OperatorModel OperatorProofs TransformModel TwoTerm JWProofs TransformLin
  CircuitSpec CircuitModel CircuitProofs CircuitProofs2 TomoModel TomoProofs CountsProofs RdmModel RdmSpec RdmEnum RdmFock RdmProofs HamModel HamSpec SfProofs FermiModel ItModel ItProofs PlanModel PlanSpec.
Import ListNotations.

Section Exact.
  Variable K : CoefRing.
  Add Ring KRing : (c_ring K).
  Local Open Scope coef_scope.
  Notation pop := (list (list pauli * K)).

  (** Multiples of 2^-k with Gaussian integers. *)
  Lemma dyadic_add k (x y : K) : dyadic k x -> dyadic k y -> dyadic k (x + y).
  Proof.
    intros [a [a' [b [b' ->]]]] [p [p' [q [q' ->]]]]. exists (a + p)%nat, (a' + p')%nat, (b + q)%nat, (b' + q')%nat. rewrite !of_nat_add. ring.
  Qed.
  Lemma dyadic_opp k (x : K) : dyadic k x -> dyadic k (- x).
  Proof. intros [a [a' [b [b' ->]]]]. exists a', a, b', b. ring. Qed.
  Lemma dyadic_i k (x : K) : dyadic k x -> dyadic k (ci * x).
  Proof.
    intros [a [a' [b [b' ->]]]]. exists b', b, a, a'.
    transitivity (cpow chalf k * (ci * (of_nat a - of_nat a' : K) + (ci * ci) * (of_nat b - of_nat b'))); [ring|]. rewrite ci_sq. ring.
  Qed.
  Lemma dyadic_half k (x : K) : dyadic k x -> dyadic (S k) (chalf * x).
  Proof. intros [a [a' [b [b' ->]]]]. exists a, a', b, b'. cbn [cpow]. ring. Qed.
  Lemma dyadic_up k (x : K) : dyadic k x -> dyadic (S k) x.
  Proof.
    intro H. replace x with (chalf * x + chalf * x); [apply dyadic_add; apply dyadic_half; exact H|].
    transitivity ((chalf + chalf) * x); [ring|rewrite chalf_dbl; ring].
  Qed.
  Lemma dyadic_le k l (x : K) : (k <= l)%nat -> dyadic k x -> dyadic l x.
  Proof. induction 1; intro Hx; [exact Hx|]. apply dyadic_up. auto. Qed.
  Lemma dyadic_0 k : dyadic k (0 : K).
  Proof. exists 0%nat, 0%nat, 0%nat, 0%nat. cbn [of_nat]. ring. Qed.
  Lemma dyadic_1 : dyadic 0 (1 : K).
  Proof. exists 1%nat, 0%nat, 0%nat, 0%nat. cbn [of_nat cpow]. ring. Qed.
  Lemma dyadic_pow m k (x : K) : dyadic k x -> dyadic (m + k) (cpow chalf m * x).
  Proof.
    intro H. induction m as [|m IH]; [replace (cpow chalf 0 * x) with x by (cbn; ring); exact H|].
    replace (cpow chalf (S m) * x) with (chalf * (cpow chalf m * x)) by (cbn [cpow]; ring). apply dyadic_half. exact IH.
  Qed.
  Lemma dyadic_ipow z k (x : K) : dyadic k x -> dyadic k (ipow z * x).
  Proof.
    intro H. unfold ipow.
    assert (H1 : dyadic k (1 * x)) by (replace (1 * x) with x by ring; exact H).
    assert (H2 : dyadic k (- (1) * x)) by (replace (- (1) * x) with (- x) by ring; apply dyadic_opp; exact H).
    assert (H3 : dyadic k (- ci * x)) by (replace (- ci * x) with (- (ci * x)) by ring; apply dyadic_opp, dyadic_i; exact H).
    pose proof (dyadic_i k x H) as H4.
    destruct (z mod 4)%Z as [|[[]|[]|]|]; assumption.
  Qed.
  Definition within k {key} (o : list (key * K)) : Prop := forall e, In e o -> dyadic k (snd e).
  Lemma within_set k {key} (keqb : key -> key -> bool) s x (o : list (key * K)) : within k o -> dyadic k x -> within k (op_set keqb s x o).
  Proof.
    intros H Hx. induction o as [|[s' y] o IH]; cbn [op_set].
    - intros e [<-|[]]. exact Hx.
    - destruct (keqb s s').
      + intros e [<-|He]; [exact Hx|apply H; now right].
      + intros e [<-|He]; [apply H; now left|]. apply IH; [intros e' He'; apply H; now right|exact He].
  Qed.
  Lemma within_add k {key} (keqb : key -> key -> bool) (spec : forall a b, keqb a b = true <-> a = b) (o : list (key * K)) e :
    within k o -> dyadic k (snd e) -> within k (op_add_string keqb o e).
  Proof.
    intros H He. unfold op_add_string. destruct (op_get keqb (fst e) o) as [y|] eqn:E; apply within_set; auto.
    apply dyadic_add; [|exact He]. apply (op_get_In K _ _ spec) in E. apply (H _ E).
  Qed.
  Lemma within_fold k a : forall o : pop, within k o -> within k a -> within k (fold_left (op_add_string pauli_list_eqb) a o).
  Proof.
    induction a as [|e a IH]; intros o Ho Ha; cbn [fold_left]; [exact Ho|].
    apply IH; [apply (within_add k _ pauli_list_eqb_spec); [exact Ho|apply Ha; now left]|]. intros e' He'. apply Ha. now right.
  Qed.

  Variable L : nat.
  Hypothesis exact_small : forall x : K, dyadic L x -> small x = true -> x = 0.

  Lemma small_nz (x : K) : dyadic L x -> x <> 0 -> small x = false.
  Proof. intros D H. destruct (small x) eqn:E; [|reflexivity]. contradiction (H (exact_small _ D E)). Qed.
  Lemma lin_clean_within (f : list pauli -> K) (o : pop) : within L o -> lin f (op_clean o) = lin f o.
  Proof.
    induction o as [|[k x] o IH]; intro H; [reflexivity|]. unfold op_clean in *. cbn [filter snd lin].
    assert (IH' := IH (fun e He => H e (or_intror He))). destruct (small x) eqn:E; cbn [negb lin]; rewrite IH'; [|reflexivity].
    rewrite (exact_small x (H (k, x) (or_introl eq_refl)) E). ring.
  Qed.
  Lemma within_clean k (o : pop) : within k o -> within k (op_clean o).
  Proof. intros H e He. apply filter_In in He. apply H. tauto. Qed.
  Lemma half_pow_nz k (c : K) : c <> 0 -> cpow chalf k * c <> 0.
  Proof.
    induction k as [|k IH]; intros Hc H; [apply Hc; transitivity (cpow chalf 0 * c); [cbn; ring|exact H]|].
    apply (IH Hc). cbn [cpow] in H. transitivity ((chalf + chalf) * (cpow chalf k * c)); [rewrite chalf_dbl; ring|].
    transitivity (chalf * cpow chalf k * c + chalf * cpow chalf k * c); [ring|]. rewrite H. ring.
  Qed.

  (** ** The string with coefficient 0 *)
  Definition zeros (o : pop) : Prop := forall e, In e o -> snd e = 0.
  Lemma zeros_add (o : pop) e : zeros o -> snd e = 0 -> zeros (op_add_string pauli_list_eqb o e).
  Proof.
    intros Ho He x Hx. unfold op_add_string in Hx. destruct (op_get pauli_list_eqb (fst e) o) as [y|] eqn:G.
    - apply (op_get_In K _ _ pauli_list_eqb_spec) in G. pose proof (Ho _ G) as Ey. cbn in Ey. clear G.
      induction o as [|[k z] o IH]; cbn [op_set] in Hx; [destruct Hx as [<-|[]]; cbn; rewrite Ey, He; ring|].
      destruct (pauli_list_eqb (fst e) k); destruct Hx as [<-|Hx]; cbn [snd]; try (rewrite Ey, He; ring).
      + apply Ho. right. exact Hx.
      + exact (Ho (k, z) (or_introl eq_refl)).
      + apply IH; auto. intros t Ht. apply Ho. right. exact Ht.
    - clear G. induction o as [|[k z] o IH]; cbn [op_set] in Hx; [destruct Hx as [<-|[]]; exact He|].
      destruct (pauli_list_eqb (fst e) k); destruct Hx as [<-|Hx]; cbn [snd]; try exact He.
      + apply Ho. right. exact Hx.
      + exact (Ho (k, z) (or_introl eq_refl)).
      + apply IH; auto. intros t Ht. apply Ho. right. exact Ht.
  Qed.
  Lemma zeros_fold a : forall o : pop, zeros o -> zeros a -> zeros (fold_left (op_add_string pauli_list_eqb) a o).
  Proof.
    induction a as [|e a IH]; intros o Ho Ha; [exact Ho|]. cbn [fold_left]. apply IH; [|intros x Hx; apply Ha; right; exact Hx].
    apply zeros_add; [exact Ho|]. apply Ha. left. reflexivity.
  Qed.
  Lemma zeros_clean (o : pop) : zeros o -> op_clean o = [].
  Proof.
    induction o as [|[k x] o IH]; intro H; [reflexivity|]. unfold op_clean in *. cbn [filter snd].
    pose proof (H (k, x) (or_introl eq_refl)) as E. cbn in E. rewrite E, small_0. cbn [negb]. apply IH. intros e He. apply H. right. exact He.
  Qed.
  Lemma zeros_mul (t new : pop) : zeros new -> pop_mul t new = [].
  Proof.
    intro H. unfold pop_mul. rewrite op_mul_products. apply zeros_clean. apply zeros_fold; [intros e []|].
    intros e He. unfold products in He. apply in_flat_map in He. destruct He as [x [Hx He]]. apply in_map_iff in He.
    destruct He as [s [<- _]]. unfold pauli_mul. cbn [snd]. rewrite (H x Hx). ring.
  Qed.
  Lemma jw_loop_zeros N rs : forall new : pop, zeros new -> jw_loop N rs new = new \/ jw_loop N rs new = [].
  Proof.
    induction rs as [|[o|] rs IH]; intros new H; cbn [jw_loop]; [left; reflexivity| |apply IH; exact H].
    rewrite zeros_mul by exact H. right. destruct (IH [] ltac:(intros e [])); assumption.
  Qed.
  Lemma jw_zero s : forall e, In e (@jw_string K (s, 0)) -> length (fst e) = length s /\ snd e = 0.
  Proof.
    unfold jw_string. cbn [fst snd]. intros e He.
    destruct (jw_loop_zeros (length s) (rev s) (pop_add_string [] (repeat PI (length s), 0))) as [E|E];
      [intros x [<-|[]]; reflexivity| |]; rewrite E in He; [|destruct He].
    destruct He as [<-|[]]. cbn. rewrite repeat_length. auto.
  Qed.

  (** ** Strings and operators *)
  Lemma jw_string_exact s (c : K) k : dyadic k c -> (count_ops s + k <= L)%nat -> meq (length s) (omat (jw_string (s, c))) (mscal c (fstr_mat s))
    /\ (forall e, In e (jw_string (s, c)) -> length (fst e) = length s) /\ within L (jw_string (s, c)).
  Proof.
    intros Dc HL. destruct (ceqb c 0) eqn:E.
    - apply ceqb_spec in E. subst c. split; [|split; [intros e He; apply (jw_zero s e He)|]].
      2:{ intros e He. rewrite (proj2 (jw_zero s e He)). apply dyadic_0. }
      intros r q _ _. unfold mscal. transitivity (0 : K); [|ring].
      assert (Z : zeros (jw_string (s, 0))) by (intros e He; apply (jw_zero s e He)).
      rewrite omat_is_lin. revert Z. generalize (@jw_string K (s, 0)). intro o. induction o as [|[k' x] o IH]; intro Z; [reflexivity|].
      cbn [lin]. rewrite IH by (intros e He; apply Z; right; exact He). pose proof (Z (k', x) (or_introl eq_refl)) as E. cbn in E. rewrite E. ring.
    - assert (Hc : c <> 0) by (intro H; subst; rewrite (proj2 (ceqb_spec K 0 0) eq_refl) in E; discriminate).
      assert (D : dyadic L (cpow chalf (count_ops s) * c)) by (apply (dyadic_le (count_ops s + k)); [exact HL|apply dyadic_pow; exact Dc]).
      destruct (jw_string_spec K s c) as [M [[_ [W [_ I']]] _]]; [apply small_nz; [exact D|apply half_pow_nz; exact Hc]|]. split; [exact M|]. split; [exact W|].
      intros e He. destruct (I' e He) as [z ->]. apply dyadic_ipow. exact D.
  Qed.
  Lemma op_add_within (f : list pauli -> K) (o a : pop) : within L o -> within L a -> within L (op_add pauli_list_eqb o a) /\
    lin f (op_add pauli_list_eqb o a) = lin f o + lin f a.
  Proof.
    intros Ho Ha. unfold op_add. assert (W := within_fold L a o Ho Ha). split; [apply within_clean; exact W|].
    rewrite (lin_clean_within f _ W), (lin_fold_add _ _ _ pauli_list_eqb_spec). ring.
  Qed.
  Lemma fold_op_within (f : list pauli -> K) rs : forall o : pop, within L o -> (forall r, In r rs -> within L r) ->
    lin f (fold_left (fun new r => op_add pauli_list_eqb new r) rs o) = lin f o + sumK (map (lin f) rs).
  Proof.
    induction rs as [|r rs IH]; intros o Ho H; cbn [fold_left map]; [unfold sumK; cbn; ring|].
    destruct (op_add_within f o r Ho (H r (or_introl eq_refl))) as [W E]. rewrite IH; [|exact W|intros; apply H; right; assumption].
    rewrite E. unfold sumK. cbn [fold_right]. ring.
  Qed.
  Lemma jw_operator_exact N (o : list (fstr * K)) k : (forall e, In e o -> length (fst e) = N /\ dyadic k (snd e) /\ (count_ops (fst e) + k <= L)%nat) ->
    meq N (omat (jw_operator o)) (fop_mat o) /\ (forall e, In e (jw_operator o) -> length (fst e) = N).
  Proof.
    intro H. unfold jw_operator, op_transform.
    assert (JS : forall s c, In (s, c) o -> meq N (omat (jw_string (s, c))) (mscal c (fstr_mat s))
      /\ (forall e, In e (jw_string (s, c)) -> length (fst e) = N) /\ within L (jw_string (s, c))).
    { intros s c He. destruct (H _ He) as [E1 [E2 E3]]. cbn [fst snd] in *. subst N. apply (jw_string_exact s c k); assumption. }
    split.
    - intros r q Hr Hq. rewrite omat_is_lin. rewrite fold_op_within; [|intros e []|].
      + cbn [lin]. rewrite map_map. unfold fop_mat.
        transitivity (sumK (map (fun x => lin (fun k => pmat k r q) (jw_string x)) o)); [ring|].
        f_equal. apply map_ext_in. intros [s c] He.
        transitivity (omat (jw_string (s, c)) r q); [symmetry; apply omat_is_lin|].
        destruct (JS s c He) as [M _]. rewrite M by assumption. reflexivity.
      + intros a Ha. apply in_map_iff in Ha. destruct Ha as [[s c] [<- He]]. apply (JS s c He).
    - destruct (fold_op_add K _ pauli_list_eqb pauli_list_eqb_spec (map jw_string o) [] ltac:(constructor)) as [D [_ [_ [_ [_ [_ [H6 _]]]]]]].
      intros e He. destruct (H6 (fst e)) as [X|[r [X1 X2]]]; [rewrite map_app, in_app_iff; left; apply in_map; exact He|destruct X|].
      apply in_map_iff in X1. destruct X1 as [[s c] [<- Hs]]. apply in_map_iff in X2. destruct X2 as [e' [E2 He']]. rewrite <- E2.
      apply (JS s c Hs). exact He'.
  Qed.
End Exact.

(** * The number of letters of a string *)
Lemma bubble_len l : forall s l', bubble_pass l = Some (s, l') -> length l' = length l.
Proof.
  induction l as [|[a i] l IH]; intros s l' H; [discriminate|]. cbn [bubble_pass] in H. destruct l as [|[b j] l]; [discriminate|].
  destruct (j <? i) eqn:E.
  - injection H as <- <-. reflexivity.
  - destruct (bubble_pass ((b, j) :: l)) as [[s0 l0]|]; [|discriminate]. injection H as <- <-. cbn. f_equal. apply (IH s0 l0 eq_refl).
Qed.
Lemma sort_len (K : CoefRing) anti n : forall (c : K) l c' l', sort_loop anti n c l = Some (c', l') -> length l' = length l.
Proof.
  induction n as [|n IH]; intros c l c' l' H; [discriminate|]. cbn [sort_loop] in H. destruct (bubble_pass l) as [[s0 l0]|] eqn:E.
  - rewrite (IH _ _ _ _ H). apply (bubble_len _ _ _ E).
  - injection H as <- <-. reflexivity.
Qed.
Lemma merge_pass_len l : forall l', merge_pass l = MCont l' -> length l' < length l.
Proof.
  induction l as [|[a i] l IH]; intros l' H; [discriminate|]. cbn [merge_pass] in H. destruct l as [|[b j] l]; [discriminate|].
  destruct (i =? j).
  - destruct (merge_table a b); [|discriminate]. injection H as <-. cbn. lia.
  - destruct (merge_pass ((b, j) :: l)) as [| |l0]; try discriminate. injection H as <-. specialize (IH l0 eq_refl). cbn in *. lia.
Qed.
Lemma merge_len n : forall l l', merge_loop n l = Some (Some l') -> length l' <= length l.
Proof.
  induction n as [|n IH]; intros l l' H; [discriminate|]. cbn [merge_loop] in H. destruct (merge_pass l) as [| |l0] eqn:E; [|discriminate|].
  - injection H as <-. lia.
  - pose proof (merge_pass_len _ _ E). specialize (IH _ _ H). lia.
Qed.
Lemma flat_nones n s : forall i, length (flat i (repeat None n ++ s)) = length (flat 0 s).
Proof.
  assert (G : forall s i j, length (flat i s) = length (flat j s)).
  { induction s0 as [|[o|] s0 IH]; intros i j; cbn; [reflexivity| |apply IH]. f_equal. apply IH. }
  induction n as [|n IH]; intro i; cbn; [apply G|apply IH].
Qed.
Lemma assemble_count l N : count_ops (assemble l N) = length l.
Proof.
  unfold assemble, count_ops. destruct l as [|[o i] l]; [reflexivity|]. rewrite flat_nones. revert o i. induction l as [|[o' i'] l IH]; intros o i.
  - cbn [assemble_from flat length]. rewrite <- (app_nil_r (repeat None (N - i - 1))), flat_nones. reflexivity.
  - change (assemble_from ((o, i) :: (o', i') :: l) N) with (Some o :: repeat None (i' - i - 1) ++ assemble_from ((o', i') :: l) N).
    cbn [flat length]. rewrite flat_nones. f_equal. apply IH.
Qed.
Lemma fermi_new_count (K : CoefRing) anti (c : K) l N s c' : fermi_new anti c l N = Some (s, c') -> count_ops s <= length l.
Proof.
  assert (Z : count_ops (repeat None N) = 0).
  { unfold count_ops. rewrite <- (app_nil_r (repeat None N)), flat_nones. reflexivity. }
  unfold fermi_new. destruct l as [|e0 l0]; [intro H; injection H as <- <-; rewrite Z; lia|]. generalize (e0 :: l0). clear e0 l0. intros l H.
  unfold generate in H. destruct (sort_loop anti _ c l) as [[c1 l1]|] eqn:ES; [|discriminate]. apply sort_len in ES.
  destruct (merge_stage l1) as [m|] eqn:EM; [|discriminate].
  assert (G : forall l2, m = Some l2 -> length l2 <= length l).
  { intros l2 ->. unfold merge_stage in EM. destruct (nodup_inds l1); [injection EM as <-; lia|]. apply merge_len in EM. lia. }
  cbv zeta in H. destruct (ceqb _ c0); [injection H as <- <-; rewrite Z; lia|].
  destruct m as [[|e l2]|]; try discriminate. assert (X : s = assemble (e :: l2) N) by congruence. rewrite X, assemble_count. apply G. reflexivity.
Qed.
