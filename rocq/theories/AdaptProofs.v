From Coq Require Import Bool List Arith QArith Qabs Lia Lqa Sorted Ring.
From Verif Require Import Coeff MatSpec FockSpec FermiModel OperatorModel PauliModel TransformModel CircuitModel AcseModel RdmModel VqeModel AdaptModel.
Import ListNotations.
Local Open Scope nat_scope.

Lemma Qltb_true a b : Qltb a b = true -> (a < b)%Q.
Proof. unfold Qltb. intro H. apply negb_true_iff in H. apply Qnot_le_lt. intro C. apply Qle_bool_iff in C. congruence. Qed.
Lemma Qltb_false a b : Qltb a b = false -> (b <= a)%Q.
Proof. unfold Qltb. intro H. apply negb_false_iff in H. apply Qle_bool_iff. exact H. Qed.

Lemma argmax_from_spec l : forall pre best v, best < length pre -> nth best pre 0%Q = v ->
  (forall j, j < length pre -> (nth j pre 0 <= v)%Q) -> (forall j, j < best -> (nth j pre 0 < v)%Q) ->
  let i := argmax_from (length pre) best v l in
  i < length (pre ++ l) /\ (forall j, j < length (pre ++ l) -> (nth j (pre ++ l) 0 <= nth i (pre ++ l) 0)%Q)
  /\ (forall j, j < i -> (nth j (pre ++ l) 0 < nth i (pre ++ l) 0)%Q).
Proof.
  induction l as [|x l IH]; intros pre best v B V M F; cbn [argmax_from].
  - rewrite app_nil_r, V. auto.
  - replace (S (length pre)) with (length (pre ++ [x])) by (rewrite app_length; cbn; lia).
    replace (pre ++ x :: l) with ((pre ++ [x]) ++ l) by (rewrite <- app_assoc; reflexivity).
    destruct (Qltb v x) eqn:E; apply IH.
    + rewrite app_length. cbn. lia.
    + rewrite app_nth2, Nat.sub_diag by lia. reflexivity.
    + intros j Hj. apply Qltb_true in E. rewrite app_length in Hj. cbn in Hj. destruct (Nat.eq_dec j (length pre)) as [->|N].
      * rewrite app_nth2, Nat.sub_diag by lia. cbn. lra.
      * rewrite app_nth1 by lia. specialize (M j ltac:(lia)). lra.
    + intros j Hj. apply Qltb_true in E. rewrite app_nth1 by lia. specialize (M j Hj). lra.
    + rewrite app_length. cbn. lia.
    + rewrite app_nth1 by lia. exact V.
    + intros j Hj. apply Qltb_false in E. rewrite app_length in Hj. cbn in Hj. destruct (Nat.eq_dec j (length pre)) as [->|N].
      * rewrite app_nth2, Nat.sub_diag by lia. cbn. lra.
      * rewrite app_nth1 by lia. apply M. lia.
    + intros j Hj. rewrite app_nth1 by lia. apply F. exact Hj.
Qed.
Lemma argmax_spec l i : argmax l = Some i ->
  i < length l /\ (forall j, j < length l -> (nth j l 0 <= nth i l 0)%Q) /\ (forall j, j < i -> (nth j l 0 < nth i l 0)%Q).
Proof.
  destruct l as [|x l]; [discriminate|]. intro H. injection H as <-.
  apply (argmax_from_spec l [x] 0 x).
  - cbn. lia.
  - reflexivity.
  - intros j Hj. cbn in Hj. replace j with 0 by lia. cbn. lra.
  - intros; lia.
Qed.

Section Zero.
  Variable K : CoefRing.
  Add Ring KRing : (c_ring K).
  Local Open Scope coef_scope.
  Definition zeros {A} (o : list (A * K)) : Prop := forall e, In e o -> snd e = 0.

  Lemma op_get_in {A} (q : A -> A -> bool) k (o : list (A * K)) y : op_get q k o = Some y -> exists e, In e o /\ snd e = y.
  Proof.
    induction o as [|[k' x] o IH]; cbn [op_get]; [discriminate|]. destruct (q k k').
    - intro H. injection H as <-. exists (k', x). split; [left; reflexivity|reflexivity].
    - intro H. destruct (IH H) as [e [I E]]. exists e. split; [right; exact I|exact E].
  Qed.
  Lemma zeros_set {A} (q : A -> A -> bool) k (o : list (A * K)) : zeros o -> zeros (op_set q k 0 o).
  Proof.
    unfold zeros. induction o as [|[k' x] o IH]; cbn [op_set]; intros Z e H.
    - destruct H as [<- |[]]. reflexivity.
    - destruct (q k k'); destruct H as [<- |H]; try reflexivity.
      + apply Z. right. exact H.
      + apply Z. left. reflexivity.
      + apply IH; [intros e' He'; apply Z; right; exact He'|exact H].
  Qed.
  Lemma zeros_add_string {A} (q : A -> A -> bool) (o : list (A * K)) e : zeros o -> snd e = 0 -> zeros (op_add_string q o e).
  Proof.
    intros Z E. unfold op_add_string. destruct (op_get q (fst e) o) as [y|] eqn:G.
    - destruct (op_get_in q _ _ _ G) as [e' [I Y]]. rewrite E. rewrite <- Y, (Z _ I). replace (0 + 0 : K) with (0 : K) by ring. apply zeros_set. exact Z.
    - rewrite E. apply zeros_set. exact Z.
  Qed.
  Lemma zeros_clean {A} (o : list (A * K)) : zeros o -> op_clean o = [].
  Proof.
    unfold op_clean, zeros. induction o as [|e o IH]; [reflexivity|]. intro Z. cbn [filter].
    rewrite (Z e (or_introl eq_refl)), small_0. cbn [negb]. apply IH. intros e' H. apply Z. right. exact H.
  Qed.
  Lemma zeros_mul (o a : list (list pauli * K)) : zeros a -> pop_mul o a = [].
  Proof.
    intro Z. unfold pop_mul, op_mul. apply zeros_clean.
    assert (G : forall a new, zeros a -> zeros new ->
      zeros (fold_left (fun new x => fold_left (fun new' s => op_add_string pauli_list_eqb new' (pauli_mul s x)) o new) a new)).
    { clear. induction a as [|x a IH]; intros new Za Zn; cbn [fold_left]; [exact Zn|]. apply IH; [intros e H; apply Za; right; exact H|].
      assert (X : snd x = 0) by (apply Za; left; reflexivity). clear IH Za. revert new Zn. induction o as [|s o IH]; intros new Zn; cbn [fold_left]; [exact Zn|].
      apply IH. apply zeros_add_string; [exact Zn|]. unfold pauli_mul. cbn [snd]. rewrite X. ring. }
    apply G; [exact Z|intros e []].
  Qed.
  Lemma zeros_jw_loop N rs : forall new : list (list pauli * K), zeros new -> zeros (jw_loop N rs new).
  Proof.
    induction rs as [|[o|] rs IH]; intros new Z; cbn [jw_loop]; [exact Z| |apply IH; exact Z]. apply IH. rewrite zeros_mul by exact Z. intros e [].
  Qed.
  Lemma zeros_jw_string x : snd x = 0 -> zeros (jw_string (K := K) x).
  Proof. intro H. unfold jw_string. cbv zeta. apply zeros_jw_loop. apply zeros_add_string; [intros e []|exact H]. Qed.
  Lemma zeros_fold_add (r : list (list pauli * K)) : zeros r -> forall new, zeros new -> zeros (fold_left (op_add_string pauli_list_eqb) r new).
  Proof.
    induction r as [|e r IH]; intros Z new Zn; cbn [fold_left]; [exact Zn|]. apply IH; [intros x H; apply Z; right; exact H|].
    apply zeros_add_string; [exact Zn|]. apply Z. left. reflexivity.
  Qed.
  Lemma zeros_jw_operator (o : list (fstr * K)) : zeros o -> jw_operator o = [].
  Proof.
    unfold jw_operator, op_transform. induction o as [|x o IH]; [reflexivity|]. intro Z. cbn [map fold_left].
    unfold op_add at 2. rewrite zeros_clean.
    - apply IH. intros e H. apply Z. right. exact H.
    - apply zeros_fold_add; [|intros e []]. apply zeros_jw_string. apply Z. left. reflexivity.
  Qed.
  Lemma sort_loop_zero anti fuel : forall l c' l', sort_loop (K := K) anti fuel 0 l = Some (c', l') -> c' = 0.
  Proof.
    induction fuel as [|f IH]; intros l c' l'; cbn [sort_loop]; [discriminate|]. destruct (bubble_pass l) as [[s l2]|].
    - replace (if anti && s then (0 : K) * - (1) else 0) with (0 : K) by (destruct (anti && s); ring). apply IH.
    - intro H. injection H as <- _. reflexivity.
  Qed.
  Lemma fermi_new_zero anti l N x : fermi_new (K := K) anti 0 l N = Some x -> snd x = 0.
  Proof.
    unfold fermi_new. destruct l as [|e l]; [intro H; injection H as <-; reflexivity|]. unfold generate.
    destruct (sort_loop anti _ 0 (e :: l)) as [[c' l']|] eqn:E; [|discriminate]. apply sort_loop_zero in E. subst c'.
    destruct (merge_stage l') as [m|]; [|discriminate]. replace (match m with Some _ => (0:K) | None => 0 end) with (0:K) by (destruct m; reflexivity).
    replace (ceqb (0:K) 0) with true by (symmetry; apply ceqb_spec; reflexivity). intro H. injection H as <-. reflexivity.
  Qed.
  Lemma assign_op_zero N t o : assign_op (K := K) N t 0 = Some o -> zeros o.
  Proof.
    unfold assign_op. destruct (fermi_new true 0 (rdme_letters t) N) as [x|] eqn:E1; [|discriminate].
    destruct (shortens t); [discriminate|]. destruct (fermi_new true 0 (rdme_letters (rev t)) N) as [y|] eqn:E2; [|discriminate]. intro H. injection H as <-.
    apply fermi_new_zero in E1, E2. apply zeros_add_string; [apply zeros_add_string; [intros e []|exact E1]|]. cbn [snd]. rewrite E2. ring.
  Qed.
  Lemma assign_snoc_zero N t items : forall l : list (list nat * K), assign_variables N (l ++ [(t, 0)]) = Some items -> assign_variables N l = Some items.
  Proof.
    unfold assign_variables, assign_all. intro l. rewrite forallb_app. destruct (forallb _ l); cbn [andb]; [|discriminate]. destruct (forallb _ [(t, 0)]); [|discriminate]. revert items. induction l as [|[u p] l IH]; intros items; cbn [app assign].
    - destruct (assign_op N t 0) as [o|] eqn:E; [|discriminate]. apply assign_op_zero in E. rewrite zeros_jw_operator by exact E. intro H. exact H.
    - destruct (assign_op N u p) as [o|]; [|discriminate]. destruct (assign _ N (l ++ [(t, 0)])) as [r|] eqn:E; [|discriminate].
      rewrite (IH r eq_refl). intro H. exact H.
  Qed.
  Lemma combine_snoc {A B} (l : list A) (m : list B) a b : length l = length m -> combine (l ++ [a]) (m ++ [b]) = combine l m ++ [(a, b)].
  Proof.
    revert m. induction l as [|x l IH]; intros [|y m]; cbn; intro H; try discriminate; [reflexivity|]. f_equal. apply IH. lia.
  Qed.
  Lemma program_grow {R} (reim : K -> R * R) (tiny : R -> bool) N terms para t g : length terms = length para ->
    ad_program reim tiny N (terms ++ [t]) (para ++ [0]) = Some g -> ad_program reim tiny N terms para = Some g.
  Proof.
    intros L. unfold ad_program. rewrite combine_snoc by exact L.
    destruct (assign_variables N (combine terms para ++ [(t, 0)])) as [items|] eqn:E; [|discriminate].
    rewrite (assign_snoc_zero _ _ _ _ E). intro H. exact H.
  Qed.
End Zero.
