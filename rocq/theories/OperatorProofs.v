(** Proofs about the value-level Operator model. *)
From Coq Require Import Bool List Ring Lia.
From Verif Require Import Coeff OperatorModel.
Import ListNotations.
Local Open Scope coef_scope.

Section OpProofs.
  Variable K : CoefRing.
  Add Ring KRing : (c_ring K).
  Variable key : Type.
  Variable keqb : key -> key -> bool.
  Hypothesis keqb_spec : forall a b, keqb a b = true <-> a = b.

  Notation opv := (opv K key).

  Lemma keqb_refl k : keqb k k = true.
  Proof. apply keqb_spec. reflexivity. Qed.
  Lemma keqb_neq a b : a <> b -> keqb a b = false.
  Proof. intro H. destruct (keqb a b) eqn:E; [|reflexivity]. apply keqb_spec in E. contradiction. Qed.

  Lemma op_get_In k x (o : opv) : op_get keqb k o = Some x -> In (k, x) o.
  Proof.
    induction o as [|[k' y] o IH]; cbn; [discriminate|].
    destruct (keqb k k') eqn:E.
    - apply keqb_spec in E. subst. intro H; injection H as ->. left. reflexivity.
    - intro H. right. apply IH. exact H.
  Qed.

  Lemma op_get_None k (o : opv) : op_get keqb k o = None <-> ~ In k (map fst o).
  Proof.
    induction o as [|[k' y] o IH]; cbn; [tauto|].
    destruct (keqb k k') eqn:E.
    - apply keqb_spec in E. subst. split; [discriminate|]. intro H. exfalso. apply H. left. reflexivity.
    - rewrite IH. split.
      + intros H [G|G]; [|contradiction]. subst. rewrite keqb_refl in E. discriminate.
      + intros H G. apply H. right. exact G.
  Qed.

  Lemma op_get_NoDup k x (o : opv) : NoDup (map fst o) -> In (k, x) o -> op_get keqb k o = Some x.
  Proof.
    induction o as [|[k' y] o IH]; cbn; [tauto|]. intros ND HI. inversion ND as [|? ? Hn ND']; subst.
    destruct HI as [H|H].
    - injection H as -> ->. rewrite keqb_refl. reflexivity.
    - rewrite keqb_neq; [apply IH; assumption|].
      intros ->. apply Hn. apply in_map_iff. exists (k', x). split; [reflexivity|exact H].
  Qed.

  Lemma op_get_set k k' x (o : opv) :
    op_get keqb k (op_set keqb k' x o) = if keqb k k' then Some x else op_get keqb k o.
  Proof.
    induction o as [|[k1 y] o IH]; cbn.
    - destruct (keqb k k'); reflexivity.
    - destruct (keqb k' k1) eqn:E.
      + apply keqb_spec in E. subst k1. cbn. destruct (keqb k k'); reflexivity.
      + cbn. rewrite IH. destruct (keqb k k1) eqn:F; [|reflexivity].
        apply keqb_spec in F. subst k1. rewrite keqb_neq; [reflexivity|].
        intros ->. rewrite keqb_refl in E. discriminate.
  Qed.

  Lemma op_set_keys k x (o : opv) :
    map fst (op_set keqb k x o) =
    if existsb (keqb k) (map fst o) then map fst o else map fst o ++ [k].
  Proof.
    induction o as [|[k1 y] o IH]; cbn; [reflexivity|].
    destruct (keqb k k1) eqn:E; cbn; [reflexivity|].
    rewrite IH. destruct (existsb (keqb k) (map fst o)); reflexivity.
  Qed.

  Lemma existsb_keqb k l : existsb (keqb k) l = true <-> In k l.
  Proof.
    rewrite existsb_exists. split.
    - intros [x [H E]]. apply keqb_spec in E. subst. exact H.
    - intro H. exists k. split; [exact H|apply keqb_refl].
  Qed.

  Lemma NoDup_snoc {A} (l : list A) a : NoDup l -> ~ In a l -> NoDup (l ++ [a]).
  Proof.
    induction l as [|x l IH]; cbn; intros ND HI.
    - constructor; [tauto|constructor].
    - inversion ND; subst. constructor.
      + rewrite in_app_iff. cbn. intros [G|[G|[]]]; [contradiction|]. subst. apply HI. left. reflexivity.
      + apply IH; [assumption|]. intro G. apply HI. right. exact G.
  Qed.

  Lemma op_set_NoDup k x (o : opv) : NoDup (map fst o) -> NoDup (map fst (op_set keqb k x o)).
  Proof.
    intro H. rewrite op_set_keys. destruct (existsb (keqb k) (map fst o)) eqn:E; [exact H|].
    apply NoDup_snoc; [exact H|]. rewrite <- existsb_keqb. congruence.
  Qed.

  Lemma op_add_string_NoDup (o : opv) e :
    NoDup (map fst o) -> NoDup (map fst (op_add_string keqb o e)).
  Proof. intro H. unfold op_add_string. destruct (op_get keqb (fst e) o); apply op_set_NoDup; exact H. Qed.

  Lemma fold_add_NoDup a (o : opv) :
    NoDup (map fst o) -> NoDup (map fst (fold_left (op_add_string keqb) a o)).
  Proof.
    revert o. induction a as [|e a IH]; intros o H; cbn; [exact H|]. apply IH.
    apply op_add_string_NoDup. exact H.
  Qed.

  Lemma filter_NoDup_fst (f : key * K -> bool) (o : opv) :
    NoDup (map fst o) -> NoDup (map fst (filter f o)).
  Proof.
    induction o as [|[k x] o IH]; cbn; [auto|]. intro H. inversion H as [|? ? Hn ND]; subst.
    destruct (f (k, x)); cbn; [|apply IH; exact ND]. constructor; [|apply IH; exact ND].
    intro G. apply Hn. apply in_map_iff in G. destruct G as [e [E G]]. apply filter_In in G.
    apply in_map_iff. exists e. tauto.
  Qed.

  Lemma op_clean_NoDup (o : opv) : NoDup (map fst o) -> NoDup (map fst (op_clean o)).
  Proof. apply filter_NoDup_fst. Qed.

  Lemma op_get_clean k (o : opv) : NoDup (map fst o) ->
    op_get keqb k (op_clean o) =
    match op_get keqb k o with Some x => if small x then None else Some x | None => None end.
  Proof.
    unfold op_clean.
    induction o as [|[k' x] o IH]; cbn; [reflexivity|]. intro H. inversion H as [|? ? Hn ND]; subst.
    destruct (keqb k k') eqn:E.
    - apply keqb_spec in E. subst k'. destruct (small x) eqn:S; cbn.
      + rewrite IH by exact ND. apply op_get_None in Hn. rewrite Hn. reflexivity.
      + rewrite keqb_refl. reflexivity.
    - destruct (small x) eqn:S; cbn; [|rewrite E]; apply IH; exact ND.
  Qed.

  Lemma op_get_add_string k (o : opv) e :
    op_get keqb k (op_add_string keqb o e) =
    if keqb k (fst e) then
      Some (match op_get keqb k o with Some y => y + snd e | None => snd e end)
    else op_get keqb k o.
  Proof.
    unfold op_add_string. destruct (op_get keqb (fst e) o) eqn:G; rewrite op_get_set;
      destruct (keqb k (fst e)) eqn:E; try reflexivity; apply keqb_spec in E; subst k; rewrite G; reflexivity.
  Qed.

  Lemma op_get_fold k a (o : opv) : NoDup (map fst a) ->
    op_get keqb k (fold_left (op_add_string keqb) a o) =
    match op_get keqb k o, op_get keqb k a with
    | Some x, Some y => Some (x + y)
    | Some x, None => Some x
    | None, y => y
    end.
  Proof.
    revert o. induction a as [|[k' y] a IH]; intros o ND; cbn.
    - destruct (op_get keqb k o); reflexivity.
    - inversion ND as [|? ? Hn ND']; subst. rewrite IH by exact ND'.
      rewrite op_get_add_string. cbn. destruct (keqb k k') eqn:E; [|reflexivity].
      apply keqb_spec in E. subst k'. apply op_get_None in Hn. rewrite Hn.
      destruct (op_get keqb k o); reflexivity.
  Qed.

  (** * Linear functionals *)
  Fixpoint lin (f : key -> K) (o : opv) : K :=
    match o with [] => 0 | (k, x) :: o' => x * f k + lin f o' end.

  Lemma lin_app f (o o' : opv) : lin f (o ++ o') = lin f o + lin f o'.
  Proof. induction o as [|[k x] o IH]; cbn; [ring|rewrite IH; ring]. Qed.

  Lemma lin_set_new f k x (o : opv) : op_get keqb k o = None ->
    lin f (op_set keqb k x o) = lin f o + x * f k.
  Proof.
    induction o as [|[k' y] o IH]; cbn; [intros; ring|].
    destruct (keqb k k') eqn:E; [discriminate|]. intro H. cbn. rewrite IH by exact H. ring.
  Qed.

  Lemma lin_set_old f k x y (o : opv) : op_get keqb k o = Some y ->
    lin f (op_set keqb k (y + x) o) = lin f o + x * f k.
  Proof.
    induction o as [|[k' z] o IH]; cbn; [discriminate|].
    destruct (keqb k k') eqn:E.
    - intro H; injection H as ->. apply keqb_spec in E. subst k'. cbn. ring.
    - intro H. cbn. rewrite IH by exact H. ring.
  Qed.

  Lemma lin_add_string f (o : opv) e :
    lin f (op_add_string keqb o e) = lin f o + snd e * f (fst e).
  Proof.
    unfold op_add_string. destruct (op_get keqb (fst e) o) eqn:G.
    - apply lin_set_old. exact G.
    - apply lin_set_new. exact G.
  Qed.

  Lemma lin_fold_add f a (o : opv) :
    lin f (fold_left (op_add_string keqb) a o) = lin f o + lin f a.
  Proof.
    revert o. induction a as [|[k x] a IH]; intro o; cbn; [ring|].
    rewrite IH, lin_add_string. cbn. ring.
  Qed.

  (** What [clean] removes. *)
  Definition dropped (o : opv) : opv := filter (fun e => small (snd e)) o.

  Lemma lin_clean f (o : opv) : lin f (op_clean o) + lin f (dropped o) = lin f o.
  Proof.
    unfold op_clean, dropped. induction o as [|[k x] o IH]; cbn; [ring|].
    destruct (small x); cbn; rewrite <- IH; ring.
  Qed.

  Lemma dropped_small (o : opv) e : In e (dropped o) -> small (snd e) = true.
  Proof. intro H. apply filter_In in H. tauto. Qed.

  Lemma dropped_length (o : opv) : length (dropped o) <= length o.
  Proof.
    unfold dropped. induction o as [|e o IH]; cbn; [lia|]. destruct (small (snd e)); cbn; lia.
  Qed.

  Lemma clean_not_small (o : opv) e : In e (op_clean o) -> small (snd e) = false.
  Proof. intro H. apply filter_In in H. destruct H as [_ H]. apply negb_true_iff. exact H. Qed.

  Lemma length_add_string (o : opv) e : length (op_add_string keqb o e) <= S (length o).
  Proof.
    assert (G : forall x, length (op_set keqb (fst e) x o) <= S (length o)).
    { intro x. induction o as [|[k y] o IH]; cbn; [lia|]. destruct (keqb (fst e) k); cbn; lia. }
    unfold op_add_string. destruct (op_get keqb (fst e) o); apply G.
  Qed.

  Lemma length_fold_add a (o : opv) :
    length (fold_left (op_add_string keqb) a o) <= length o + length a.
  Proof.
    revert o. induction a as [|e a IH]; intro o; cbn; [lia|].
    specialize (IH (op_add_string keqb o e)). pose proof (length_add_string o e). lia.
  Qed.

  (** Keys of a fold come from the operands. *)
  Lemma In_set k x (o : opv) e : In e (op_set keqb k x o) -> fst e = k \/ In e o.
  Proof.
    induction o as [|[k' y] o IH]; cbn.
    - intros [H|[]]. left. subst. reflexivity.
    - destruct (keqb k k') eqn:E; cbn.
      + apply keqb_spec in E. subst k'. intros [H|H]; [left; subst; reflexivity|right; right; exact H].
      + intros [H|H]; [right; left; exact H|]. destruct (IH H) as [G|G]; [left|right; right]; exact G.
  Qed.

  Lemma In_fst_add_string (o : opv) e k :
    In k (map fst (op_add_string keqb o e)) <-> k = fst e \/ In k (map fst o).
  Proof.
    assert (G : forall x, In k (map fst (op_set keqb (fst e) x o)) <-> k = fst e \/ In k (map fst o)).
    { intro x. rewrite op_set_keys. destruct (existsb (keqb (fst e)) (map fst o)) eqn:E.
      - apply existsb_keqb in E. split; [tauto|]. intros [->|H]; assumption.
      - rewrite in_app_iff. cbn. split.
        + intros [H|[H|[]]]; [right; exact H|left; symmetry; exact H].
        + intros [H|H]; [right; left; symmetry; exact H|left; exact H]. }
    unfold op_add_string. destruct (op_get keqb (fst e) o); apply G.
  Qed.

  Lemma In_fst_fold_add a (o : opv) k :
    In k (map fst (fold_left (op_add_string keqb) a o)) <-> In k (map fst a) \/ In k (map fst o).
  Proof.
    revert o. induction a as [|e a IH]; intro o; cbn; [tauto|].
    rewrite IH, In_fst_add_string. split.
    - intros [H|[->|H]]; tauto.
    - intros [[<-|H]|H]; tauto.
  Qed.

  Lemma In_fst_clean (o : opv) k : In k (map fst (op_clean o)) -> In k (map fst o).
  Proof.
    intro H. apply in_map_iff in H. destruct H as [e [E H]]. apply filter_In in H.
    apply in_map_iff. exists e. tauto.
  Qed.

  (** Nothing happens to the other entries when the added strings are new and distinct. *)
  Lemma add_string_fresh (o : opv) e : ~ In (fst e) (map fst o) -> op_add_string keqb o e = o ++ [e].
  Proof.
    intro H. apply op_get_None in H. unfold op_add_string. rewrite H.
    induction o as [|[k y] o IH]; cbn in *; [destruct e; reflexivity|].
    destruct (keqb (fst e) k); [discriminate|]. rewrite IH by exact H. reflexivity.
  Qed.

  Lemma fold_add_fresh a (o : opv) : NoDup (map fst (o ++ a)) -> fold_left (op_add_string keqb) a o = o ++ a.
  Proof.
    revert o. induction a as [|e a IH]; intros o H; cbn; [rewrite app_nil_r; reflexivity|].
    rewrite add_string_fresh.
    - rewrite IH; rewrite <- app_assoc; [reflexivity|exact H].
    - rewrite map_app in H. cbn in H. apply NoDup_remove_2 in H. intro G. apply H.
      apply in_or_app. left. exact G.
  Qed.

  Lemma clean_id (o : opv) : (forall e, In e o -> small (snd e) = false) -> op_clean o = o.
  Proof.
    intro H. unfold op_clean. induction o as [|e o IH]; cbn; [reflexivity|].
    rewrite (H e) by (left; reflexivity). cbn. f_equal. apply IH. intros e' He. apply H. right. exact He.
  Qed.

  (** * Product *)
  Variable smul : key * K -> key * K -> key * K.

  (** The flat list of pairwise products in the order the loops visit them. *)
  Definition products (o a : opv) : opv := flat_map (fun x => map (fun s => smul s x) o) a.

  Lemma fold_mul_inner x (o new : opv) :
    fold_left (fun new' s => op_add_string keqb new' (smul s x)) o new =
    fold_left (op_add_string keqb) (map (fun s => smul s x) o) new.
  Proof. revert new. induction o as [|s o IH]; intro new; cbn; [reflexivity|apply IH]. Qed.

  Lemma op_mul_products (o a : opv) :
    op_mul keqb smul o a = op_clean (fold_left (op_add_string keqb) (products o a) []).
  Proof.
    unfold op_mul, products. f_equal.
    generalize (@nil (key * K)) as new. induction a as [|x a IH]; intro new; cbn; [reflexivity|].
    rewrite fold_left_app, <- fold_mul_inner. apply IH.
  Qed.

  Lemma op_mul_string_products (o : opv) a :
    op_mul_string keqb smul o a = op_mul keqb smul o [a].
  Proof. reflexivity. Qed.

  Lemma op_mul_NoDup (o a : opv) : NoDup (map fst (op_mul keqb smul o a)).
  Proof. rewrite op_mul_products. apply op_clean_NoDup, fold_add_NoDup. constructor. Qed.

  Lemma op_mul_residual (o a : opv) :
    exists D : opv, (forall e, In e D -> small (snd e) = true)
      /\ length D <= length (products o a)
      /\ forall f, lin f (op_mul keqb smul o a) + lin f D = lin f (products o a).
  Proof.
    exists (dropped (fold_left (op_add_string keqb) (products o a) [])). split; [|split].
    - intros e He. eapply dropped_small; exact He.
    - eapply PeanoNat.Nat.le_trans; [apply dropped_length|]. apply (length_fold_add _ []).
    - intro f. rewrite op_mul_products, lin_clean, lin_fold_add. cbn. ring.
  Qed.
End OpProofs.

Arguments lin {_ _}. Arguments dropped {_ _}. Arguments products {_ _}.
