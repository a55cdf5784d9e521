(** Proofs about VqeModel: the stored density matrix, the end of the run, and the numerical gradient. *)
From Coq Require Import Bool List Arith Lia QArith Qabs Lqa.
From Verif Require Import AcseModel AcseProofs2 VqeModel VqeSpec.
Import ListNotations.
Local Open Scope nat_scope.

Section V.
  Variable P : Type.
  Variable E : P -> Q.
  (** Every point evaluated before turn [n]. *)
  Definition seen (xs : list P) (steps : nat -> opt_step P) (n : nat) : list P :=
    xs ++ flat_map (fun k => o_points (steps k)) (seq 0 n).
  Definition good (h : list P) (s : vqe P) : Prop :=
    match v_stored s with
    | Some x => In x h /\ (E x == v_best s)%Q /\ (v_best s < 0)%Q /\ forall y, In y h -> (v_best s <= E y)%Q
    | None => (v_best s == 0)%Q /\ forall y, In y h -> (0 <= E y)%Q
    end.
  Lemma good_eval h s x : good h s -> good (h ++ [x]) (vqe_eval E s x).
  Proof.
    unfold good, vqe_eval. destruct (Qltb (E x) (v_best s)) eqn:L; cbn [v_stored v_best].
    - apply Qltb_lt in L. intro H. split; [apply in_app_iff; right; now left|]. split; [reflexivity|].
      destruct (v_stored s) as [z|].
      + destruct H as (_ & _ & H0 & H). split; [lra|]. intros y Hy. apply in_app_iff in Hy. destruct Hy as [Hy|[<-|[]]]; [specialize (H y Hy); lra|lra].
      + destruct H as [H0 H]. split; [lra|]. intros y Hy. apply in_app_iff in Hy. destruct Hy as [Hy|[<-|[]]]; [specialize (H y Hy); lra|lra].
    - apply Qltb_ge in L. intro H. destruct (v_stored s) as [z|].
      + destruct H as (Hz & He & H0 & H). split; [apply in_app_iff; now left|]. split; [exact He|]. split; [exact H0|].
        intros y Hy. apply in_app_iff in Hy. destruct Hy as [Hy|[<-|[]]]; [now apply H|lra].
      + destruct H as [H0 H]. split; [exact H0|]. intros y Hy. apply in_app_iff in Hy. destruct Hy as [Hy|[<-|[]]]; [now apply H|lra].
  Qed.
  Lemma good_evals xs : forall h s, good h s -> good (h ++ xs) (fold_left (vqe_eval E) xs s).
  Proof.
    induction xs as [|x xs IH]; intros h s H; [now rewrite app_nil_r|]. cbn [fold_left].
    replace (h ++ x :: xs) with ((h ++ [x]) ++ xs) by (rewrite <- app_assoc; reflexivity). apply IH. now apply good_eval.
  Qed.
  Lemma good_build xs : good xs (vqe_build E xs).
  Proof. unfold vqe_build. apply (good_evals xs [] vqe_start). cbn. split; [reflexivity|intros y []]. Qed.
  Lemma good_step mi conv crit h s o : good h s -> lowest E (h ++ o_points o) (o_best o) -> (o_best o < 0)%Q ->
    good (h ++ o_points o) (vqe_step E mi conv crit s o).
  Proof.
    intros H [[x [Hx Ex]] Hl] Hn. pose proof (good_evals (o_points o) h s H) as G. unfold good in *. unfold vqe_step. cbn [v_stored v_best].
    destruct (v_stored (fold_left (vqe_eval E) (o_points o) s)) as [z|].
    - destruct G as (Hz & Ez & _ & Gl). split; [exact Hz|]. pose proof (Hl z Hz) as Hlz. specialize (Gl x Hx). split; [lra|]. split; [exact Hn|exact Hl].
    - destruct G as [_ Gl]. specialize (Gl x Hx). lra.
  Qed.
  Lemma seen_S xs steps n : seen xs steps (S n) = seen xs steps n ++ o_points (steps n).
  Proof. unfold seen. rewrite seq_S, flat_map_app. cbn [flat_map]. rewrite app_nil_r, <- app_assoc. reflexivity. Qed.
  Lemma run_good mi conv crit xs steps : forall fuel n s s' m,
    vqe_run E mi conv crit steps fuel n s = (s', m) ->
    (forall k, k < m -> lowest E (seen xs steps (S k)) (o_best (steps k)) /\ (o_best (steps k) < 0)%Q) ->
    good (seen xs steps n) s -> n <= m /\ good (seen xs steps m) s'.
  Proof.
    induction fuel as [|f IH]; intros n s s' m H HB G; cbn [vqe_run] in H; destruct (v_done s).
    - injection H as <- <-. split; [lia|exact G].
    - injection H as <- <-. split; [lia|exact G].
    - injection H as <- <-. split; [lia|exact G].
    - destruct (Nat.le_gt_cases (S n) m) as [L|L].
      + apply IH in H; [destruct H; split; [lia|assumption]|exact HB|]. rewrite seen_S. apply good_step; [exact G| |]; [rewrite <- seen_S|]; now apply HB.
      + exfalso. assert (X : forall f n s s' m, vqe_run E mi conv crit steps f n s = (s', m) -> n <= m).
        { clear. induction f as [|f IH]; intros n s s' m H; cbn [vqe_run] in H; destruct (v_done s); try (injection H as <- <-; lia). apply IH in H. lia. }
        apply X in H. lia.
  Qed.
  Lemma stored_energy mi conv crit xs steps fuel s n :
    vqe_run E mi conv crit steps fuel 0 (vqe_build E xs) = (s, n) -> 0 < n ->
    (forall k, k < n -> lowest E (seen xs steps (S k)) (o_best (steps k)) /\ (o_best (steps k) < 0)%Q) ->
    exists x, v_stored s = Some x /\ In x (seen xs steps n) /\ (E x == v_best s)%Q /\ lowest E (seen xs steps n) (v_best s).
  Proof.
    intros H Hn HB. assert (G0 : good (seen xs steps 0) (vqe_build E xs)) by (unfold seen; cbn [seq flat_map]; rewrite app_nil_r; apply good_build).
    destruct (run_good mi conv crit xs steps fuel 0 _ s n H HB G0) as [_ G]. unfold good in G.
    destruct (v_stored s) as [x|].
    - destruct G as (Hx & Ex & _ & Hl). exists x. split; [reflexivity|]. split; [exact Hx|]. split; [exact Ex|]. split; [now exists x|exact Hl].
    - destruct G as [_ G]. destruct n as [|n]; [lia|]. destruct (HB n ltac:(lia)) as [[[x [Hx Ex]] _] Hneg]. specialize (G x Hx). lra.
  Qed.

  (** When the loop ends. *)
  Definition stops (conv crit : Q) (o : opt_step P) : Prop :=
    (Qabs (o_crit o) <= Qabs conv)%Q \/ o_err o = true \/ (o_crit o < crit)%Q.
  Lemma step_done mi conv crit s o : v_done (vqe_step E mi conv crit s o) = true <-> stops conv crit o.
  Proof.
    unfold vqe_step, stops, total_iter, vqe_max_iter. cbn [v_done Nat.eqb].
    destruct (Qltb (o_crit o) crit) eqn:A.
    - apply Qltb_lt in A. tauto.
    - apply Qltb_ge in A. destruct (Qle_bool (Qabs (o_crit o)) (Qabs conv)) eqn:B.
      + apply Qle_bool_iff in B. tauto.
      + apply Qle_bool_false in B. split; [intro H; right; left; exact H|]. intros [H|[H|H]]; [lra|exact H|lra].
  Qed.
  Lemma run_stops mi conv crit steps m : forall d fuel n s, m = n + d -> v_done s = false ->
    (forall k, n <= k -> k < m -> ~ stops conv crit (steps k)) -> stops conv crit (steps m) -> d < fuel ->
    snd (vqe_run E mi conv crit steps fuel n s) = S m /\ v_done (fst (vqe_run E mi conv crit steps fuel n s)) = true.
  Proof.
    induction d as [|d IH]; intros fuel n s Hm Hs Hk Hst Hf; (destruct fuel as [|f]; [lia|]); cbn [vqe_run]; rewrite Hs.
    - replace m with n in * by lia. pose proof (proj2 (step_done mi conv crit s (steps n)) Hst) as D.
      destruct f as [|f]; cbn [vqe_run]; rewrite D; split; try reflexivity; exact D.
    - apply IH; try lia; [|intros k ? ?; apply Hk; lia|exact Hst].
      destruct (v_done (vqe_step E mi conv crit s (steps n))) eqn:D; [|reflexivity]. apply step_done in D. destruct (Hk n ltac:(lia) ltac:(lia) D).
  Qed.
  Lemma run_goes_on mi conv crit steps : (forall k, ~ stops conv crit (steps k)) -> forall fuel n s, v_done s = false ->
    snd (vqe_run E mi conv crit steps fuel n s) = n + fuel /\ v_done (fst (vqe_run E mi conv crit steps fuel n s)) = false.
  Proof.
    intros Hk. induction fuel as [|f IH]; intros n s Hs; cbn [vqe_run]; rewrite Hs; [split; [cbn; lia|exact Hs]|].
    destruct (IH (S n) (vqe_step E mi conv crit s (steps n))) as [A B].
    - destruct (v_done (vqe_step E mi conv crit s (steps n))) eqn:D; [|reflexivity]. apply step_done in D. destruct (Hk n D).
    - split; [rewrite A; lia|exact B].
  Qed.
  Lemma build_not_done xs : v_done (vqe_build E xs) = false.
  Proof.
    unfold vqe_build. assert (X : forall s, v_done s = false -> v_done (fold_left (vqe_eval E) xs s) = false); [|now apply X].
    induction xs as [|x xs IH]; intros s Hs; [exact Hs|]. cbn [fold_left]. apply IH. unfold vqe_eval. destruct (Qltb (E x) (v_best s)); exact Hs.
  Qed.
End V.

Lemma bump_shift i d x : bump i d x = shift i d x.
Proof.
  revert i. induction x as [|c x IH]; intro i; [destruct i; reflexivity|]. unfold shift. cbn [length seq map]. destruct i as [|i]; cbn [bump Nat.eqb nth].
  - f_equal. rewrite <- seq_shift, map_map. rewrite <- (map_id x) at 1. clear. induction x as [|a x IH]; [reflexivity|].
    cbn [length seq map nth Nat.eqb]. f_equal. rewrite <- seq_shift, map_map. cbn [nth]. etransitivity; [apply IH|]. apply map_ext. intro k. reflexivity.
  - f_equal. rewrite IH. unfold shift. rewrite <- seq_shift, map_map. apply map_ext. intro k. reflexivity.
Qed.
Lemma gradient_length E fw d x : length (vqe_gradient E fw d x) = length x.
Proof. unfold vqe_gradient. now rewrite map_length, seq_length. Qed.
Lemma gradient_nth E fw d x i : i < length x ->
  nth i (vqe_gradient E fw d x) 0%Q = if fw then ((E (shift i d x) - E x) / d)%Q else ((E (shift i d x) - E (shift i (- d) x)) / (2 * d))%Q.
Proof.
  intro H. unfold vqe_gradient. set (f := fun i => if fw then _ else _).
  rewrite (nth_indep (map f (seq 0 (length x))) 0%Q (f 0)) by (now rewrite map_length, seq_length).
  rewrite map_nth, seq_nth by exact H. cbn [Nat.add]. unfold f. now rewrite !bump_shift.
Qed.
Lemma gradient_quadratic E d x i a b : i < length x -> ~ (d == 0)%Q -> quadratic_along E x i a b ->
  (nth i (vqe_gradient E true d x) 0 == a + b * d)%Q /\ (nth i (vqe_gradient E false d x) 0 == a)%Q.
Proof.
  intros Hi Hd HQ. rewrite !gradient_nth by exact Hi. split.
  - setoid_rewrite (HQ d). field. exact Hd.
  - setoid_rewrite (HQ d). setoid_rewrite (HQ (- d)%Q). field. exact Hd.
Qed.
Lemma gradient_seen fw d x i : i < length x -> In (shift i d x) (gradient_points fw d x).
Proof.
  intro H. unfold gradient_points. assert (I : In i (seq 0 (length x))) by (apply in_seq; lia). destruct fw.
  - right. apply in_map_iff. exists i. split; [apply bump_shift|exact I].
  - apply in_flat_map. exists i. split; [exact I|]. right. left. apply bump_shift.
Qed.
Lemma gradient_depends (E E' : list Q -> Q) fw d x : (forall p, In p (gradient_points fw d x) -> E p = E' p) -> vqe_gradient E fw d x = vqe_gradient E' fw d x.
Proof.
  intro H. unfold vqe_gradient. apply map_ext_in. intros i Hi. unfold gradient_points in H. destruct fw.
  - rewrite (H x) by (left; reflexivity). rewrite (H (bump i d x)) by (right; apply in_map_iff; eauto). reflexivity.
  - rewrite !H; [reflexivity| |]; apply in_flat_map; exists i; split; try exact Hi; [left|right; left]; reflexivity.
Qed.
Lemma gradient_calls fw d x : length (gradient_points fw d x) = if fw then S (length x) else 2 * length x.
Proof.
  unfold gradient_points. destruct fw; [cbn; rewrite map_length, seq_length; reflexivity|].
  rewrite <- (seq_length (length x) 0) at 2. generalize (seq 0 (length x)). intro l. induction l as [|y l IH]; [reflexivity|]. cbn [flat_map app length]. rewrite IH. lia.
Qed.
