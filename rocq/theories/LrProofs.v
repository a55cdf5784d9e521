(** gen_spin_1ei_lr computes the sums. *)
From Coq Require Import Bool List Arith Lia Ring.
From Verif Require Import Coeff MatSpec FockSpec InvModel HamModel HamSpec HamProofs HamProofs3 HamProofs4 IntsModel IntsSpec IntsProofs1 IntsProofs2 IntsProofs3 LrModel LrSpec.
Import ListNotations.
Section Lr1.
  Variable K : CoefRing.
  Add Ring KRing : (c_ring K).
  Local Open Scope coef_scope.
  Notation array2 := (nat -> nat -> K).
  Variable N : nat.
  Lemma lr_steps (Ul Ur ei : array2) (LL : list (nat * nat)) x y : NoDup (map fst LL) -> forall L t new, NoDup (map fst L) -> NoDup (map snd L) ->
    (forall P, In P (map snd L) -> forall b, t P b = 0) ->
    snd (fold_left (lr_step K N Ul Ur ei LL) L (t, new)) x y
    = match look L x, look LL y with Some P, Some Q => upto N (fun b => Ur b Q * upto N (fun a => Ul P a * ei a b)) | _, _ => new x y end.
  Proof.
    intros ND. induction L as [|[i P] L IH]; intros t new N1 N2 Z; [reflexivity|]. cbn [fold_left lr_step]. cbn [map fst snd] in N1, N2. inversion N1; subst. inversion N2; subst.
    rewrite IH; [|assumption|assumption|].
    - unfold look at 3. cbn [find fst]. rewrite (Nat.eqb_sym i x). destruct (Nat.eqb_spec x i) as [->|E].
      + cbn [option_map snd]. rewrite (proj2 (look_none L i) H1).
        rewrite (ei1_loop K N (fun Q b => Ur b Q * _) i i y) by assumption. rewrite Nat.eqb_refl. destruct (look LL y) as [Q|]; [|reflexivity].
        apply upto_ext. intros b _. rewrite ei1_row, Nat.eqb_refl, Z by (now left). ring.
      + change (option_map snd (find (fun e => Nat.eqb (fst e) x) L)) with (look L x). destruct (look L x) as [P'|] eqn:EL; [|].
        * destruct (look LL y); [reflexivity|]. rewrite (ei1_loop K N (fun Q b => Ur b Q * _) i x y) by assumption. apply Nat.eqb_neq in E. now rewrite E.
        * rewrite (ei1_loop K N (fun Q b => Ur b Q * _) i x y) by assumption. apply Nat.eqb_neq in E. now rewrite E.
    - intros P' HP b. rewrite ei1_row. destruct (Nat.eqb_spec P' P) as [->|_]; [contradiction|]. apply Z. now right.
  Qed.
  Lemma lr_block_spec (Ul Ur ei : array2) L new x y : NoDup (map fst L) -> NoDup (map snd L) ->
    lr_block K N Ul Ur ei L new x y = match look L x, look L y with Some P, Some Q => upto N (fun b => Ur b Q * upto N (fun a => Ul P a * ei a b)) | _, _ => new x y end.
  Proof. intros N1 N2. unfold lr_block. apply lr_steps; auto. Qed.
  Lemma lr_sum (Ul Ur h : array2) P Q : upto N (fun b => Ur b Q * upto N (fun a => Ul P a * h a b)) = upto N (fun a => upto N (fun b => Ul P a * h a b * Ur b Q)).
  Proof.
    rewrite (one_sum K N Ul (fun q b => Ur b q) h P Q). apply upto_ext. intros a _. apply upto_ext. intros b _. ring.
  Qed.
  Lemma lr_comm (x y z : K) : x * y * z = x * z * y. Proof. ring. Qed.
End Lr1.
Section Lr2.
  Variables (No_as No_core N : nat).
  Hypothesis HN : No_core + No_as <= N.
  Notation alpha := (alpha_mo No_as No_core N).
  Notation beta := (beta_mo No_as No_core N).
  Definition low (r : region) : nat := match r with Full => 0 | Active => No_core end.
  Lemma lr_alpha r i : In i (lr_orbitals r alpha) <-> low r <= i < No_core + No_as.
  Proof.
    destruct r; cbn [lr_orbitals alpha_mo g_inactive g_active low]; unfold alpha_inactive, alpha_active; rewrite ?in_app_iff, !in_map_iff; rewrite ?in_seq.
    - split; [intros [H|[x [<- H]]]; try rewrite in_seq in H; lia|]. intros H. destruct (le_lt_dec No_core i); [right; exists (i - No_core); rewrite in_seq; lia|left; lia].
    - split; [intros [x [<- H]]; rewrite in_seq in H; lia|]. intros H. exists (i - No_core). rewrite in_seq. lia.
  Qed.
  Lemma lr_beta r i : In i (lr_orbitals r beta) <-> N + low r <= i < N + No_core + No_as.
  Proof.
    destruct r; cbn [lr_orbitals beta_mo g_inactive g_active low]; unfold beta_inactive, beta_active; rewrite ?in_app_iff, !in_map_iff.
    - split; [intros [[x [<- H]]|[x [<- H]]]; rewrite in_seq in H; lia|]. intros H.
      destruct (le_lt_dec (N + No_core) i); [right; exists (i - N - No_core)|left; exists (i - N)]; rewrite in_seq; lia.
    - split; [intros [x [<- H]]; rewrite in_seq in H; lia|]. intros H. exists (i - N - No_core). rewrite in_seq. lia.
  Qed.
  Lemma nodup_some (l : list nat) (f : nat -> nat) : NoDup l -> (forall x y, In x l -> In y l -> f x = f y -> x = y) -> NoDup (map f l).
  Proof.
    induction 1 as [|x l Hx Nl IH]; intros I; [constructor|]. cbn [map]. constructor.
    - intros H. apply in_map_iff in H. destruct H as [y [E H]]. apply Hx. rewrite (I x y); [assumption|now left|now right|congruence].
    - apply IH. intros; apply I; try right; assumption.
  Qed.
  Lemma nodup_two (l m : list nat) : NoDup l -> NoDup m -> (forall x, In x l -> ~ In x m) -> NoDup (l ++ m).
  Proof.
    intros Nl Nm D. induction Nl as [|x l Hx Nl IH]; [exact Nm|]. cbn [app]. constructor; [rewrite in_app_iff; intros [H|H]; [contradiction|]; apply (D x); [now left|assumption]|].
    apply IH. intros y Hy. apply D. now right.
  Qed.
  Lemma nodup_lr_alpha r : NoDup (lr_orbitals r alpha).
  Proof.
    assert (A : NoDup (alpha_active No_as No_core)) by (apply nodup_some; [apply seq_NoDup|intros; lia]).
    destruct r; cbn [lr_orbitals alpha_mo g_inactive g_active]; [|exact A]. apply nodup_two; [apply seq_NoDup|exact A|].
    intros x Hx Hy. apply in_seq in Hx. apply in_map_iff in Hy. destruct Hy as [y [<- _]]. lia.
  Qed.
  Lemma nodup_lr_beta r : NoDup (lr_orbitals r beta).
  Proof.
    assert (A : NoDup (beta_active No_as No_core N)) by (apply nodup_some; [apply seq_NoDup|intros; lia]).
    destruct r; cbn [lr_orbitals beta_mo g_inactive g_active]; [|exact A]. apply nodup_two; [apply nodup_some; [apply seq_NoDup|intros; lia]|exact A|].
    intros x Hx Hy. apply in_map_iff in Hx, Hy. destruct Hx as [z [<- Hz]], Hy as [y [E Hy]]. apply in_seq in Hz. lia.
  Qed.
  Lemma located_pairs (f : nat -> nat) l : (forall i, In i l -> spin2spac N i = Some (f i) /\ f i < N /\ i < 2 * N) ->
    located N (spin2spac N) l = Some (map (fun i => (i, f i)) l).
  Proof.
    unfold located. induction l as [|i l IH]; intros H; [reflexivity|]. cbn [map]. destruct (H i (or_introl eq_refl)) as [E [E1 E2]]. rewrite E.
    apply Nat.ltb_lt in E1, E2. rewrite E1, E2. cbn [andb all_some]. rewrite IH; [reflexivity|]. intros; apply H; now right.
  Qed.
  Lemma look_pairs (f : nat -> nat) l i : NoDup l -> look (map (fun i => (i, f i)) l) i = if in_dec Nat.eq_dec i l then Some (f i) else None.
  Proof.
    intros Nd. assert (M : map fst (map (fun i => (i, f i)) l) = l) by (rewrite map_map; apply map_id). destruct (in_dec Nat.eq_dec i l) as [H|H].
    - apply look_in; [now rewrite M|]. apply in_map_iff. now exists i.
    - apply look_none. now rewrite M.
  Qed.
  Definition pairs_a r := map (fun i => (i, i)) (lr_orbitals r alpha).
  Definition pairs_b r := map (fun i => (i, i - N)) (lr_orbitals r beta).
  Lemma lr_located r : located N (spin2spac N) (lr_orbitals r alpha) = Some (pairs_a r) /\ located N (spin2spac N) (lr_orbitals r beta) = Some (pairs_b r).
  Proof.
    split; [apply (located_pairs (fun i => i))|apply located_pairs]; intros i Hi; [apply lr_alpha in Hi|apply lr_beta in Hi].
    - unfold spin2spac. replace (i <? N) with true by (symmetry; apply Nat.ltb_lt; lia). repeat split; lia.
    - unfold spin2spac. replace (i <? N) with false by (symmetry; apply Nat.ltb_ge; lia). replace (i <? 2 * N) with true by (symmetry; apply Nat.ltb_lt; lia). repeat split; lia.
  Qed.
  Lemma lr_look_a r i : look (pairs_a r) i = if ranged N (low r) (No_core + No_as) i && negb (down N i) then Some (spatial N i) else None.
  Proof.
    unfold pairs_a. rewrite (look_pairs (fun i => i)) by apply nodup_lr_alpha. unfold ranged, spatial, down.
    destruct (in_dec Nat.eq_dec i (lr_orbitals r alpha)) as [H|H]; rewrite lr_alpha in H; destruct (Nat.leb_spec N i); cbn [negb]; rewrite ?andb_false_r, ?andb_true_r; try reflexivity; try lia;
    destruct (Nat.ltb_spec i (2 * N)), (Nat.leb_spec (low r) i), (Nat.ltb_spec i (No_core + No_as)); cbn [andb]; try reflexivity; exfalso; lia.
  Qed.
  Lemma lr_look_b r i : look (pairs_b r) i = if ranged N (low r) (No_core + No_as) i && down N i then Some (spatial N i) else None.
  Proof.
    unfold pairs_b. rewrite look_pairs by apply nodup_lr_beta. unfold ranged, spatial, down.
    destruct (in_dec Nat.eq_dec i (lr_orbitals r beta)) as [H|H]; rewrite lr_beta in H; destruct (Nat.leb_spec N i); rewrite ?andb_false_r, ?andb_true_r; try reflexivity; try lia;
    destruct (Nat.ltb_spec i (2 * N)), (Nat.leb_spec (low r) (i - N)), (Nat.ltb_spec (i - N) (No_core + No_as)); cbn [andb]; try reflexivity; exfalso; lia.
  Qed.
  Lemma lr_nodup r : (NoDup (map fst (pairs_a r)) /\ NoDup (map snd (pairs_a r))) /\ (NoDup (map fst (pairs_b r)) /\ NoDup (map snd (pairs_b r))).
  Proof.
    unfold pairs_a, pairs_b. rewrite !map_map. cbn [fst snd]. rewrite !map_id. pose proof (nodup_lr_alpha r). pose proof (nodup_lr_beta r). repeat split; try assumption.
    apply nodup_some; [assumption|]. intros x y Hx Hy. apply lr_beta in Hx, Hy. lia.
  Qed.
  Variable K : CoefRing.
  Lemma lr_blocks (h La Ra Lb Rb start : nat -> nat -> K) r i j :
    lr_block K N Lb Rb h (pairs_b r) (lr_block K N La Ra h (pairs_a r) start) i j
    = if ranged N (low r) (No_core + No_as) i && ranged N (low r) (No_core + No_as) j && Bool.eqb (down N i) (down N j) then left_right N La Ra Lb Rb h i j else start i j.
  Proof.
    destruct (lr_nodup r) as [[A1 A2] [B1 B2]]. rewrite !lr_block_spec by assumption. rewrite !lr_look_a, !lr_look_b. unfold left_right, left_component, right_component.
    destruct (ranged N _ _ i), (ranged N _ _ j), (down N i), (down N j); cbn [andb negb Bool.eqb]; try reflexivity; apply lr_sum.
  Qed.
  Lemma pairs_empty r : (pairs_a r = [] <-> No_core + No_as <= low r) /\ (pairs_b r = [] <-> No_core + No_as <= low r).
  Proof.
    split; split; intros H.
    - destruct (le_lt_dec (No_core + No_as) (low r)) as [L|L]; [exact L|]. assert (X : In (low r) (lr_orbitals r alpha)) by (apply lr_alpha; lia). apply map_eq_nil in H. rewrite H in X. destruct X.
    - unfold pairs_a. destruct (lr_orbitals r alpha) as [|x l] eqn:E; [reflexivity|]. assert (X : In x (lr_orbitals r alpha)) by (rewrite E; now left). apply lr_alpha in X. lia.
    - destruct (le_lt_dec (No_core + No_as) (low r)) as [L|L]; [exact L|]. assert (X : In (N + low r) (lr_orbitals r beta)) by (apply lr_beta; lia). apply map_eq_nil in H. rewrite H in X. destruct X.
    - unfold pairs_b. destruct (lr_orbitals r beta) as [|x l] eqn:E; [reflexivity|]. assert (X : In x (lr_orbitals r beta)) by (rewrite E; now left). apply lr_beta in X. lia.
  Qed.
End Lr2.
