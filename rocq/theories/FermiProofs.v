(** Proofs about the FermiString / QubitString model. *)
From Coq Require Import Bool List Arith Lia Ring Permutation.
From Verif Require Import Coeff MatSpec MatLemmas FockSpec FermiModel.
Import ListNotations.
Local Arguments Nat.ltb : simpl never.
Local Arguments Nat.eqb : simpl never.

(** * The Fock action, recursively on the occupation list *)
Lemma fock1_nil o j : fock1 o j [] = None.
Proof. unfold fock1. destruct j; reflexivity. Qed.

Lemma fock1_0 o b n :
  fock1 o 0 (b :: n) = match local o b with None => None | Some b' => Some (false, b' :: n) end.
Proof. unfold fock1. cbn. destruct (local o b); [|reflexivity]. rewrite andb_false_r. reflexivity. Qed.

Lemma fock1_S o j b n :
  fock1 o (S j) (b :: n) =
  match fock1 o j n with
  | None => None
  | Some (s, m) => Some (xorb (ladder o && b) s, b :: m)
  end.
Proof.
  unfold fock1. cbn. destruct (nth_error n j) as [b0|]; [|reflexivity].
  destruct (local o b0); [|reflexivity]. destruct (ladder o); reflexivity.
Qed.

Definition flipo (s : bool) (x : option (bool * bits)) : option (bool * bits) :=
  match x with None => None | Some (t, m) => Some (xorb s t, m) end.

Definition bindo (x : option (bool * bits)) (f : bits -> option (bool * bits)) :=
  match x with
  | None => None
  | Some (s, m) => match f m with None => None | Some (s', m') => Some (xorb s s', m') end
  end.

Lemma flipo_false x : flipo false x = x.
Proof. destruct x as [[[] m]|]; reflexivity. Qed.
Lemma flipo_flipo a b x : flipo a (flipo b x) = flipo (xorb a b) x.
Proof. destruct x as [[s m]|]; [|reflexivity]. cbn. rewrite xorb_assoc. reflexivity. Qed.
Lemma bindo_flipo a x f : bindo (flipo a x) f = flipo a (bindo x f).
Proof.
  destruct x as [[s m]|]; [|reflexivity]. cbn. destruct (f m) as [[s' m']|]; [|reflexivity]. cbn.
  rewrite xorb_assoc. reflexivity.
Qed.

Lemma fock_cons o j l n : fock ((o, j) :: l) n = bindo (fock l n) (fock1 o j).
Proof. reflexivity. Qed.

Lemma fock_app l l' n : fock (l ++ l') n = bindo (fock l' n) (fock l).
Proof.
  induction l as [|[o j] l IH]; cbn [app].
  - destruct (fock l' n) as [[s m]|]; [|reflexivity]. cbn. rewrite xorb_false_r. reflexivity.
  - rewrite fock_cons, IH. destruct (fock l' n) as [[s m]|]; [|reflexivity]. cbn [bindo].
    rewrite fock_cons. destruct (fock l m) as [[s1 m1]|]; [|reflexivity]. cbn [bindo].
    destruct (fock1 o j m1) as [[s2 m2]|]; [|reflexivity]. rewrite xorb_assoc. reflexivity.
Qed.

(** Two operators on different modes. *)
Lemma fock1_comm a b i j n : i <> j ->
  bindo (fock1 b j n) (fock1 a i) = flipo (ladder a && ladder b) (bindo (fock1 a i n) (fock1 b j)).
Proof.
  revert i j. induction n as [|x n IH]; intros i j H.
  - rewrite !fock1_nil. reflexivity.
  - destruct i as [|i], j as [|j].
    + contradiction.
    + rewrite fock1_0, fock1_S.
      destruct (fock1 b j n) as [[s m]|] eqn:E; cbn [bindo]; rewrite ?fock1_0.
      * destruct a, x; cbn [local bindo]; rewrite ?fock1_S, ?E; cbn; try reflexivity;
          destruct (ladder b), s; reflexivity.
      * destruct a, x; cbn [local bindo]; rewrite ?fock1_S, ?E; cbn; reflexivity.
    + rewrite fock1_0, fock1_S.
      destruct (fock1 a i n) as [[s m]|] eqn:E; cbn [bindo]; rewrite ?fock1_0.
      * destruct b, x; cbn [local bindo]; rewrite ?fock1_S, ?E; cbn; try reflexivity;
          destruct (ladder a), s; reflexivity.
      * destruct b, x; cbn [local bindo]; rewrite ?fock1_S, ?E; cbn; reflexivity.
    + rewrite !fock1_S. specialize (IH i j ltac:(lia)).
      destruct (fock1 b j n) as [[s m]|] eqn:Eb; destruct (fock1 a i n) as [[t k]|] eqn:Ea;
        cbn [bindo flipo] in *; rewrite ?fock1_S.
      * destruct (fock1 a i m) as [[s1 m1]|]; destruct (fock1 b j k) as [[t1 k1]|];
          cbn in *; try discriminate; try reflexivity.
        injection IH as H1 H2. subst k1. f_equal. f_equal.
        destruct (ladder a), (ladder b), x, s, s1, t, t1; cbn in *; congruence.
      * destruct (fock1 a i m) as [[s1 m1]|]; cbn in *; [discriminate|reflexivity].
      * destruct (fock1 b j k) as [[t1 k1]|]; cbn in *; [discriminate|reflexivity].
      * reflexivity.
Qed.

(** Two operators on the same mode. *)
Lemma fock1_same a b i n :
  bindo (fock1 b i n) (fock1 a i) =
  match merge_table a b with None => None | Some o => fock1 o i n end.
Proof.
  revert i. induction n as [|x n IH]; intro i.
  - rewrite !fock1_nil. cbn. destruct (merge_table a b); [rewrite fock1_nil|]; reflexivity.
  - destruct i as [|i].
    + rewrite fock1_0. destruct a, b, x; cbn; reflexivity.
    + rewrite fock1_S. specialize (IH i).
      destruct (fock1 b i n) as [[s m]|] eqn:E; cbn [bindo] in *; rewrite ?fock1_S.
      * destruct (fock1 a i m) as [[s1 m1]|]; destruct (merge_table a b) as [o|] eqn:M;
          rewrite ?fock1_S; try (rewrite <- IH); try reflexivity; try discriminate.
        cbn. f_equal. f_equal.
        destruct a, b; cbn in M; try discriminate; injection M as <-; destruct s, s1, x; reflexivity.
      * destruct (merge_table a b) as [o|]; [|reflexivity]. rewrite fock1_S, <- IH. reflexivity.
Qed.

(** * Sorting loop *)
(** [l] denotes (-1)^s times [l']. *)
Definition fock_rel (s : bool) (l l' : list (fop * nat)) : Prop :=
  forall n, fock l n = flipo s (fock l' n).

Lemma fock_rel_refl l : fock_rel false l l.
Proof. intro n. rewrite flipo_false. reflexivity. Qed.
Lemma fock_rel_trans s t l l' l'' : fock_rel s l l' -> fock_rel t l' l'' -> fock_rel (xorb s t) l l''.
Proof. intros H G n. rewrite H, G, flipo_flipo. reflexivity. Qed.
Lemma fock_rel_cons s x l l' : fock_rel s l l' -> fock_rel s (x :: l) (x :: l').
Proof. intros H n. destruct x as [o j]. rewrite !fock_cons, H, bindo_flipo. reflexivity. Qed.

Lemma fock_swap a i b j l : i <> j ->
  fock_rel (ladder a && ladder b) ((a, i) :: (b, j) :: l) ((b, j) :: (a, i) :: l).
Proof.
  intros H n. rewrite !fock_cons.
  destruct (fock l n) as [[s m]|]; [|reflexivity]. cbn [bindo].
  pose proof (fock1_comm a b i j m H) as E.
  destruct (fock1 b j m) as [[s1 m1]|]; destruct (fock1 a i m) as [[t k]|]; cbn [bindo flipo] in *.
  - destruct (fock1 a i m1) as [[s2 m2]|]; destruct (fock1 b j k) as [[t1 k1]|];
      cbn in *; try discriminate; try reflexivity.
    injection E as E1 E2. subst. f_equal. f_equal.
    destruct (ladder a), (ladder b), s, s1, s2, t, t1; cbn in *; congruence.
  - destruct (fock1 a i m1) as [[s2 m2]|]; cbn in *; [discriminate|reflexivity].
  - destruct (fock1 b j k) as [[t1 k1]|]; cbn in *; [discriminate|reflexivity].
  - reflexivity.
Qed.

Lemma bubble_pass_rel l s l' : bubble_pass l = Some (s, l') -> fock_rel s l l'.
Proof.
  revert s l'. induction l as [|[a i] t IH]; intros s l'; cbn; [discriminate|].
  destruct t as [|[b j] t']; [discriminate|].
  destruct (j <? i) eqn:E.
  - intro H; injection H as <- <-. apply fock_swap. apply Nat.ltb_lt in E. lia.
  - destruct (bubble_pass ((b, j) :: t')) as [[s1 l1]|]; [|discriminate].
    intro H; injection H as <- <-. apply fock_rel_cons. apply IH. reflexivity.
Qed.

Lemma bubble_pass_perm l s l' : bubble_pass l = Some (s, l') -> Permutation l l'.
Proof.
  revert s l'. induction l as [|[a i] t IH]; intros s l'; cbn; [discriminate|].
  destruct t as [|[b j] t']; [discriminate|].
  destruct (j <? i).
  - intro H; injection H as <- <-. constructor.
  - destruct (bubble_pass ((b, j) :: t')) as [[s1 l1]|]; [|discriminate].
    intro H; injection H as <- <-. constructor. eapply IH. reflexivity.
Qed.

Fixpoint sorted (l : list (fop * nat)) : Prop :=
  match l with
  | (_, i) :: t => match t with (_, j) :: _ => i <= j /\ sorted t | [] => True end
  | [] => True
  end.

Lemma bubble_pass_None l : bubble_pass l = None -> sorted l.
Proof.
  induction l as [|[a i] t IH]; cbn; [trivial|].
  destruct t as [|[b j] t']; [trivial|].
  destruct (j <? i) eqn:E; [discriminate|]. apply Nat.ltb_ge in E.
  destruct (bubble_pass ((b, j) :: t')) as [[s1 l1]|]; [discriminate|]. intros _. split; [exact E|].
  apply IH. reflexivity.
Qed.

(** Inversions: the termination measure. *)
Definition below (i : nat) (l : list (fop * nat)) : nat := length (filter (fun e => snd e <? i) l).
Fixpoint inversions (l : list (fop * nat)) : nat :=
  match l with [] => 0 | (_, i) :: t => below i t + inversions t end.

Lemma below_perm i l l' : Permutation l l' -> below i l = below i l'.
Proof.
  unfold below. intro H. induction H as [|x l l' H IH|x y l|l l' l'' H1 IH1 H2 IH2]; cbn.
  - reflexivity.
  - destruct (snd x <? i); cbn; lia.
  - destruct (snd x <? i), (snd y <? i); cbn; lia.
  - lia.
Qed.

Lemma below_le i l : below i l <= length l.
Proof. unfold below. induction l as [|x l IH]; cbn; [lia|]. destruct (snd x <? i); cbn; lia. Qed.

Lemma inversions_le l : inversions l <= length l * length l.
Proof.
  induction l as [|[a i] l IH]; cbn; [lia|]. pose proof (below_le i l). nia.
Qed.

Lemma bubble_pass_inv l s l' : bubble_pass l = Some (s, l') -> inversions l = S (inversions l').
Proof.
  revert s l'. induction l as [|[a i] t IH]; intros s l'; cbn [bubble_pass]; [discriminate|].
  destruct t as [|[b j] t']; [discriminate|].
  destruct (j <? i) eqn:E.
  - intro H; injection H as <- <-. cbn [inversions]. unfold below. cbn [filter snd].
    rewrite E. apply Nat.ltb_lt in E.
    destruct (i <? j) eqn:F; [apply Nat.ltb_lt in F; lia|]. cbn [length]. lia.
  - destruct (bubble_pass ((b, j) :: t')) as [[s1 l1]|] eqn:B; [|discriminate].
    intro H; injection H as <- <-.
    change (inversions ((a, i) :: (b, j) :: t')) with (below i ((b, j) :: t') + inversions ((b, j) :: t')).
    change (inversions ((a, i) :: l1)) with (below i l1 + inversions l1).
    rewrite (IH s1 l1 eq_refl). rewrite (below_perm i _ _ (bubble_pass_perm _ _ _ B)). lia.
Qed.

Section FermiProofs.
  Variable K : CoefRing.
  Add Ring KRing : (c_ring K).
  Local Open Scope coef_scope.

  Lemma sgn_xorb a b : @sgn K (xorb a b) = sgn a * sgn b.
  Proof. destruct a, b; cbn; ring. Qed.
  Lemma sgn_sq a : @sgn K a * sgn a = 1.
  Proof. destruct a; cbn; ring. Qed.

  Lemma sort_loop_spec anti fuel (c : K) l :
    inversions l < fuel ->
    exists s l', sort_loop anti fuel c l = Some (c * sgn (anti && s), l')
      /\ fock_rel s l l' /\ Permutation l l' /\ sorted l'.
  Proof.
    revert c l. induction fuel as [|f IH]; intros c l Hf; [lia|]. cbn.
    destruct (bubble_pass l) as [[s1 l1]|] eqn:B.
    - pose proof (bubble_pass_inv _ _ _ B) as HI.
      destruct (IH (if anti && s1 then c * - (1) else c) l1 ltac:(lia)) as [s [l' [E [R [P S]]]]].
      exists (xorb s1 s), l'. split; [|split; [|split]].
      + rewrite E. f_equal. f_equal. destruct anti, s1, s; cbn; ring.
      + eapply fock_rel_trans; [eapply bubble_pass_rel; exact B|exact R].
      + eapply perm_trans; [eapply bubble_pass_perm; exact B|exact P].
      + exact S.
    - exists false, l. split; [|split; [|split]].
      + rewrite andb_false_r. cbn. f_equal. f_equal. ring.
      + apply fock_rel_refl.
      + apply Permutation_refl.
      + apply bubble_pass_None. exact B.
  Qed.

  (** * Merging loop *)
  Fixpoint ssorted (l : list (fop * nat)) : Prop :=
    match l with
    | (_, i) :: t => match t with (_, j) :: _ => i < j /\ ssorted t | [] => True end
    | [] => True
    end.

  Lemma merge_pass_done l : sorted l -> merge_pass l = MDone -> ssorted l.
  Proof.
    induction l as [|[a i] t IH]; [trivial|]. intros S. cbn [merge_pass].
    destruct t as [|[b j] t']; [reflexivity|]. destruct S as [S1 S2].
    destruct (i =? j) eqn:E; [destruct (merge_table a b); discriminate|].
    apply Nat.eqb_neq in E.
    destruct (merge_pass ((b, j) :: t')) eqn:M; try discriminate. intros _. split; [lia|].
    apply IH; [exact S2|reflexivity].
  Qed.

  Lemma merge_pass_zero l : merge_pass l = MZero -> forall n, fock l n = None.
  Proof.
    induction l as [|[a i] t IH]; [discriminate|]. cbn [merge_pass].
    destruct t as [|[b j] t']; [discriminate|].
    destruct (i =? j) eqn:E.
    - apply Nat.eqb_eq in E. subst j. destruct (merge_table a b) eqn:M; [discriminate|]. intros _ n.
      rewrite !fock_cons. destruct (fock t' n) as [[s m]|]; [|reflexivity]. cbn [bindo].
      pose proof (fock1_same a b i m) as F. rewrite M in F.
      destruct (fock1 b i m) as [[s1 m1]|]; [|reflexivity]. cbn in *.
      destruct (fock1 a i m1) as [[? ?]|]; [discriminate|reflexivity].
    - destruct (merge_pass ((b, j) :: t')) eqn:M; try discriminate. intros _ n.
      rewrite fock_cons, (IH eq_refl n). reflexivity.
  Qed.

  Lemma merge_pass_cont l l' : sorted l -> merge_pass l = MCont l' ->
    fock_rel false l l' /\ sorted l' /\ length l = S (length l')
    /\ (forall e, In e l' -> exists o, In (o, snd e) l)
    /\ (match l, l' with (_, i) :: _, (_, j) :: _ => i = j | _, _ => False end).
  Proof.
    revert l'. induction l as [|[a i] t IH]; intros l' S; [discriminate|]. cbn [merge_pass].
    destruct t as [|[b j] t']; [discriminate|]. destruct S as [S1 S2].
    destruct (i =? j) eqn:E.
    - apply Nat.eqb_eq in E. subst j. destruct (merge_table a b) as [o|] eqn:M; [|discriminate].
      intro H; injection H as <-. split; [|split; [|split; [|split]]].
      + intro n. rewrite flipo_false, !fock_cons. destruct (fock t' n) as [[s m]|]; [|reflexivity].
        cbn [bindo]. pose proof (fock1_same a b i m) as F. rewrite M in F.
        destruct (fock1 b i m) as [[s1 m1]|]; cbn in *.
        * destruct (fock1 a i m1) as [[s2 m2]|]; rewrite <- F; [|reflexivity].
          rewrite xorb_assoc. reflexivity.
        * rewrite <- F. reflexivity.
      + destruct t' as [|[b' j'] t'']; [exact I|]. destruct S2 as [S2 S3]. split; assumption.
      + reflexivity.
      + intros e [<-|He]; [exists a; left; reflexivity|]. exists (fst e). right. right.
        destruct e; exact He.
      + reflexivity.
    - destruct (merge_pass ((b, j) :: t')) as [| |l1] eqn:M; try discriminate.
      intro H; injection H as <-. destruct (IH l1 S2 eq_refl) as [R [S3 [L [I1 HD]]]].
      split; [|split; [|split; [|split]]].
      + apply fock_rel_cons. exact R.
      + destruct l1 as [|[b1 j1] l2]; [exact I|]. subst j1. split; assumption.
      + cbn [length] in *. lia.
      + intros e [<-|He]; [exists a; left; reflexivity|]. destruct (I1 e He) as [o Ho].
        exists o. right. exact Ho.
      + reflexivity.
  Qed.

  Lemma merge_loop_spec fuel l : sorted l -> length l < fuel ->
    (merge_loop fuel l = Some None /\ forall n, fock l n = None) \/
    (exists l', merge_loop fuel l = Some (Some l') /\ fock_rel false l l' /\ ssorted l'
       /\ (forall e, In e l' -> exists o, In (o, snd e) l) /\ (l <> [] -> l' <> [])).
  Proof.
    revert l. induction fuel as [|f IH]; intros l S Hf; [lia|]. cbn.
    destruct (merge_pass l) as [| |l1] eqn:M.
    - right. exists l. split; [reflexivity|]. split; [apply fock_rel_refl|]. split.
      + apply merge_pass_done; assumption.
      + split; [|auto]. intros e He. exists (fst e). destruct e; exact He.
    - left. split; [reflexivity|]. apply merge_pass_zero. exact M.
    - destruct (merge_pass_cont _ _ S M) as [R [S1 [L [I1 HD]]]].
      destruct (IH l1 S1 ltac:(lia)) as [[E Z]|[l' [E [R' [S' [I' N']]]]]].
      + left. split; [exact E|]. intro n. rewrite R, Z. reflexivity.
      + right. exists l'. split; [exact E|]. split; [|split; [exact S'|split]].
        * pose proof (fock_rel_trans _ _ _ _ _ R R') as G. exact G.
        * intros e He. destruct (I' e He) as [o Ho]. destruct (I1 _ Ho) as [o' Ho'].
          exists o'. exact Ho'.
        * intros _. apply N'. intros ->. destruct l as [|[? ?] ?]; exact HD.
  Qed.

  Lemma nodup_inds_ssorted l : sorted l -> nodup_inds l = true -> ssorted l.
  Proof.
    induction l as [|[a i] t IH]; [trivial|]. intros S H. destruct t as [|[b j] t']; [exact I|].
    destruct S as [S1 S2]. cbn [nodup_inds] in H. apply andb_true_iff in H. destruct H as [H1 H2].
    split; [|apply IH; [exact S2|exact H2]].
    apply negb_true_iff in H1. cbn in H1. apply orb_false_iff in H1. destruct H1 as [H1 _].
    apply Nat.eqb_neq in H1. lia.
  Qed.

  Lemma merge_stage_spec l : sorted l ->
    (merge_stage l = Some None /\ forall n, fock l n = None) \/
    (exists l', merge_stage l = Some (Some l') /\ fock_rel false l l' /\ ssorted l'
       /\ (forall e, In e l' -> exists o, In (o, snd e) l) /\ (l <> [] -> l' <> [])).
  Proof.
    intro S. unfold merge_stage. destruct (nodup_inds l) eqn:N.
    - right. exists l. split; [reflexivity|]. split; [apply fock_rel_refl|]. split.
      + apply nodup_inds_ssorted; assumption.
      + split; [|auto]. intros e He. exists (fst e). destruct e; exact He.
    - apply merge_loop_spec; [exact S|lia].
  Qed.

  (** * Assembly *)
  Lemma flat_repeat_None k i s : flat i (repeat None k ++ s) = flat (k + i)%nat s.
  Proof.
    revert i. induction k as [|k IH]; intro i; cbn; [reflexivity|]. rewrite IH. f_equal. lia.
  Qed.

  Lemma flat_repeat_None' k i : flat i (repeat None k) = [].
  Proof. rewrite <- (app_nil_r (repeat None k)), flat_repeat_None. reflexivity. Qed.

  Lemma assemble_from_spec l N i o : ssorted ((o, i) :: l) -> (forall e, In e ((o, i) :: l) -> snd e < N) ->
    flat i (assemble_from ((o, i) :: l) N) = (o, i) :: l
    /\ length (assemble_from ((o, i) :: l) N) = (N - i)%nat.
  Proof.
    revert o i. induction l as [|[b j] l IH]; intros o i S H.
    - cbn. specialize (H (o, i) (or_introl eq_refl)). cbn in H. rewrite flat_repeat_None', repeat_length.
      split; [reflexivity|lia].
    - destruct S as [S1 S2].
      change (assemble_from ((o, i) :: (b, j) :: l) N)
        with (Some o :: repeat None (j - i - 1)%nat ++ assemble_from ((b, j) :: l) N).
      destruct (IH b j S2) as [E L].
      { intros e He. apply H. right. exact He. }
      assert (Hj : j < N) by (apply (H (b, j)); right; left; reflexivity).
      split.
      + cbn [flat]. rewrite flat_repeat_None. replace (j - i - 1 + S i)%nat with j by lia.
        rewrite E. reflexivity.
      + cbn [length]. rewrite app_length, repeat_length, L. lia.
  Qed.

  Lemma assemble_spec l N : l <> [] -> ssorted l -> (forall e, In e l -> snd e < N) ->
    flat 0 (assemble l N) = l /\ length (assemble l N) = N.
  Proof.
    destruct l as [|[o i] l]; [congruence|]. intros _ S H. unfold assemble.
    destruct (assemble_from_spec l N i o S H) as [E L].
    rewrite flat_repeat_None, app_length, repeat_length. rewrite Nat.add_0_r. split; [exact E|].
    rewrite L. specialize (H (o, i) (or_introl eq_refl)). cbn in H. lia.
  Qed.

  (** * Matrices *)
  Lemma fock_mat_rel s l l' r c : fock_rel s l l' -> @fock_mat K l r c = sgn s * fock_mat l' r c.
  Proof.
    intro H. unfold fock_mat, pmap_mat. rewrite H. destruct (fock l' c) as [[t m]|]; cbn; [|ring].
    destruct (bits_eqb m r); [|ring]. apply sgn_xorb.
  Qed.

  Lemma fock_mat_zero l r c : (forall n, fock l n = None) -> @fock_mat K l r c = 0.
  Proof. intro H. unfold fock_mat, pmap_mat. rewrite H. reflexivity. Qed.

  (** The constructor, for the fermionic case. *)
  Lemma fermi_new_spec (c : K) l N :
    (forall e, In e l -> snd e < N) ->
    exists s c', fermi_new true c l N = Some (s, c') /\ length s = N
      /\ (forall r q, c' * fstr_mat s r q = c * fock_mat l r q)
      /\ (c' = c \/ c' = - c \/ c' = 0).
  Proof.
    intro H. destruct l as [|e0 l0] eqn:El.
    - exists (repeat None N), c. split; [reflexivity|]. split; [apply repeat_length|]. split; [|auto].
      intros r q. unfold fstr_mat. rewrite flat_repeat_None'. reflexivity.
    - rewrite <- El in *. assert (Hne : l <> []) by (subst; discriminate).
      replace (fermi_new true c l N) with (generate true c l N) by (subst; reflexivity).
      clear El. unfold generate.
      destruct (sort_loop_spec true (S (length l * length l)%nat) c l) as [s [l1 [E [R [P S]]]]].
      { pose proof (inversions_le l). lia. }
      rewrite E. cbn [andb].
      assert (Hne1 : l1 <> []) by (intros ->; apply Permutation_sym, Permutation_nil in P; contradiction).
      destruct (merge_stage_spec l1 S) as [[M Z]|[l2 [M [R2 [S2 [I2 N2]]]]]]; rewrite M.
      + cbn beta iota zeta. rewrite ceqb_refl.
        exists (repeat None N), 0. split; [reflexivity|]. split; [apply repeat_length|].
        split; [|auto]. intros r q. rewrite (fock_mat_rel s l l1 r q R), (fock_mat_zero l1 r q Z). ring.
      + cbn beta iota zeta. destruct (ceqb (c * sgn s) 0) eqn:Ec.
        * apply ceqb_spec in Ec. exists (repeat None N), (c * sgn s). split; [reflexivity|].
          split; [apply repeat_length|]. split; [|right; right; exact Ec].
          intros r q. rewrite (fock_mat_rel s l l1 r q R).
          replace (c * (sgn s * fock_mat l1 r q)) with (c * sgn s * fock_mat l1 r q) by ring.
          rewrite Ec. ring.
        * specialize (N2 Hne1). destruct l2 as [|e2 l2]; [contradiction|].
          destruct (assemble_spec (e2 :: l2) N) as [F L]; [discriminate|exact S2| |].
          { intros e He. destruct (I2 e He) as [o Ho]. apply Permutation_sym in P.
            apply (Permutation_in _ P) in Ho. apply H in Ho. exact Ho. }
          eexists; eexists; split; [reflexivity|]. split; [exact L|]. split.
          -- intros r q. unfold fstr_mat. rewrite F. rewrite (fock_mat_rel s l l1 r q R).
             rewrite (fock_mat_rel false l1 _ r q R2). cbn [sgn].
             replace (c * (sgn s * (1 * fock_mat (e2 :: l2) r q)))
               with (c * sgn s * fock_mat (e2 :: l2) r q) by ring. reflexivity.
          -- destruct s; [right; left|left]; cbn; ring.
  Qed.

  Lemma In_flat s i e : In e (flat i s) -> i <= snd e < (i + length s)%nat.
  Proof.
    revert i. induction s as [|[o|] s IH]; intros i; cbn; [tauto| |].
    - intros [<-|H]; cbn; [lia|]. apply IH in H. lia.
    - intro H. apply IH in H. lia.
  Qed.

  (** Composition of partial signed maps is the matrix product. *)
  Lemma pmap_mat_comp n (f g : bits -> option (bool * bits)) :
    (forall c s m, length c = n -> g c = Some (s, m) -> length m = n) ->
    meq n (mmul n (@pmap_mat K f) (pmap_mat g)) (pmap_mat (fun c => bindo (g c) f)).
  Proof.
    intros Hg r c Hr Hc. unfold mmul, pmap_mat. destruct (g c) as [[s m]|] eqn:G.
    - rewrite (sumbits_ext K n _ (fun k => if bits_eqb k m then
         (match f k with Some (t, m') => if bits_eqb m' r then sgn t else 0 | None => 0 end) * sgn s else 0)).
      + rewrite (sumbits_pick K n m (fun k =>
          (match f k with Some (t, m') => if bits_eqb m' r then sgn t else 0 | None => 0 end) * sgn s)).
        2:{ eapply Hg; eassumption. }
        cbn [bindo]. destruct (f m) as [[t m']|]; [|ring].
        destruct (bits_eqb m' r); [|ring]. rewrite sgn_xorb. ring.
      + intros b _. rewrite (bits_eqb_sym m b). destruct (bits_eqb b m); [reflexivity|ring].
    - cbn. rewrite (sumbits_ext K n _ (fun _ => 0)); [apply sumbits_0|]. intros; ring.
  Qed.

  Lemma fock1_length o j n s m : fock1 o j n = Some (s, m) -> length m = length n.
  Proof.
    assert (U : forall b k, length (upd k b n) = length n).
    { intros b. induction n as [|x n IH]; intros [|k]; cbn; auto. }
    unfold fock1. destruct (nth_error n j) as [b|]; [|discriminate].
    destruct (local o b); [|discriminate]. intro H; injection H as _ <-. apply U.
  Qed.

  Lemma fock_length l n s m : fock l n = Some (s, m) -> length m = length n.
  Proof.
    revert s m. induction l as [|[o j] l IH]; intros s m.
    - cbn. intro H; injection H as _ <-. reflexivity.
    - rewrite fock_cons. destruct (fock l n) as [[s1 m1]|]; [|discriminate]. cbn.
      destruct (fock1 o j m1) as [[s2 m2]|] eqn:E; [|discriminate]. intro H; injection H as _ <-.
      apply fock1_length in E. rewrite E. eapply IH. reflexivity.
  Qed.

  Lemma fock_mat_app n l l' : meq n (@fock_mat K (l ++ l')) (mmul n (fock_mat l) (fock_mat l')).
  Proof.
    intros r c Hr Hc. unfold fock_mat. rewrite pmap_mat_comp; [|intros ? ? ? ? E; apply fock_length in E; congruence|assumption|assumption].
    unfold pmap_mat. rewrite fock_app. reflexivity.
  Qed.

  Lemma fock_mat_nil n : meq n (@fock_mat K []) mone.
  Proof. intros r c Hr Hc. unfold fock_mat, pmap_mat, mone. cbn. rewrite bits_eqb_sym. reflexivity. Qed.

  Lemma fermi_mul_spec (x y : fstr * K) N :
    length (fst x) = N -> length (fst y) = N ->
    exists s c, fermi_mul true x y = Some (s, c) /\ length s = N /\
      meq N (mscal c (fstr_mat s)) (mmul N (mscal (snd x) (fstr_mat (fst x))) (mscal (snd y) (fstr_mat (fst y)))).
  Proof.
    intros Hx Hy. unfold fermi_mul. rewrite Hx, Hy, Nat.max_id.
    destruct (fermi_new_spec (snd x * snd y) (flat 0 (fst x) ++ flat 0 (fst y)) N) as [s [c [E [L [M _]]]]].
    { intros e He. apply in_app_or in He. destruct He as [He|He]; apply In_flat in He; lia. }
    exists s, c. split; [exact E|]. split; [exact L|]. intros r q Hr Hq.
    unfold mscal at 1. rewrite M. rewrite (fock_mat_app N _ _ r q Hr Hq).
    rewrite mmul_scal_l by assumption. unfold mscal at 1.
    rewrite mmul_scal_r by assumption. unfold mscal, fstr_mat. ring.
  Qed.
End FermiProofs.
