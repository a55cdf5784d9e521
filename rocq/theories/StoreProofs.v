From Coq Require Import Bool List Arith ZArith Lia Permutation.
From Verif Require Import Coeff MatSpec FockSpec PauliModel TransformModel CircuitSpec CircuitModel CircuitProofs CircuitProofs2 InitProofs StoreModel StoreSpec.
Import ListNotations.

Lemma take_from_spec n : forall g i init, take_from g i n init =
  if i + n <=? length g then Some (init ++ firstn n (skipn i g)) else if n =? 0 then Some init else None.
Proof.
  induction n as [|n IH]; intros g i init; cbn [take_from].
  - destruct (i + 0 <=? length g); cbn [firstn]; rewrite ?app_nil_r; reflexivity.
  - destruct (nth_error g i) as [x|] eqn:E.
    + assert (L : i < length g) by (apply nth_error_Some; congruence). rewrite IH. replace (S i + n) with (i + S n) by lia.
      destruct (i + S n <=? length g) eqn:C.
      * f_equal. rewrite <- app_assoc. f_equal.
        assert (S0 : skipn i g = x :: skipn (S i) g).
        { clear -E. revert i E. induction g as [|y g IH]; intros [|i] E; try discriminate; [injection E as ->; reflexivity|]. cbn [skipn]. apply IH. exact E. }
        rewrite S0. reflexivity.
      * apply Nat.leb_gt in C. replace (n =? 0) with false by (symmetry; apply Nat.eqb_neq; lia). reflexivity.
    + apply nth_error_None in E. replace (i + S n <=? length g) with false by (symmetry; apply Nat.leb_gt; lia). reflexivity.
Qed.
Lemma qs_initial_spec m No a b : qs_initial m No a b =
  if (a <=? length (fst (qs_groups m No))) && (b <=? length (snd (qs_groups m No)))
  then Some (firstn a (fst (qs_groups m No)) ++ firstn b (snd (qs_groups m No))) else None.
Proof.
  unfold qs_initial. cbv zeta. rewrite take_from_spec. cbn [skipn Nat.add app].
  destruct (a <=? length (fst (qs_groups m No))) eqn:A; cbn [andb].
  - rewrite take_from_spec. cbn [skipn Nat.add]. destruct (b <=? _) eqn:B; [reflexivity|]. apply Nat.leb_gt in B.
    replace (b =? 0) with false by (symmetry; apply Nat.eqb_neq; lia). reflexivity.
  - apply Nat.leb_gt in A. replace (a =? 0) with false by (symmetry; apply Nat.eqb_neq; lia). reflexivity.
Qed.
Lemma NoDup_app_remove_r {A} (l m : list A) : NoDup (l ++ m) -> NoDup l.
Proof. induction l as [|x l IH]; intro H; [constructor|]. cbn in H. inversion H; subst. constructor; [intro C; apply H2; apply in_or_app; left; exact C|apply IH; assumption]. Qed.
Lemma NoDup_app_remove_l {A} (l m : list A) : NoDup (l ++ m) -> NoDup m.
Proof. induction l as [|x l IH]; intro H; [exact H|]. cbn in H. inversion H; subst. apply IH. assumption. Qed.
Lemma NoDup_firstn {A} (l : list A) n : NoDup l -> NoDup (firstn n l).
Proof. intro H. rewrite <- (firstn_skipn n l) in H. apply NoDup_app_remove_r in H. exact H. Qed.
Lemma in_firstn {A} (l : list A) n x : In x (firstn n l) -> In x l.
Proof. intro H. rewrite <- (firstn_skipn n l). apply in_or_app. left. exact H. Qed.
Lemma NoDup_app_intro {A} (l m : list A) : NoDup l -> NoDup m -> (forall x, In x l -> ~ In x m) -> NoDup (l ++ m).
Proof.
  induction l as [|x l IH]; intros Hl Hm D; [exact Hm|]. inversion Hl; subst. cbn. constructor.
  - intro C. apply in_app_or in C. destruct C as [C|C]; [contradiction|]. apply (D x (or_introl eq_refl) C).
  - apply IH; [assumption|assumption|]. intros y Hy. apply D. right. exact Hy.
Qed.
Lemma NoDup_app_disj {A} (l m : list A) : NoDup (l ++ m) -> forall x, In x l -> ~ In x m.
Proof.
  induction l as [|y l IH]; intros H x I C; [destruct I|]. cbn in H. inversion H; subst. destruct I as [<- |I].
  - match goal with h : ~ In _ (_ ++ _) |- _ => apply h end. apply in_or_app. right. exact C.
  - apply (IH ltac:(assumption) x I C).
Qed.
Lemma groups_perm m No : m = Default \/ m = Alternating -> Permutation (fst (qs_groups m No) ++ snd (qs_groups m No)) (seq 0 (2 * No)).
Proof.
  intros [->| ->]; cbn [qs_groups fst snd].
  - rewrite map_id. replace (map (fun i => i + No) (seq 0 No)) with (seq No No).
    + replace (2 * No) with (No + No) by lia. rewrite seq_app. reflexivity.
    + transitivity (map (fun i => No + i) (seq 0 No)); [|apply map_ext; intro; lia].
      symmetry. clear. assert (G : forall n s, map (fun i => No + i) (seq s n) = seq (No + s) n).
      { induction n as [|n IH]; intro s; [reflexivity|]. cbn. rewrite IH. f_equal. f_equal. lia. }
      rewrite G. f_equal. lia.
  - induction No as [|No IH]; [reflexivity|]. replace (2 * S No) with (2 * No + 2) by lia.
    replace (S No) with (No + 1) by lia. rewrite !seq_app, !map_app. cbn [seq map Nat.add].
    rewrite <- IH.
    transitivity ((map (fun i => 2 * i) (seq 0 No) ++ map (fun i => 2 * i + 1) (seq 0 No)) ++ [2 * No] ++ [2 * No + 1]).
    + rewrite <- !app_assoc. apply Permutation_app_head. rewrite app_assoc. rewrite (app_assoc (map (fun i => 2 * i + 1) (seq 0 No))).
      apply Permutation_app_tail. apply Permutation_app_comm.
    + apply Permutation_app_head. cbn. replace (S (No + (No + 0))) with (2 * No + 1) by lia. reflexivity.
Qed.
Lemma groups_length m No : m = Default \/ m = Alternating -> length (fst (qs_groups m No)) = No /\ length (snd (qs_groups m No)) = No.
Proof. intros [->| ->]; cbn [qs_groups fst snd]; rewrite !map_length, seq_length; auto. Qed.

Lemma count_split (f : nat -> bool) (l m : list nat) : (forall x, In x l -> f x = true) -> (forall x, In x m -> f x = false) -> length (filter f (l ++ m)) = length l.
Proof.
  intros H1 H2. rewrite filter_app, app_length.
  assert (A : filter f l = l). { clear -H1. induction l as [|x l IH]; [reflexivity|]. cbn. rewrite H1 by (left; reflexivity). f_equal. apply IH. intros y Hy. apply H1. right. exact Hy. }
  assert (B : filter f m = []). { clear -H2. induction m as [|x l IH]; [reflexivity|]. cbn. rewrite H2 by (left; reflexivity). apply IH. intros y Hy. apply H2. right. exact Hy. }
  rewrite A, B. cbn. lia.
Qed.
Lemma mem_spec x l : existsb (Nat.eqb x) l = true <-> In x l.
Proof. rewrite existsb_exists. split; [intros [y [I E]]; apply Nat.eqb_eq in E; subst; exact I|]. intro I. exists x. split; [exact I|apply Nat.eqb_refl]. Qed.

(** The occupied orbitals among those of [g], counted over 0..N-1, for a NoDup list. *)
Lemma particles_filter g N occ : NoDup occ -> (forall k, In k occ -> k < N) ->
  particles g (map (fun j => existsb (Nat.eqb j) occ) (seq 0 N)) = length (filter (fun k => existsb (Nat.eqb k) g) occ).
Proof.
  intros ND LT. unfold particles. rewrite map_length, seq_length.
  apply Permutation_length. apply NoDup_Permutation.
  - apply NoDup_filter. apply seq_NoDup.
  - apply NoDup_filter. exact ND.
  - intro x. rewrite !filter_In, in_seq, andb_true_iff. split.
    + intros [[_ L] [G O]]. split; [|exact G]. rewrite (nth_indep _ false (existsb (Nat.eqb 0) occ)) in O by (rewrite map_length, seq_length; lia).
      rewrite (map_nth (fun j => existsb (Nat.eqb j) occ)) in O. rewrite seq_nth in O by lia. apply mem_spec. exact O.
    + intros [I G]. pose proof (LT x I) as L. split; [lia|]. split; [exact G|].
      rewrite (nth_indep _ false (existsb (Nat.eqb 0) occ)) by (rewrite map_length, seq_length; lia).
      rewrite (map_nth (fun j => existsb (Nat.eqb j) occ)). rewrite seq_nth by lia. apply mem_spec. exact I.
Qed.

Lemma reference m No a b : m = Default \/ m = Alternating -> a <= No -> b <= No ->
  exists occ, qs_initial m No a b = Some occ /\ NoDup occ /\ (forall k, In k occ -> k < 2 * No) /\
    let d := map (fun j => existsb (Nat.eqb j) occ) (seq 0 (2 * No)) in
    particles (fst (qs_groups m No)) d = a /\ particles (snd (qs_groups m No)) d = b.
Proof.
  intros M A B. destruct (groups_length m No M) as [LA LB]. pose proof (groups_perm m No M) as P.
  set (ga := fst (qs_groups m No)) in *. set (gb := snd (qs_groups m No)) in *.
  assert (ND : NoDup (ga ++ gb)) by (apply (Permutation_NoDup (Permutation_sym P)), seq_NoDup).
  pose proof (NoDup_app_disj _ _ ND) as DJ.
  assert (LT : forall k, In k (ga ++ gb) -> k < 2 * No) by (intros k H; apply (Permutation_in _ P) in H; apply in_seq in H; lia).
  exists (firstn a ga ++ firstn b gb). rewrite qs_initial_spec. fold ga gb. rewrite LA, LB.
  replace (a <=? No) with true by (symmetry; apply Nat.leb_le; exact A). replace (b <=? No) with true by (symmetry; apply Nat.leb_le; exact B).
  assert (N1 : NoDup (firstn a ga ++ firstn b gb)).
  { apply NoDup_app_intro.
    - apply NoDup_firstn. apply NoDup_app_remove_r in ND. exact ND.
    - apply NoDup_firstn. apply NoDup_app_remove_l in ND. exact ND.
    - intros x H1 H2. apply (DJ x); [apply (in_firstn ga a)|apply (in_firstn gb b)]; assumption. }
  assert (L1 : forall k, In k (firstn a ga ++ firstn b gb) -> k < 2 * No).
  { intros k H. apply LT. apply in_app_or in H. apply in_or_app. destruct H as [H|H]; apply in_firstn in H; auto. }
  split; [reflexivity|]. split; [exact N1|]. split; [exact L1|]. cbv zeta. rewrite !particles_filter by assumption. split.
  - rewrite count_split, firstn_length; [lia| |].
    + intros x H. apply mem_spec. apply in_firstn in H. exact H.
    + intros x H. apply not_true_iff_false. rewrite mem_spec. intro C. apply (DJ x C). apply in_firstn in H. exact H.
  - rewrite filter_app, app_length, Nat.add_comm, <- app_length, <- filter_app, count_split, firstn_length; [lia| |].
    + intros x H. apply mem_spec. apply in_firstn in H. exact H.
    + intros x H. apply not_true_iff_false. rewrite mem_spec. intro C. apply in_firstn in H. apply (DJ x H C).
Qed.
Lemma too_many m No a b : m = Default \/ m = Alternating -> No < a \/ No < b -> qs_initial m No a b = None.
Proof.
  intros M H. destruct (groups_length m No M) as [LA LB]. rewrite qs_initial_spec, LA, LB.
  destruct (a <=? No) eqn:A; [|reflexivity]. apply Nat.leb_le in A. replace (b <=? No) with false by (symmetry; apply Nat.leb_gt; lia). reflexivity.
Qed.

(** * The filter *)
Local Open Scope Z_scope.
Lemma reads_spec q : forall n made k, (k < S q)%nat ->
  mf_reads n (MkFilter (Z.of_nat (S q)) (Z.of_nat q - Z.of_nat k) made)
  = map (fun j => (made + (k + j) / S q)%nat) (seq 1 n).
Proof.
  induction n as [|n IH]; intros made k H; [reflexivity|]. cbn [mf_reads mf_read]. cbv zeta. unfold mf_update. cbn [mf_n mf_freq mf_made].
  destruct (Z.eqb_spec (Z.of_nat q - Z.of_nat k) 0) as [E|E].
  - assert (k = q) by lia. subst k. cbn [mf_made]. replace (Z.of_nat (S q) - 1) with (Z.of_nat q - Z.of_nat 0) by lia. rewrite IH by lia.
    change (seq 1 (S n)) with (1%nat :: seq 2 n). cbn [map]. f_equal.
    + replace (q + 1)%nat with (1 * S q)%nat by lia. rewrite Nat.div_mul by lia. lia.
    + rewrite <- (seq_shift n 1), map_map. apply map_ext. intro j. replace (q + S j)%nat with (0 + j + 1 * S q)%nat by lia. rewrite Nat.div_add by lia. lia.
  - cbn [mf_made]. replace (Z.of_nat q - Z.of_nat k - 1) with (Z.of_nat q - Z.of_nat (S k)) by lia. rewrite IH by lia.
    change (seq 1 (S n)) with (1%nat :: seq 2 n). cbn [map]. f_equal.
    + rewrite Nat.div_small by lia. lia.
    + rewrite <- (seq_shift n 1), map_map. apply map_ext. intro j. replace (S k + j)%nat with (k + S j)%nat by lia. reflexivity.
Qed.
Lemma schedule (q n made : nat) : (0 < q)%nat ->
  mf_reads n (mf_initial (Z.of_nat q) made) = map (fun j => (made + 1 + j / q)%nat) (seq 1 n).
Proof.
  intro H. destruct q as [|q]; [lia|]. unfold mf_initial, mf_update. cbn [mf_n mf_freq mf_made Z.eqb].
  replace (Z.of_nat (S q) - 1) with (Z.of_nat q - Z.of_nat 0) by lia. rewrite reads_spec by lia.
  apply map_ext. intro j. cbn [Nat.add]. lia.
Qed.
Lemma reads_negative n : forall freq k made, k < 0 -> mf_reads n (MkFilter freq k made) = repeat made n.
Proof.
  induction n as [|n IH]; intros freq k made H; [reflexivity|]. cbn [mf_reads mf_read repeat]. cbv zeta. unfold mf_update. cbn [mf_n mf_freq mf_made].
  replace (k =? 0) with false by (symmetry; apply Z.eqb_neq; lia). cbn [mf_made]. rewrite IH by lia. reflexivity.
Qed.
Lemma schedule_zero (freq : Z) (n made : nat) : freq <= 0 -> mf_reads n (mf_initial freq made) = repeat (S made) n.
Proof. intro H. unfold mf_initial, mf_update. cbn [mf_n mf_freq mf_made Z.eqb]. apply reads_negative. lia. Qed.
Local Close Scope Z_scope.
Lemma prepared (K : CoefRing) (rt : K) : (rt * rt = chalf)%K -> forall m No a b, m = Default \/ m = Alternating -> a <= No -> b <= No ->
  exists occ o d (z : Z), qs_initial m No a b = Some occ /\ initial_operator (2 * No) occ = Some o /\
    length d = 2 * No /\ particles (fst (qs_groups m No)) d = a /\ particles (snd (qs_groups m No)) d = b /\
    forall r, length r = 2 * No -> cmat rt (2 * No) (initial_circuit rt o) r (repeat false (2 * No)) = if bits_eqb r d then @ipow K z else c0.
Proof.
  intros H m No a b M A B. destruct (reference m No a b M A B) as [occ [E [ND [LT [P1 P2]]]]].
  destruct (initial_state K rt H (2 * No) occ ND LT) as [s [z [I [z' F]]]].
  exists occ, [(s, ipow z)], (map (fun j => existsb (Nat.eqb j) occ) (seq 0 (2 * No))), z'.
  split; [exact E|]. split; [exact I|]. split; [rewrite map_length, seq_length; reflexivity|]. split; [exact P1|]. split; [exact P2|exact F].
Qed.
