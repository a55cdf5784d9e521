(** Proofs about partial traces of arrays and the particle-number ordering. *)
From Coq Require Import Bool List Arith ZArith Lia Ring Permutation Sorted.
From Verif Require Import Coeff MatSpec MatLemmas TraceSpec TraceProofs FockSpec CircuitSpec CircModel CircSpec2 CircProofs1.
Import ListNotations.

(** * The list of basis states *)
Lemma all_bits_in n b : In b (all_bits n) <-> length b = n.
Proof.
  revert b. induction n as [|n IH]; intro b; cbn [all_bits].
  - split; [intros [<- | []]; reflexivity|]. destruct b; [now left|discriminate].
  - rewrite in_app_iff, !in_map_iff. split.
    + intros [[x [<- H]] | [x [<- H]]]; cbn; f_equal; now apply IH.
    + destruct b as [|[] b]; [discriminate| |]; intro H; [right|left]; exists b; (split; [reflexivity|]); apply IH; now injection H.
Qed.
Lemma NoDup_app_intro {A} (l m : list A) : NoDup l -> NoDup m -> (forall x, In x l -> In x m -> False) -> NoDup (l ++ m).
Proof.
  intros H G D. induction H as [|x l Hx Hl IH]; [exact G|]. cbn. constructor.
  - rewrite in_app_iff. intros [X | X]; [contradiction|]. apply (D x); [now left|exact X].
  - apply IH. intros y Hy. apply D. now right.
Qed.
Lemma NoDup_map_cons {A} (a : A) l : NoDup l -> NoDup (map (cons a) l).
Proof.
  induction 1 as [|x l Hx Hl IH]; cbn; constructor; [|exact IH]. rewrite in_map_iff. intros [y [E Hy]]. injection E as ->. contradiction.
Qed.
Lemma all_bits_nodup n : NoDup (all_bits n).
Proof.
  induction n as [|n IH]; cbn; [constructor; [intros []|constructor]|].
  apply NoDup_app_intro; try (apply NoDup_map_cons; exact IH).
  intros x H G. apply in_map_iff in H. apply in_map_iff in G. destruct H as [y [<- _]], G as [z [E _]]. discriminate.
Qed.

(** * Particle-number order *)
Lemma digit_sum_eq b : digit_sum b = length (filter (fun x => x) b).
Proof.
  unfold digit_sum. assert (G : forall k, fold_left (fun t (s : bool) => t + (if s then 1 else 0)) b k = k + length (filter (fun x => x) b)).
  { induction b as [|x b IH]; intro k; cbn; [lia|]. rewrite IH. destruct x; cbn; lia. }
  apply (G 0).
Qed.
Lemma digit_sum_le b : digit_sum b <= length b.
Proof. rewrite digit_sum_eq. induction b as [|[] b IH]; cbn; lia. Qed.
Lemma cN_in n b : In b (cN_basis n) <-> length b = n.
Proof.
  unfold cN_basis. rewrite in_flat_map. split.
  - intros [i [_ H]]. apply filter_In in H. now apply all_bits_in.
  - intro H. exists (digit_sum b). split; [apply in_seq; pose proof (digit_sum_le b); lia|]. apply filter_In. split; [now apply all_bits_in|apply Nat.eqb_refl].
Qed.
Lemma cN_nodup n : NoDup (cN_basis n).
Proof.
  unfold cN_basis. generalize 0. induction (S n) as [|k IH]; intro s; cbn; [constructor|]. apply NoDup_app_intro.
  - apply NoDup_filter, all_bits_nodup.
  - apply IH.
  - intros x H G. apply filter_In in H. apply in_flat_map in G. destruct G as [i [Hi G]]. apply filter_In in G.
    apply in_seq in Hi. destruct H as [_ H], G as [_ G]. apply Nat.eqb_eq in H. apply Nat.eqb_eq in G. lia.
Qed.
Lemma cN_sorted n : StronglySorted (fun a b => digit_sum a <= digit_sum b) (cN_basis n).
Proof.
  unfold cN_basis. generalize 0. induction (S n) as [|k IH]; intro s; cbn; [constructor|].
  assert (A : forall x, In x (flat_map (fun i => filter (fun b => digit_sum b =? i) (all_bits n)) (seq (S s) k)) -> S s <= digit_sum x).
  { intros x H. apply in_flat_map in H. destruct H as [i [Hi H]]. apply in_seq in Hi. apply filter_In in H. destruct H as [_ H]. apply Nat.eqb_eq in H. lia. }
  specialize (IH (S s)). revert A IH. generalize (flat_map (fun i => filter (fun b => digit_sum b =? i) (all_bits n)) (seq (S s) k)) as L. intros L A IH.
  induction (all_bits n) as [|x l IHl]; cbn; [exact IH|]. destruct (Nat.eqb_spec (digit_sum x) s) as [E | E]; [|exact IHl]. cbn. constructor; [exact IHl|].
  apply Forall_forall. intros y Hy. apply in_app_iff in Hy. destruct Hy as [Hy | Hy].
  - apply filter_In in Hy. destruct Hy as [_ Hy]. apply Nat.eqb_eq in Hy. lia.
  - apply A in Hy. lia.
Qed.
Lemma cN_perm n : Permutation (cN_basis n) (all_bits n).
Proof. apply NoDup_Permutation; [apply cN_nodup|apply all_bits_nodup|]. intro x. rewrite cN_in, all_bits_in. reflexivity. Qed.
Lemma all_bits_length n : length (all_bits n) = 2 ^ n.
Proof. induction n as [|n IH]; [reflexivity|]. cbn [all_bits Nat.pow]. rewrite app_length, !map_length. unfold bits in *. rewrite IH. lia. Qed.

(** * Masks *)
Definition mask_at (r : nat) (qb : list nat) (n : nat) : list bool := map (fun q => existsb (Nat.eqb q) qb) (seq r n).
Lemma in_existsb q qb : existsb (Nat.eqb q) qb = true <-> In q qb.
Proof.
  rewrite existsb_exists. split; [intros [x [H E]]; apply Nat.eqb_eq in E; now subst|]. intro H. exists q. split; [exact H|apply Nat.eqb_refl].
Qed.
Lemma mask_counts qb n : NoDup qb -> (forall q, In q qb -> q < n) -> n_traced (mask_of qb n) = length qb /\ n_kept (mask_of qb n) = n - length qb.
Proof.
  intros ND H. assert (T : n_traced (mask_of qb n) = length qb).
  { unfold n_traced, mask_of. assert (P : Permutation (filter (fun q => existsb (Nat.eqb q) qb) (seq 0 n)) qb).
    { apply NoDup_Permutation; [apply NoDup_filter, seq_NoDup|exact ND|]. intro x. rewrite filter_In, in_existsb, in_seq. split; [tauto|]. intro Hx. specialize (H x Hx). split; [lia|exact Hx]. }
    rewrite <- (Permutation_length P). clear. induction (seq 0 n) as [|x l IH]; cbn; [reflexivity|]. destruct (existsb (Nat.eqb x) qb); cbn; now rewrite IH. }
  split; [exact T|].
  assert (S : forall m, n_traced m + n_kept m = length m).
  { unfold n_traced, n_kept. induction m as [|[] m IH]; cbn; lia. }
  specialize (S (mask_of qb n)). rewrite mask_length in S.
  lia.
Qed.
Lemma weave_length mask k t : length k = n_kept mask -> length t = n_traced mask -> length (weave mask k t) = length mask.
Proof.
  revert k t. induction mask as [|[] m IH]; intros k t Hk Ht; [reflexivity| |]; unfold n_kept, n_traced in *; cbn in *.
  - destruct t; [discriminate|]. cbn. f_equal. apply IH; [exact Hk|now injection Ht].
  - destruct k; [discriminate|]. cbn. f_equal. apply IH; [now injection Hk|exact Ht].
Qed.

Section Traces.
  Variable K : CoefRing.
  Add Ring KRing : (c_ring K).
  Local Open Scope coef_scope.

  (** * Building the long strings *)
  Lemma build_weave qb n : forall r i j basis, length i = n_kept (mask_at r qb n) -> length j = n_kept (mask_at r qb n) ->
    length basis = n_traced (mask_at r qb n) ->
    build qb r n i j basis = Some (weave (mask_at r qb n) i basis, weave (mask_at r qb n) j basis).
  Proof.
    induction n as [|n IH]; intros r i j basis Hi Hj Hb; [reflexivity|]. unfold mask_at in *. cbn [seq map build weave] in *.
    unfold n_kept, n_traced in *. cbn [filter] in *. destruct (existsb (Nat.eqb r) qb); cbn [negb length] in *.
    - destruct basis as [|x basis]; [discriminate|]. rewrite IH; [reflexivity|exact Hi|exact Hj|now injection Hb].
    - destruct i as [|t i]; [discriminate|]. destruct j as [|u j]; [discriminate|]. rewrite IH; [reflexivity|now injection Hi|now injection Hj|exact Hb].
  Qed.
  Lemma osum_app (l m : list (option K)) : osum (l ++ m) = match osum l, osum m with Some a, Some b => Some (a + b) | _, _ => None end.
  Proof.
    induction l as [|x l IH]; cbn.
    - destruct (osum m) as [b|]; [f_equal; ring|reflexivity].
    - destruct x as [x|]; [|reflexivity]. rewrite IH. destruct (osum l) as [a|]; [|reflexivity]. destruct (osum m) as [b|]; [f_equal; ring|reflexivity].
  Qed.
  Lemma osum_bits w (f : bits -> option K) (g : bits -> K) : (forall b, length b = w -> f b = Some (g b)) ->
    osum (map f (all_bits w)) = Some (sumbits w g).
  Proof.
    revert f g. induction w as [|w IH]; intros f g H; cbn [all_bits sumbits map].
    - cbn. rewrite H by reflexivity. f_equal. ring.
    - rewrite map_app, !map_map, osum_app.
      pose proof (IH (fun b => f (false :: b)) (fun b => g (false :: b)) ltac:(intros b Hb; apply H; cbn; now rewrite Hb)) as H0.
      pose proof (IH (fun b => f (true :: b)) (fun b => g (true :: b)) ltac:(intros b Hb; apply H; cbn; now rewrite Hb)) as H1.
      unfold bits in *. rewrite H0, H1.
      reflexivity.
  Qed.
  Lemma pt_gen (sel : bits * bits -> K) (qb : list nat) n (M : mat K) i j : NoDup qb -> (forall q, In q qb -> q < n)%nat ->
    length i = (n - length qb)%nat -> length j = (n - length qb)%nat ->
    osum (map (fun basis => option_map sel (build qb 0 n i j basis)) (all_bits (length qb)))
    = Some (sumbits (length qb) (fun b => sel (weave (mask_of qb n) i b, weave (mask_of qb n) j b))).
  Proof.
    intros ND H Hi Hj. destruct (mask_counts qb n ND H) as [T Q]. apply osum_bits. intros b Hb.
    rewrite (build_weave qb n 0) by (unfold mask_at; fold (mask_of qb n); lia). reflexivity.
  Qed.
  Lemma pt_matrix_spec (qb : list nat) n (M : mat K) i j : NoDup qb -> (forall q, In q qb -> q < n)%nat ->
    length i = (n - length qb)%nat -> length j = (n - length qb)%nat ->
    pt_matrix n qb M i j = Some (ptrace (mask_of qb n) M i j).
  Proof.
    intros ND H Hi Hj. unfold pt_matrix. rewrite (pt_gen (fun p => M (fst p) (snd p)) qb n M) by assumption.
    unfold ptrace. destruct (mask_counts qb n ND H) as [-> _]. reflexivity.
  Qed.
  Lemma pt_symbolic_spec (qb : list nat) n (M : mat K) i j : NoDup qb -> (forall q, In q qb -> q < n)%nat ->
    length i = (n - length qb)%nat -> length j = (n - length qb)%nat ->
    pt_symbolic n qb M i j = Some (ptrace (mask_of qb n) M j i).
  Proof.
    intros ND H Hi Hj. unfold pt_symbolic. rewrite (pt_gen (fun p => M (snd p) (fst p)) qb n M) by assumption.
    unfold ptrace. destruct (mask_counts qb n ND H) as [-> _]. reflexivity.
  Qed.
  Lemma trace_op_spec (qb : list nat) n (M : mat K) i j : NoDup qb -> (forall q, In q qb -> q < n)%nat ->
    length i = (n - length qb)%nat -> length j = (n - length qb)%nat ->
    trace_op n qb M i j = Some (ptrace (mask_of qb n) M j i * half_pow (length qb)).
  Proof.
    intros ND H Hi Hj. unfold trace_op. rewrite (pt_gen (fun p => M (snd p) (fst p)) qb n M) by assumption.
    unfold ptrace. destruct (mask_counts qb n ND H) as [-> _]. reflexivity.
  Qed.

  (** * DensityMatrix.partial_trace *)
  Lemma sumbits_weave mask (f : bits -> K) :
    sumbits (length mask) f = sumbits (n_kept mask) (fun k => sumbits (n_traced mask) (fun t => f (weave mask k t))).
  Proof.
    revert f. induction mask as [|[] m IH]; intro f; [reflexivity| |]; unfold n_kept, n_traced in *; cbn [filter negb length sumbits weave].
    - rewrite !IH. rewrite <- sumbits_add. apply sumbits_ext. intros k _. reflexivity.
    - rewrite !IH. reflexivity.
  Qed.
  Fixpoint kept (mask : list bool) (b : bits) : bits :=
    match mask, b with
    | true :: m, _ :: b' => kept m b'
    | false :: m, x :: b' => x :: kept m b'
    | _, _ => []
    end.
  Lemma kept_weave mask k t : length k = n_kept mask -> length t = n_traced mask -> kept mask (weave mask k t) = k.
  Proof.
    revert k t. induction mask as [|[] m IH]; intros k t Hk Ht; unfold n_kept, n_traced in *; cbn in *.
    - destruct k; [reflexivity|discriminate].
    - destruct t; [discriminate|]. cbn. apply IH; [exact Hk|now injection Ht].
    - destruct k; [discriminate|]. cbn. f_equal. apply IH; [now injection Hk|exact Ht].
  Qed.
  Lemma kept_app m m' b b' : length m = length b -> kept (m ++ m') (b ++ b') = kept m b ++ kept m' b'.
  Proof.
    revert b. induction m as [|x m IH]; intros [|y b] H; try discriminate; [reflexivity|]. cbn in H. cbn. rewrite IH by lia. destruct x; reflexivity.
  Qed.
  Lemma kept_false n b : length b = n -> kept (repeat false n) b = b.
  Proof. revert b. induction n as [|n IH]; intros [|x b] H; try discriminate; [reflexivity|]. cbn. f_equal. apply IH. now injection H. Qed.
  Lemma mask_split q x n : (x < n)%nat -> (forall y, In y q -> y < x)%nat ->
    mask_of (q ++ [x]) n = mask_of q x ++ true :: repeat false (n - S x) /\
    mask_of q (n - 1) = mask_of q x ++ repeat false (n - S x).
  Proof.
    intros Hx H. split; unfold mask_of.
    - replace n with (x + S (n - S x))%nat at 1 by lia. rewrite seq_app, map_app. cbn [seq map]. f_equal; [|f_equal].
      + apply map_ext_in. intros k Hk. apply in_seq in Hk. rewrite existsb_app. cbn. destruct (Nat.eqb_spec k x); [lia|]. now rewrite !orb_false_r.
      + rewrite existsb_app. cbn. rewrite Nat.eqb_refl, orb_true_r. reflexivity.
      + assert (G : forall m s, (x < s)%nat -> map (fun k => existsb (Nat.eqb k) (q ++ [x])) (seq s m) = repeat false m).
        { induction m as [|m IH]; intros s Hs; [reflexivity|]. cbn. rewrite IH by lia. f_equal.
          destruct (existsb (Nat.eqb s) (q ++ [x])) eqn:E; [|reflexivity]. apply in_existsb in E. apply in_app_iff in E.
          destruct E as [E | [E | []]]; [apply H in E; lia|lia]. }
        apply G. lia.
    - replace (n - 1)%nat with (x + (n - S x))%nat by lia. rewrite seq_app, map_app. f_equal. cbn [plus].
      assert (G : forall m s, (x <= s)%nat -> map (fun k => existsb (Nat.eqb k) q) (seq s m) = repeat false m).
      { induction m as [|m IH]; intros s Hs; [reflexivity|]. cbn. rewrite IH by lia. f_equal.
        destruct (existsb (Nat.eqb s) q) eqn:E; [|reflexivity]. apply in_existsb in E. apply H in E. lia. }
      apply G. lia.
  Qed.
  Lemma sorted_snoc (q : list nat) x : StronglySorted lt (q ++ [x]) -> StronglySorted lt q /\ (forall y, In y q -> y < x)%nat.
  Proof.
    induction q as [|a q IH]; cbn; intro H; [split; [constructor|intros y []]|].
    apply StronglySorted_inv in H. destruct H as [S F]. destruct (IH S) as [S' B]. rewrite Forall_forall in F. split.
    - constructor; [exact S'|]. apply Forall_forall. intros y Hy. apply F. apply in_app_iff. now left.
    - intros y [<- | Hy]; [|auto]. apply F. apply in_app_iff. right. now left.
  Qed.
  Lemma reduce_kept q : forall b, StronglySorted lt q -> (forall x, In x q -> x < length b)%nat -> reduce_str b q = kept (mask_of q (length b)) b.
  Proof.
    induction q as [|x q IH] using rev_ind; intros b SS H.
    - change (reduce_str b []) with b. symmetry. transitivity (kept (repeat false (length b)) b); [|now apply kept_false]. f_equal. unfold mask_of. clear.
      generalize 0%nat. induction (length b) as [|m IHm]; intro s; [reflexivity|]. cbn [seq map repeat existsb]. f_equal. apply IHm.
    - apply sorted_snoc in SS. destruct SS as [SS B]. assert (Hx : (x < length b)%nat) by (apply H, in_app_iff; right; now left).
      unfold reduce_str. rewrite rev_app_distr. cbn [rev app fold_left]. fold (reduce_str (drop_digit b x) q).
      assert (L : length (drop_digit b x) = (length b - 1)%nat) by (unfold drop_digit; rewrite app_length, firstn_length, skipn_length; lia).
      rewrite IH; [|exact SS|intros y Hy; specialize (B y Hy); lia]. rewrite L.
      destruct (mask_split q x (length b) Hx B) as [E1 E2]. rewrite E1, E2.
      assert (Q : skipn x b = nth x b false :: skipn (S x) b).
      { clear -Hx. revert b Hx. induction x as [|x IH]; intros [|a b] H; cbn in H; try lia; [reflexivity|]. cbn [skipn nth]. rewrite IH by lia. reflexivity. }
      transitivity (kept (mask_of q x ++ true :: repeat false (length b - S x)) (firstn x b ++ nth x b false :: skipn (S x) b)).
      2:{ rewrite <- Q, firstn_skipn. reflexivity. }
      unfold drop_digit. rewrite !kept_app by (rewrite mask_length, firstn_length; lia). reflexivity.
  Qed.
  Lemma use_all q i j : use_pair q i j = forallb (fun k => Bool.eqb (bit i k) (bit j k)) q.
  Proof.
    unfold use_pair. assert (G : forall u, fold_left (fun use k => if Bool.eqb (bit i k) (bit j k) then use else false) q u = u && forallb (fun k => Bool.eqb (bit i k) (bit j k)) q).
    { induction q as [|k q IH]; intro u; cbn [fold_left forallb]; [now rewrite andb_true_r|]. rewrite IH. destruct (Bool.eqb (bit i k) (bit j k)), u; reflexivity. }
    now rewrite G.
  Qed.
  Lemma weave_eq_iff mask : forall k k' t t', length k = n_kept mask -> length k' = n_kept mask -> length t = n_traced mask -> length t' = n_traced mask ->
    (forall q, nth q mask false = true -> nth q (weave mask k t) false = nth q (weave mask k' t') false) <-> t = t'.
  Proof.
    induction mask as [|[] m IH]; intros k k' t t' Hk Hk' Ht Ht'; unfold n_kept, n_traced in *; cbn in *.
    - destruct t, t'; try discriminate. split; [reflexivity|intros _ [|q]; discriminate].
    - destruct t as [|x t], t' as [|y t']; try discriminate. injection Ht as Ht. injection Ht' as Ht'. specialize (IH k k' t t' Hk Hk' Ht Ht'). split.
      + intro H. f_equal; [exact (H 0%nat eq_refl)|]. apply IH. intros q Hq. exact (H (S q) Hq).
      + intro E. injection E as -> ->. intros [|q] Hq; [reflexivity|]. apply (proj2 IH eq_refl). exact Hq.
    - destruct k as [|x k], k' as [|y k']; try discriminate. injection Hk as Hk. injection Hk' as Hk'. specialize (IH k k' t t' Hk Hk' Ht Ht'). split.
      + intro H. apply IH. intros q Hq. exact (H (S q) Hq).
      + intros -> [|q] Hq; [discriminate|]. apply (proj2 IH eq_refl). exact Hq.
  Qed.
  Lemma nth_mask q qb n : (q < n)%nat -> nth q (mask_of qb n) false = existsb (Nat.eqb q) qb.
  Proof.
    intro H. unfold mask_of. rewrite (nth_indep _ false (existsb (Nat.eqb 0%nat) qb)) by (rewrite map_length, seq_length; exact H).
    rewrite (map_nth (fun q => existsb (Nat.eqb q) qb)), seq_nth by exact H. reflexivity.
  Qed.
  Lemma use_weave qb n k k' t t' : (forall q, In q qb -> q < n)%nat ->
    length k = n_kept (mask_of qb n) -> length k' = n_kept (mask_of qb n) -> length t = n_traced (mask_of qb n) -> length t' = n_traced (mask_of qb n) ->
    use_pair qb (weave (mask_of qb n) k t) (weave (mask_of qb n) k' t') = bits_eqb t t'.
  Proof.
    intros H Hk Hk' Ht Ht'. apply bool_iff. rewrite use_all, forallb_forall, bits_eqb_spec.
    rewrite <- (weave_eq_iff (mask_of qb n) k k' t t' Hk Hk' Ht Ht'). split.
    - intros F q Hq. destruct (Nat.lt_ge_cases q n) as [L | L].
      + rewrite nth_mask in Hq by exact L. apply in_existsb in Hq. specialize (F q Hq). now apply eqb_prop in F.
      + rewrite nth_overflow in Hq by (rewrite mask_length; exact L). discriminate.
    - intros F q Hq. unfold bit. rewrite F; [apply eqb_reflx|]. rewrite nth_mask by auto. now apply in_existsb.
  Qed.
  Lemma fold_cond_sum {A} (l : list A) (p : A -> bool) (f : A -> K) acc :
    fold_left (fun acc x => if p x then acc + f x else acc) l acc = acc + fold_right cadd 0 (map (fun x => if p x then f x else 0) l).
  Proof. revert acc. induction l as [|x l IH]; intro acc; cbn; [ring|]. rewrite IH. destruct (p x); ring. Qed.
  Lemma sum_all_bits n (f : bits -> K) : fold_right cadd 0 (map f (all_bits n)) = sumbits n f.
  Proof.
    assert (A : forall l m : list K, fold_right cadd 0 (l ++ m) = fold_right cadd 0 l + fold_right cadd 0 m).
    { induction l as [|x l IH]; intro m; cbn; [ring|]. rewrite IH. ring. }
    revert f. induction n as [|n IH]; intro f; cbn [all_bits map sumbits]; [cbn; ring|]. unfold bits in *. rewrite map_app, !map_map, A, !IH. reflexivity.
  Qed.
  Lemma dm_sum n qubits (M : mat K) r c :
    dm_trace n qubits M r c = sumbits n (fun i => sumbits n (fun j =>
      if use_pair qubits i j && bits_eqb (reduce_str i qubits) r && bits_eqb (reduce_str j qubits) c then M i j else 0)).
  Proof.
    unfold dm_trace.
    assert (G : forall l acc, fold_left (fun acc i => fold_left (fun acc j =>
        if use_pair qubits i j && bits_eqb (reduce_str i qubits) r && bits_eqb (reduce_str j qubits) c then acc + M i j else acc) (all_bits n) acc) l acc
      = acc + fold_right cadd 0 (map (fun i => sumbits n (fun j =>
      if use_pair qubits i j && bits_eqb (reduce_str i qubits) r && bits_eqb (reduce_str j qubits) c then M i j else 0)) l)).
    { induction l as [|i l IH]; intro acc; cbn [fold_left map fold_right]; [ring|]. rewrite IH, fold_cond_sum, sum_all_bits. ring. }
    rewrite G, sum_all_bits. ring.
  Qed.
  Lemma dm_trace_spec n qubits (M : mat K) r c : StronglySorted lt qubits -> (forall q, In q qubits -> q < n)%nat ->
    length r = (n - length qubits)%nat -> length c = (n - length qubits)%nat ->
    dm_trace n qubits M r c = ptrace (mask_of qubits n) M r c.
  Proof.
    intros S H Hr Hc.
    assert (ND : NoDup qubits).
    { clear -S. induction S as [|x l S IH F]; constructor; [|exact IH]. intro X. rewrite Forall_forall in F. apply F in X. lia. }
    destruct (mask_counts qubits n ND H) as [T Q]. rewrite dm_sum. set (mask := mask_of qubits n) in *.
    assert (LM : length mask = n) by apply mask_length.
    assert (W : forall f : bits -> K, sumbits n f = sumbits (n_kept mask) (fun k => sumbits (n_traced mask) (fun t => f (weave mask k t)))).
    { intro f. rewrite <- LM at 1. apply sumbits_weave. }
    assert (R : forall k t, length k = n_kept mask -> length t = n_traced mask -> reduce_str (weave mask k t) qubits = k).
    { intros k t Hk Ht. assert (L : length (weave mask k t) = n) by (rewrite weave_length; auto).
      rewrite reduce_kept; [|exact S|intros x Hx; rewrite L; auto]. rewrite L. now apply kept_weave. }
    rewrite W.
    rewrite (sumbits_ext K _ _ (fun k => if bits_eqb k r then sumbits (n_traced mask) (fun t => M (weave mask r t) (weave mask c t)) else 0)).
    { rewrite sum_pick1 by lia. reflexivity. }
    intros k Hk.
    destruct (bits_eqb k r) eqn:E.
    2:{ rewrite (sumbits_ext K _ _ (fun _ => 0)); [apply sumbits_0|]. intros t Ht. rewrite (sumbits_ext K _ _ (fun _ => 0)); [apply sumbits_0|].
        intros j _. rewrite (R k t Hk Ht), E, andb_false_r. reflexivity. }
    apply bits_eqb_spec in E. subst k. apply sumbits_ext. intros t Ht. rewrite W.
    rewrite (sumbits_ext K _ _ (fun k' => if bits_eqb k' c then M (weave mask r t) (weave mask c t) else 0)).
    { apply (sum_pick1 K _ c (fun _ => M (weave mask r t) (weave mask c t))). lia. }
    intros k' Hk'.
    rewrite (sumbits_ext K _ _ (fun t' => if bits_eqb t' t then (if bits_eqb k' c then M (weave mask r t) (weave mask k' t') else 0) else 0)).
    - rewrite sum_pick1 by exact Ht. destruct (bits_eqb k' c) eqn:E; [|reflexivity]. apply bits_eqb_spec in E. rewrite E. reflexivity.
    - intros t' Ht'. pose proof (use_weave qubits n r k' t t' H Hk Hk' Ht Ht') as U. fold mask in U. rewrite U. rewrite (R r t Hk Ht), (R k' t' Hk' Ht'), bits_eqb_refl, andb_true_r.
      rewrite (bits_eqb_sym t t'). destruct (bits_eqb t' t), (bits_eqb k' c); reflexivity.
  Qed.
End Traces.
