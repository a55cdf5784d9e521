(** Ordering of small simplices, discarded points, line searches, descent, swarm, driver. *)
From Coq Require Import Bool List Arith QArith Qabs Lia Permutation.
From Verif Require Import OptModel OptSpec OptProofs.
Import ListNotations.
Local Open Scope nat_scope.

(** ** Ordering depends only on comparisons *)
Section Rank.
  Variables O P : Ord.
  Variables (sf : list O) (sp : list P) (d : O) (e : P).
  Hypothesis Hlen : length sf = length sp.
  Hypothesis Hcmp : forall a b, a < length sf -> b < length sf ->
    oltb (nth a sf d) (nth b sf d) = oltb (nth a sp e) (nth b sp e).

  Lemma order_scan_rank : forall ind i js k m,
    (forall j, In j ind -> j < length sf) -> length ind = length sf -> (forall j, In j js -> j < length sf) -> m < length sf ->
    fst (order_scan d sf ind i js (k, nth m sf d)) = fst (order_scan e sp ind i js (k, nth m sp e)).
  Proof.
    intros ind i js. induction js as [|j js IH]; intros k m Hi Hl Hj Hm; [reflexivity|]. cbn [order_scan snd].
    assert (Hjj : j < length sf) by (apply Hj; now left).
    rewrite Hcmp; [|apply Hi, nth_In; lia|exact Hm].
    destruct ((i <? j) && oltb (nth (nth j ind 0) sp e) (nth m sp e)).
    - apply IH; try assumption. intros q Hq. apply Hj. now right.
    - apply IH; try assumption. intros q Hq. apply Hj. now right.
  Qed.
  Lemma order_step_rank : forall ind i,
    (forall j, In j ind -> j < length sf) -> length ind = length sf -> i < length sf ->
    order_step d sf ind i = order_step e sp ind i.
  Proof.
    intros ind i Hi Hl Hii. unfold order_step. rewrite <- Hlen.
    rewrite (order_scan_rank ind i (seq 0 (length sf)) i (nth i ind 0)); try assumption; [reflexivity|intros j Hj; apply in_seq in Hj; lia|].
    apply Hi, nth_In. lia.
  Qed.
  Lemma order_fold_rank : forall m i ind,
    (forall j, In j ind -> j < length sf) -> length ind = length sf -> i + m <= length sf ->
    fold_left (order_step d sf) (seq i m) ind = fold_left (order_step e sp) (seq i m) ind.
  Proof.
    intros m. induction m as [|m IH]; intros i ind Hi Hl Hm; [reflexivity|]. cbn [seq fold_left].
    rewrite <- order_step_rank by (try assumption; lia).
    destruct (order_step_swapped O d sf ind i Hl ltac:(lia)) as [j [Hj E]].
    assert (Q := swapped_perm i j ind ltac:(lia) ltac:(lia)). rewrite <- E in Q.
    apply IH; [|rewrite <- (Permutation_length Q); exact Hl|lia].
    intros q Hq. apply Hi. now apply (Permutation_in q (Permutation_sym Q)).
  Qed.
End Rank.

(** Natural numbers as an order. *)
Definition NatOrd : Ord.
Proof.
  refine (MkOrd nat Nat.leb _ _).
  - intros x y z A B. apply Nat.leb_le in A, B. apply Nat.leb_le. lia.
  - intros x y. destruct (Nat.le_ge_cases x y) as [H|H]; [left|right]; now apply Nat.leb_le.
Defined.

(** Rationals as an order. *)
Definition QOrd : Ord.
Proof.
  refine (MkOrd Q Qle_bool _ _).
  - intros x y z A B. apply Qle_bool_iff in A, B. apply Qle_bool_iff. now apply Qle_trans with y.
  - intros x y. destruct (Qlt_le_dec x y) as [H|H]; [left|right]; apply Qle_bool_iff; [now apply Qlt_le_weak|exact H].
Defined.

Section Small.
  Variable O : Ord.
  Definition rank (l : list O) (v : O) : nat := length (filter (fun w => oltb w v) l).
  Lemma filter_len_le : forall A (p q : A -> bool) l, (forall x, In x l -> p x = true -> q x = true) ->
    length (filter p l) <= length (filter q l).
  Proof.
    intros A p q l. induction l as [|x l IH]; intro H; [reflexivity|]. cbn.
    assert (IH' := IH (fun y Hy => H y (or_intror Hy))).
    destruct (p x) eqn:E; [rewrite (H x (or_introl eq_refl) E)|destruct (q x)]; cbn; lia.
  Qed.
  Lemma filter_len_lt : forall A (p q : A -> bool) l a, (forall x, In x l -> p x = true -> q x = true) ->
    In a l -> p a = false -> q a = true -> length (filter p l) < length (filter q l).
  Proof.
    intros A p q l a. induction l as [|x l IH]; intros H Ha Hp Hq; [destruct Ha|]. cbn.
    assert (H' : forall y, In y l -> p y = true -> q y = true) by (intros y Hy; apply H; now right).
    destruct Ha as [->|Ha].
    - rewrite Hp, Hq. cbn. pose proof (filter_len_le A p q l H'). lia.
    - specialize (IH H' Ha Hp Hq). destruct (p x) eqn:E; [rewrite (H x (or_introl eq_refl) E)|destruct (q x)]; cbn; lia.
  Qed.
  Lemma oltb_trans_l : forall a b c : O, oltb a b = true -> oleb b c = true -> oltb a c = true.
  Proof.
    intros a b c A B. unfold oltb in *. apply negb_true_iff in A. apply negb_true_iff.
    destruct (oleb c a) eqn:E; [|reflexivity]. rewrite (oleb_trans O b c a B E) in A. discriminate.
  Qed.
  Lemma rank_cmp : forall l (a b : O), In a l -> oltb a b = (rank l a <? rank l b).
  Proof.
    intros l a b Ha. destruct (oltb a b) eqn:E; symmetry.
    - apply Nat.ltb_lt. apply filter_len_lt with a; [|exact Ha| |exact E].
      + intros x _ Hx. apply oltb_trans_l with a; [exact Hx|]. now apply oltb_leb.
      + unfold oltb. now rewrite oleb_refl.
    - apply Nat.ltb_ge. apply filter_len_le. intros x _ Hx. apply oltb_trans_l with b; [exact Hx|]. now apply oltb_false.
  Qed.
  Lemma filter_length_le : forall A (p : A -> bool) l, length (filter p l) <= length l.
  Proof. intros A p l. induction l as [|x l IH]; [reflexivity|]. cbn. destruct (p x); cbn; lia. Qed.
  Lemma rank_lt : forall l (a : O), In a l -> rank l a < length l.
  Proof.
    intros l a Ha. unfold rank. induction l as [|x l IH]; [destruct Ha|]. cbn [filter length].
    destruct Ha as [->|Ha].
    - unfold oltb at 1. rewrite oleb_refl. cbn. pose proof (filter_length_le O (fun w => oltb w a) l). lia.
    - specialize (IH Ha). destruct (oltb x a); cbn; lia.
  Qed.

  Lemma order_ind_rank : forall sf : list O, order_ind sf = order_ind (O := NatOrd) (map (rank sf) sf).
  Proof.
    intros [|d sf']; [reflexivity|]. set (sf := d :: sf').
    assert (Hl : length (map (rank sf) sf) = length sf) by apply map_length.
    transitivity (fold_left (order_step (O := NatOrd) (rank sf d) (map (rank sf) sf)) (seq 0 (length sf)) (seq 0 (length sf)));
      [|rewrite <- Hl; reflexivity].
    apply (order_fold_rank O NatOrd sf (map (rank sf) sf) d (rank sf d)).
    - now rewrite map_length.
    - intros a b Ha Hb. rewrite !map_nth. rewrite (rank_cmp sf) by (apply nth_In; exact Ha).
      unfold oltb. cbn [oleb NatOrd]. now rewrite Nat.ltb_antisym.
    - intros j Hj. apply in_seq in Hj. lia.
    - apply seq_length.
    - lia.
  Qed.
End Small.

(** Every list of at most three ranks is sorted: a finite table. *)
Fixpoint words (b n : nat) : list (list nat) :=
  match n with 0 => [[]] | S m => flat_map (fun w => map (fun x => x :: w) (seq 0 b)) (words b m) end.
Lemma words_complete : forall b l, (forall x, In x l -> x < b) -> In l (words b (length l)).
Proof.
  intros b l. induction l as [|x l IH]; intro H; cbn; [now left|].
  apply in_flat_map. exists l. split; [apply IH; intros y Hy; apply H; now right|].
  apply in_map_iff. exists x. split; [reflexivity|]. apply in_seq. specialize (H x (or_introl eq_refl)). lia.
Qed.
Fixpoint nat_sorted (l : list nat) : bool :=
  match l with [] => true | x :: t => forallb (Nat.leb x) t && nat_sorted t end.
Definition table (n : nat) : bool :=
  forallb (fun w => nat_sorted (map (fun k => nth k w 0) (order_ind (O := NatOrd) w))) (words n n).
Lemma table_le3 : forall n, n <= 3 -> table n = true.
Proof. intros n H. do 4 (destruct n as [|n]; [vm_compute; reflexivity|]). lia. Qed.

Lemma nat_sorted_nth : forall l i j a b, nat_sorted l = true -> i < j -> nth_error l i = Some a -> nth_error l j = Some b -> a <= b.
Proof.
  induction l as [|x l IH]; intros i j a b H Hij Ha Hb; [destruct i; discriminate|].
  cbn in H. apply andb_true_iff in H. destruct H as [H1 H2]. destruct j as [|j]; [lia|]. destruct i as [|i].
  - cbn in Ha, Hb. inversion Ha. subst. rewrite forallb_forall in H1. apply Nat.leb_le, H1. now apply nth_error_In with j.
  - cbn in Ha, Hb. apply (IH i j); try assumption. lia.
Qed.

Lemma order_points_sorted3 : forall (O : Ord) (s : list (point * O)), length s <= 3 -> ascending (map snd (order_points s)).
Proof.
  intros O [|p0 s'] Hs i j a b Hij Ha Hb; [destruct i; discriminate|]. unfold order_points in *. set (s := p0 :: s') in *.
  set (sf := map snd s) in *.
  assert (Hsf : length sf = length s) by apply map_length.
  pose proof (order_ind_rank O sf) as E. set (rk := map (rank O sf) sf) in *.
  assert (Hw : In rk (words (length sf) (length sf))).
  { replace (length sf) with (length rk) at 2 by apply map_length. apply words_complete.
    intros x Hx. apply in_map_iff in Hx. destruct Hx as [v [<- Hv]]. now apply rank_lt. }
  pose proof (table_le3 (length sf) ltac:(lia)) as T. unfold table in T. rewrite forallb_forall in T. specialize (T rk Hw).
  rewrite <- E in T. rewrite map_map in Ha, Hb. rewrite nth_error_map in Ha, Hb.
  destruct (nth_error (order_ind sf) i) as [ki|] eqn:Ei; [|discriminate]. unfold option_map in Ha.
  destruct (nth_error (order_ind sf) j) as [kj|] eqn:Ej; [|discriminate]. unfold option_map in Hb.
  destruct (order_ind_spec O sf (snd p0)) as [P _]; [discriminate|].
  assert (Hki : ki < length sf) by (apply nth_error_In in Ei; apply (Permutation_in _ (Permutation_sym P)) in Ei; apply in_seq in Ei; lia).
  assert (Hkj : kj < length sf) by (apply nth_error_In in Ej; apply (Permutation_in _ (Permutation_sym P)) in Ej; apply in_seq in Ej; lia).
  rewrite <- (map_nth snd) in Ha, Hb. fold sf in Ha, Hb. assert (Ha' : nth ki sf (snd p0) = a) by congruence. assert (Hb' : nth kj sf (snd p0) = b) by congruence.
  rewrite <- Ha', <- Hb'. clear Ha Hb Ha' Hb'.
  assert (R : nth ki rk 0 <= nth kj rk 0).
  { apply (nat_sorted_nth _ i j _ _ T Hij); rewrite nth_error_map; [now rewrite Ei|now rewrite Ej]. }
  unfold rk in R.
  rewrite (nth_indep _ 0 (rank O sf (snd p0))) in R by (now rewrite map_length).
  rewrite (nth_indep _ 0 (rank O sf (snd p0)) (n := kj)) in R by (now rewrite map_length).
  rewrite !map_nth in R. apply oltb_false. rewrite (rank_cmp O sf) by (apply nth_In; exact Hkj). apply Nat.ltb_ge. exact R.
Qed.

(** ** What a Nelder-Mead step may discard *)
Section Discard.
  Variable O : Ord.
  Variable f : point -> O.
  Variables alpha beta gamma delta : Q.

  Lemma reflect_log : forall u st, let '(st', r) := reflect f alpha u st in log st' = log st ++ [fst r].
  Proof.
    intros u st. unfold reflect. destruct (stuck st) as [[s0 s1] s2].
    destruct (stuck_ind st) as [|[|k]]; reflexivity.
  Qed.
  Lemma shrink_rows_log : forall b rows st, let '(st', s) := shrink_rows f delta b rows st in
    log st' = log st ++ map fst s.
  Proof.
    intros b rows. induction rows as [|[x v] rows IH]; intro st; cbn [shrink_rows]; [cbn; now rewrite app_nil_r|].
    cbn [evaluate]. set (st1 := MkNM _ _ _ _ _ _ _ _ _). specialize (IH st1).
    destruct (shrink_rows f delta b rows st1) as [st2 s]. rewrite IH. cbn [st1 log map fst]. now rewrite <- app_assoc.
  Qed.
  Lemma clean_up_in : forall N b st st' p, N <> 0 -> ready O f N b st -> clean_up N st = Some st' -> In p (simp st) ->
    oleb (snd (best st')) (snd p) = true.
  Proof.
    intros N b st st' p HN R E Hp. destruct (clean_up_good O f N b st HN R) as [s2 [E2 [G [_ [_ [_ S]]]]]].
    rewrite E in E2. inversion E2. subst s2. apply (g_min _ _ _ _ G). rewrite S. now apply (Permutation_in p (order_points_perm O (simp st))).
  Qed.
  Lemma clean_up_log : forall N b st st', N <> 0 -> ready O f N b st -> clean_up N st = Some st' -> log st' = log st.
  Proof.
    intros N b st st' HN R E. destruct (clean_up_good O f N b st HN R) as [s2 [E2 [G [_ [L _]]]]]. congruence.
  Qed.

  Lemma nm_step_discard : forall N u st st', N <> 0 -> good O f N st ->
    nm_step f alpha beta gamma delta N u st = Some st' ->
    exists new, log st' = log st ++ new /\ forall x, In x new ->
      oleb (snd (best st')) (f x) = true \/
      (exists e, new = [x; e] /\ oltb (f e) (snd (best st)) = true /\ oleb (f x) (snd (best st)) = true).
  Proof.
    intros N u st st' HN G. unfold nm_step.
    pose proof (reflect_spec O f alpha u st) as HR. pose proof (reflect_log u st) as HL.
    destruct (reflect f alpha u st) as [st1 r]. destruct HR as [S1 R1].
    assert (HW : oleb (snd (best st)) (snd (worst st)) = true).
    { apply (g_min _ _ _ _ G). apply nth_error_In with N. apply (g_worst _ _ _ _ G). }
    assert (HX : oleb (snd (best st)) (snd (second st)) = true).
    { apply (g_min _ _ _ _ G). apply nth_error_In with (N - 1). apply (g_second _ _ _ _ G). }
    assert (Hup : forall p st2, on_graph f p -> same_simplex O st st2 -> forall stx, clean_up N (update_last p st2) = Some stx ->
       oleb (snd (best stx)) (f (fst p)) = true /\ log stx = log st2 /\ oleb (snd (best stx)) (snd (best st)) = true).
    { intros p st2 Hp S2 stx E. pose proof (good_ready_update O f N st st2 p HN G S2 Hp) as R.
      split; [|split].
      - rewrite <- Hp. apply (clean_up_in N _ _ _ p HN R E). cbn [update_last simp]. apply put_last_new.
        rewrite (ss_simp _ _ _ S2). intro Z. pose proof (g_len _ _ _ _ G) as L. rewrite Z in L. discriminate L.
      - exact (clean_up_log N _ _ _ HN R E).
      - destruct (clean_up_good O f N _ _ HN R) as [s2 [E2 [_ [L _]]]]. rewrite E in E2. inversion E2. now subst. }
    destruct (oleb (snd r) (snd (second st1))) eqn:C1.
    - destruct (oltb (snd (best st1)) (snd r)) eqn:C2; intro E.
      + destruct (Hup r st1 R1 S1 st' E) as [A [B _]]. exists [fst r]. split; [now rewrite B, HL|].
        intros x [<-|[]]. now left.
      + pose proof (extend_spec O f beta r st1) as HE.
        assert (HL2 : log (fst (extend f beta r st1)) = log st1 ++ [fst (snd (extend f beta r st1))]) by reflexivity.
        destruct (extend f beta r st1) as [st1' e]. destruct HE as [S2 E2]. cbn [fst snd] in HL2.
        assert (S3 := ss_trans _ _ _ _ S1 S2). exists [fst r; fst e].
        apply oltb_false in C2. rewrite (ss_best _ _ _ S1) in C2.
        destruct (oltb (snd e) (snd (best st1'))) eqn:C3.
        * destruct (Hup e st1' E2 S3 st' E) as [A [B _]]. split; [rewrite B, HL2, HL, <- app_assoc; reflexivity|].
          intros x [<-|[<-|[]]]; [right|now left]. exists (fst e). split; [reflexivity|].
          rewrite <- E2, <- (ss_best _ _ _ S3), <- R1. rewrite (ss_best _ _ _ S3). split; [|exact C2].
          rewrite <- (ss_best _ _ _ S3). exact C3.
        * destruct (Hup r st1' R1 S3 st' E) as [A [B D]]. split; [rewrite B, HL2, HL, <- app_assoc; reflexivity|].
          intros x [<-|[<-|[]]]; left; [exact A|]. apply oltb_false in C3. rewrite (ss_best _ _ _ S3) in C3.
          rewrite <- E2. now apply oleb_trans with (snd (best st)).
    - pose proof (contract_spec O f gamma r st1) as HE. unfold contract in *. cbn [evaluate] in *. set (st1' := MkNM _ _ _ _ _ _ _ _ _) in *.
      set (xw := vadd (fst (worst st1)) _) in *. set (xr := vadd (centroid st1) _) in *.
      assert (HL2 : log st1' = log st ++ [fst r; xw; xr]) by (cbn [st1' log]; rewrite HL, <- !app_assoc; reflexivity).
      set (e := if oleb (f xr) (f xw) then (xr, f xr) else (xw, f xw)) in *. destruct HE as [S2 E2].
      assert (S3 := ss_trans _ _ _ _ S1 S2).
      assert (C1' : oltb (snd (second st1)) (snd r) = true) by (unfold oltb; now rewrite C1).
      apply oltb_leb in C1'. rewrite (ss_second _ _ _ S1) in C1'.
      assert (Ee : oleb (snd e) (f xr) = true /\ oleb (snd e) (f xw) = true).
      { unfold e. destruct (oleb (f xr) (f xw)) eqn:Z; cbn [snd]; split; try apply oleb_refl; try exact Z.
        apply oltb_leb. unfold oltb. now rewrite Z. }
      destruct Ee as [Er Ew].
      assert (HH : forall stx new2, oleb (snd (best stx)) (snd (best st)) = true -> oleb (snd (best stx)) (snd e) = true ->
        log stx = log st1' ++ new2 -> (forall x, In x new2 -> oleb (snd (best stx)) (f x) = true) ->
        exists new, log stx = log st ++ new /\ forall x, In x new -> oleb (snd (best stx)) (f x) = true \/
          (exists e0, new = [x; e0] /\ oltb (f e0) (snd (best st)) = true /\ oleb (f x) (snd (best st)) = true)).
      { intros stx new2 B1 B2 B3 B4. exists ([fst r; xw; xr] ++ new2). split; [now rewrite B3, HL2, app_assoc|].
        intros x Hx. left. apply in_app_or in Hx. destruct Hx as [[<-|[<-|[<-|[]]]]|Hx]; [|..|now apply B4].
        - rewrite <- R1. apply oleb_trans with (snd (best st)); [exact B1|]. now apply oleb_trans with (snd (second st)).
        - now apply oleb_trans with (snd e).
        - now apply oleb_trans with (snd e). }
      destruct (oltb (snd e) (snd (worst st1'))) eqn:C3; intro E.
      + destruct (Hup e st1' E2 S3 st' E) as [A [B D]]. rewrite <- E2 in A.
        apply (HH st' []); [exact D|exact A|now rewrite app_nil_r|intros x []].
      + pose proof (good_ready_shrink O f delta N st st1' G S3) as R.
        apply oltb_false in C3. rewrite (ss_worst _ _ _ S3) in C3.
        assert (D : oleb (snd (best st')) (snd (best st)) = true).
        { destruct (clean_up_good O f N _ _ HN R) as [s2 [E3 [_ [L _]]]]. rewrite E in E3. inversion E3. now subst. }
        pose proof (clean_up_log N _ _ _ HN R E) as L.
        assert (Hin := fun p => clean_up_in N _ _ st' p HN R E). clear E R.
        unfold shrink in *. assert (Hs := ss_simp _ _ _ S3).
        destruct (simp st1') as [|r0 rows] eqn:Es.
        { pose proof (g_len _ _ _ _ G) as L2. rewrite <- Hs in L2. discriminate L2. }
        pose proof (shrink_rows_log (fst (best st1')) rows st1') as HL3.
        pose proof (shrink_rows_spec O f delta (fst (best st1')) rows st1') as HS3.
        destruct (shrink_rows f delta (fst (best st1')) rows st1') as [st2 s]. destruct HS3 as [_ [_ HG]].
        cbn [log simp] in *. apply (HH st' (map fst s)); [exact D| |now rewrite L, HL3|].
        * apply oleb_trans with (snd (best st)); [exact D|]. now apply oleb_trans with (snd (worst st)).
        * intros x Hx. apply in_map_iff in Hx. destruct Hx as [p [<- Hp]]. rewrite <- (HG p Hp). apply Hin. now right.
  Qed.
End Discard.
