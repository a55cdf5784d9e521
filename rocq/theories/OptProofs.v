From Coq Require Import Bool List Arith QArith Lia Permutation.
From Verif Require Import OptModel OptSpec.
Import ListNotations.
Local Open Scope nat_scope.

Lemma oleb_refl : forall (O : Ord) (x : O), oleb x x = true.
Proof. intros O x. destruct (oleb_total O x x); assumption. Qed.
Lemma oltb_leb : forall (O : Ord) (x y : O), oltb x y = true -> oleb x y = true.
Proof. intros O x y H. unfold oltb in H. apply negb_true_iff in H. destruct (oleb_total O x y); congruence. Qed.
Lemma oltb_false : forall (O : Ord) (x y : O), oltb x y = false -> oleb y x = true.
Proof. intros O x y H. unfold oltb in H. now apply negb_false_iff in H. Qed.

(** ** Arrays *)
Lemma put_at_length : forall A i (x : A) l, length (put_at i x l) = length l.
Proof. intros A i x l. revert i. induction l as [|y l IH]; intros [|i]; cbn; [reflexivity..|now rewrite IH]. Qed.
Lemma nth_put_at : forall A i (x d : A) l k, i < length l ->
  nth k (put_at i x l) d = if k =? i then x else nth k l d.
Proof.
  intros A i x d l. revert i. induction l as [|y l IH]; intros i k Hi; [cbn in Hi; lia|].
  destruct i as [|i]; destruct k as [|k]; cbn; try reflexivity. cbn in Hi. apply IH. lia.
Qed.

Definition swapped (i j : nat) (l : list nat) : list nat := put_at j (nth i l 0) (put_at i (nth j l 0) l).
Lemma swapped_perm : forall i j l, i < length l -> j < length l -> Permutation l (swapped i j l).
Proof.
  intros i j l Hi Hj. apply (Permutation_nth l (swapped i j l) 0). unfold swapped.
  split; [now rewrite !put_at_length|].
  exists (fun k => if k =? j then i else if k =? i then j else k). repeat split.
  - intros k Hk. destruct (k =? j); [lia|]. destruct (k =? i); lia.
  - intros a b Ha Hb.
    destruct (Nat.eqb_spec a j); destruct (Nat.eqb_spec a i); destruct (Nat.eqb_spec b j); destruct (Nat.eqb_spec b i); lia.
  - intros k Hk. rewrite nth_put_at by (rewrite put_at_length; lia).
    destruct (Nat.eqb_spec k j); [reflexivity|]. rewrite nth_put_at by lia.
    now destruct (Nat.eqb_spec k i).
Qed.
Lemma swapped_other : forall i j l k, i < length l -> j < length l -> k <> i -> k <> j ->
  nth k (swapped i j l) 0 = nth k l 0.
Proof.
  intros i j l k Hi Hj H1 H2. unfold swapped. rewrite nth_put_at by (rewrite put_at_length; lia).
  apply Nat.eqb_neq in H1, H2. rewrite H2, nth_put_at by lia. now rewrite H1.
Qed.
Lemma swapped_first : forall i j l, i < length l -> j < length l -> nth i (swapped i j l) 0 = nth j l 0.
Proof.
  intros i j l Hi Hj. unfold swapped. rewrite nth_put_at by (rewrite put_at_length; lia).
  destruct (Nat.eqb_spec i j) as [->|]; [reflexivity|]. rewrite nth_put_at by lia. now rewrite Nat.eqb_refl.
Qed.

Section Order.
  Variable O : Ord.

  Lemma order_scan_in : forall (d : O) sf ind i js low,
    let r := order_scan d sf ind i js low in fst r = fst low \/ (In (fst r) js /\ i < fst r).
  Proof.
    intros d sf ind i js. induction js as [|j js IH]; intros low; cbn zeta; cbn [order_scan]; [now left|].
    destruct ((i <? j) && oltb (nth (nth j ind 0) sf d) (snd low)) eqn:E.
    - apply andb_true_iff in E. destruct E as [E _]. apply Nat.ltb_lt in E.
      destruct (IH (j, nth j sf d)) as [H|[H1 H2]].
      + right. rewrite H. now split; [left|].
      + right. now split; [right|].
    - destruct (IH low) as [H|[H1 H2]]; [now left|right]. now split; [right|].
  Qed.

  Lemma order_step_swapped : forall (d : O) sf ind i, length ind = length sf -> i < length sf ->
    exists j, i <= j < length sf /\ order_step d sf ind i = swapped i j ind.
  Proof.
    intros d sf ind i Hl Hi. unfold order_step.
    pose proof (order_scan_in d sf ind i (seq 0 (length sf)) (i, nth (nth i ind 0) sf d)) as H. cbn zeta in H.
    destruct (order_scan d sf ind i (seq 0 (length sf)) (i, nth (nth i ind 0) sf d)) as [k v]. cbn in *.
    exists k. split; [|reflexivity]. destruct H as [->|[H1 H2]]; [lia|]. apply in_seq in H1. lia.
  Qed.

  (** Passes from [i] on keep the earlier positions. *)
  Lemma order_fold : forall (d : O) sf m i ind, length ind = length sf -> i + m <= length sf ->
    let r := fold_left (order_step d sf) (seq i m) ind in
    Permutation ind r /\ forall k, k < i -> nth k r 0 = nth k ind 0.
  Proof.
    intros d sf m. induction m as [|m IH]; intros i ind Hl Hm; cbn; [split; [apply Permutation_refl|reflexivity]|].
    destruct (order_step_swapped d sf ind i Hl ltac:(lia)) as [j [Hj E]]. rewrite E.
    assert (P := swapped_perm i j ind ltac:(lia) ltac:(lia)).
    destruct (IH (S i) (swapped i j ind)) as [P2 H2].
    { rewrite <- (Permutation_length P). exact Hl. } { lia. }
    split; [now apply Permutation_trans with (swapped i j ind)|].
    intros k Hk. rewrite H2 by lia. apply swapped_other; lia.
  Qed.

  Lemma nth_seq0 : forall j n, j < n -> nth j (seq 0 n) 0 = j.
  Proof. intros j n H. now rewrite seq_nth. Qed.

  (** The first pass finds the minimum: it compares against the identity permutation. *)
  Lemma order_scan_id : forall (d : O) sf js low,
    (forall j, In j js -> j < length sf) -> snd low = nth (fst low) sf d ->
    let r := order_scan d sf (seq 0 (length sf)) 0 js low in
    snd r = nth (fst r) sf d /\ oleb (snd r) (snd low) = true /\ forall j, In j js -> 0 < j -> oleb (snd r) (nth j sf d) = true.
  Proof.
    intros d sf js. induction js as [|j js IH]; intros low Hj Hlow; cbn zeta.
    - cbn. split; [exact Hlow|split; [apply oleb_refl|intros k []]].
    - cbn [order_scan]. rewrite nth_seq0 by (apply Hj; now left).
      destruct ((0 <? j) && oltb (nth j sf d) (snd low)) eqn:E.
      + apply andb_true_iff in E. destruct E as [E1 E2].
        destruct (IH (j, nth j sf d)) as [A [B C]]; [intros k Hk; apply Hj; now right|reflexivity|]. cbn [snd] in B.
        split; [exact A|split].
        * eapply oleb_trans; [exact B|]. now apply oltb_leb.
        * intros k [<-|Hk] H0; [exact B|now apply C].
      + destruct (IH low) as [A [B C]]; [intros k Hk; apply Hj; now right|exact Hlow|].
        split; [exact A|split; [exact B|]].
        intros k [<-|Hk] H0; [|now apply C].
        apply andb_false_iff in E. destruct E as [E|E]; [apply Nat.ltb_ge in E; lia|].
        apply oltb_false in E. now apply oleb_trans with (snd low).
  Qed.

  Lemma order_ind_spec : forall (sf : list O) d, sf <> [] ->
    Permutation (seq 0 (length sf)) (order_ind sf) /\
    (forall w, In w sf -> oleb (nth (nth 0 (order_ind sf) 0) sf d) w = true).
  Proof.
    intros [|d0 sf'] d Hne; [congruence|]. unfold order_ind. set (sf := d0 :: sf').
    set (n := length sf). assert (Hn : n = S (length sf')) by reflexivity.
    assert (Hlen : length (seq 0 n) = n) by apply seq_length.
    destruct (order_fold d0 sf n 0 (seq 0 n) Hlen ltac:(lia)) as [P _]. split; [exact P|].
    intros w Hw.
    change (fold_left (order_step d0 sf) (seq 0 n) (seq 0 n))
      with (fold_left (order_step d0 sf) (seq 1 (length sf')) (order_step d0 sf (seq 0 n) 0)).
    assert (E : order_step d0 sf (seq 0 n) 0 =
      swapped 0 (fst (order_scan d0 sf (seq 0 n) 0 (seq 0 n) (0, nth (nth 0 (seq 0 n) 0) sf d0))) (seq 0 n)) by reflexivity.
    rewrite nth_seq0 in E by lia.
    destruct (order_scan_id d0 sf (seq 0 n) (0, nth 0 sf d0)) as [A [B C]].
    { intros j Hj. apply in_seq in Hj. fold n. lia. } { reflexivity. }
    pose proof (order_scan_in d0 sf (seq 0 n) 0 (seq 0 n) (0, nth 0 sf d0)) as I. cbn zeta in I.
    fold n in A, B, C. set (r := order_scan d0 sf (seq 0 n) 0 (seq 0 n) (0, nth 0 sf d0)) in *.
    assert (Hr : fst r < n). { destruct I as [I|[I _]]; [rewrite I; cbn; lia|apply in_seq in I; lia]. }
    assert (Ps := swapped_perm 0 (fst r) (seq 0 n) ltac:(lia) ltac:(lia)).
    destruct (order_fold d0 sf (length sf') 1 (swapped 0 (fst r) (seq 0 n))) as [P2 H2].
    { rewrite <- (Permutation_length Ps). exact Hlen. } { fold n. lia. }
    rewrite E, H2 by lia. rewrite swapped_first by lia. rewrite nth_seq0 by exact Hr.
    rewrite (nth_indep sf d d0) by (fold n; lia). rewrite <- A.
    destruct (In_nth sf w d0 Hw) as [k [Hk Ek]]. fold n in Hk. destruct k as [|k].
    - cbn [snd] in B. rewrite <- Ek. exact B.
    - rewrite <- Ek. apply C; [apply in_seq; lia|lia].
  Qed.

  Lemma map_nth_seq : forall A (l : list A) d, map (fun k => nth k l d) (seq 0 (length l)) = l.
  Proof.
    intros A l d. induction l as [|x l IH]; [reflexivity|]. cbn [length seq map nth]. f_equal.
    rewrite <- seq_shift, map_map. exact IH.
  Qed.

  Lemma order_points_perm : forall s : list (point * O), Permutation s (order_points s).
  Proof.
    intros [|d s']; [apply perm_nil|]. unfold order_points. set (s := d :: s').
    destruct (order_ind_spec (map snd s) (snd d)) as [P _]; [discriminate|]. rewrite map_length in P.
    rewrite <- (map_nth_seq _ s d) at 1. now apply Permutation_map.
  Qed.
  Lemma order_points_head : forall (s : list (point * O)) b, nth_error (order_points s) 0 = Some b ->
    forall p, In p s -> oleb (snd b) (snd p) = true.
  Proof.
    intros [|d s'] b Hb p Hp; [inversion Hp|]. unfold order_points in Hb. set (s := d :: s') in *.
    destruct (order_ind_spec (map snd s) (snd d)) as [P H]; [discriminate|].
    rewrite map_length in P. destruct (order_ind (map snd s)) as [|k l] eqn:E.
    - apply Permutation_sym, Permutation_nil in P. discriminate P.
    - cbn in Hb. inversion Hb. cbn [nth] in H. rewrite map_nth in H. apply H. now apply in_map.
  Qed.
  Lemma order_points_length : forall s : list (point * O), length (order_points s) = length s.
  Proof. intro s. symmetry. apply Permutation_length, order_points_perm. Qed.
End Order.

(** ** Nelder-Mead *)
Section NM.
  Variable O : Ord.
  Variable f : point -> O.

  (** All recorded pairs are on the graph, the counter counts the calls. *)
  Record good (N : nat) (st : nm O) : Prop := {
    g_len : length (simp st) = S N;
    g_simp : forall p, In p (simp st) -> on_graph f p;
    g_best : nth_error (simp st) 0 = Some (best st);
    g_worst : nth_error (simp st) N = Some (worst st);
    g_second : nth_error (simp st) (N - 1) = Some (second st);
    g_min : forall p, In p (simp st) -> oleb (snd (best st)) (snd p) = true;
    g_calls : calls st = length (log st)
  }.
  (** Before [clean_up]: the simplex contains a pair at least as good as [b]. *)
  Record ready (N : nat) (b : O) (st : nm O) : Prop := {
    r_len : length (simp st) = S N;
    r_simp : forall p, In p (simp st) -> on_graph f p;
    r_best : exists p, In p (simp st) /\ oleb (snd p) b = true;
    r_calls : calls st = length (log st)
  }.

  Lemma clean_up_good : forall N b st, N <> 0 -> ready N b st ->
    exists st', clean_up N st = Some st' /\ good N st' /\ oleb (snd (best st')) b = true /\
                log st' = log st /\ calls st' = calls st /\ simp st' = order_points (simp st).
  Proof.
    intros N b st HN [L G B C]. unfold clean_up.
    assert (L' : length (order_points (simp st)) = S N) by now rewrite order_points_length.
    destruct N as [|N]; [congruence|]. unfold calc_centroid.
    destruct (nth_error (order_points (simp st)) (S N)) as [w|] eqn:Ew; [|apply nth_error_None in Ew; lia].
    destruct (nth_error (order_points (simp st)) 0) as [b0|] eqn:Eb; [|apply nth_error_None in Eb; lia].
    destruct (nth_error (order_points (simp st)) (S N - 1)) as [x|] eqn:Ex; [|apply nth_error_None in Ex; lia].
    eexists. split; [reflexivity|]. cbn [best log calls simp].
    assert (Hmin := order_points_head O (simp st) b0 Eb).
    assert (HP := order_points_perm O (simp st)).
    split; [constructor; cbn [simp best worst second calls log]; try assumption|].
    - intros p Hp. apply G. now apply (Permutation_in p (Permutation_sym HP)).
    - intros p Hp. apply Hmin. now apply (Permutation_in p (Permutation_sym HP)).
    - split; [|now repeat split]. destruct B as [p [Hp Hb]]. eapply oleb_trans; [apply Hmin; exact Hp|exact Hb].
  Qed.

  Lemma put_last_in : forall A (x p : A) l, In p (put_at (length l - 1) x l) -> p = x \/ In p l.
  Proof.
    intros A x p l. generalize (length l - 1) as i. induction l as [|y l IH]; intros i H; [destruct i; destruct H|]; cbn in H.
    destruct i as [|i].
    - destruct H as [H|H]; [now left|right; now right].
    - destruct H as [H|H]; [right; now left|]. destruct (IH i H) as [E|E]; [now left|right; now right].
  Qed.
  Lemma put_last_new : forall A (x : A) l, l <> [] -> In x (put_at (length l - 1) x l).
  Proof.
    intros A x l. assert (H : forall i, i < length l -> In x (put_at i x l)).
    { induction l as [|y l IH]; intros [|i] Hi; cbn in *; try lia; [now left|right; apply IH; lia]. }
    intro Hne. apply H. destruct l; [congruence|cbn; lia].
  Qed.

  (** Replacing the last row keeps the first one when there are at least two. *)
  Lemma update_ready : forall N p (st : nm O), N <> 0 ->
    length (simp st) = S N -> (forall q, In q (simp st) -> on_graph f q) -> nth_error (simp st) 0 = Some (best st) ->
    calls st = length (log st) -> on_graph f p ->
    ready N (snd (best st)) (update_last p st) /\ In p (simp (update_last p st)).
  Proof.
    intros N p st HN L G B C Hp. split.
    - constructor; cbn [update_last simp calls log].
      + now rewrite put_at_length.
      + intros q Hq. destruct (put_last_in _ _ _ _ Hq) as [->|H]; [exact Hp|now apply G].
      + exists (best st). split; [|apply oleb_refl].
        destruct (simp st) as [|a [|c l]] eqn:E; cbn in L; [discriminate|lia|].
        cbn in B. inversion B. cbn. now left.
      + exact C.
    - cbn [update_last simp]. apply put_last_new. intro E. rewrite E in L. discriminate L.
  Qed.

  Lemma evaluate_spec : forall (st : nm O) x, evaluate f st x =
    (MkNM (simp st) (worst st) (best st) (second st) (centroid st) (stuck st) (stuck_ind st) (S (calls st)) (log st ++ [x]), f x).
  Proof. reflexivity. Qed.

  (** What evaluation steps may change. *)
  Record same_simplex (st st' : nm O) : Prop := {
    ss_simp : simp st' = simp st;
    ss_best : best st' = best st;
    ss_worst : worst st' = worst st;
    ss_second : second st' = second st;
    ss_cent : centroid st' = centroid st;
    ss_calls : calls st = length (log st) -> calls st' = length (log st')
  }.
  Lemma ss_refl : forall st, same_simplex st st.
  Proof. intro st. constructor; auto. Qed.
  Lemma ss_trans : forall a b c, same_simplex a b -> same_simplex b c -> same_simplex a c.
  Proof. intros a b c [] []. constructor; try congruence; auto. Qed.
  Lemma ss_eval : forall st x, same_simplex st (fst (evaluate f st x)).
  Proof. intros st x. constructor; cbn; try reflexivity. intro H. rewrite app_length. cbn. lia. Qed.

  Variables alpha beta gamma delta : Q.

  Lemma reflect_spec : forall u st, let '(st', r) := reflect f alpha u st in same_simplex st st' /\ on_graph f r.
  Proof.
    intros u st. unfold reflect. destruct (stuck st) as [[s0 s1] s2].
    destruct (stuck_ind st) as [|[|k]]; cbn [fst snd evaluate]; (split; [|reflexivity]);
      constructor; cbn; try reflexivity; intro H; rewrite app_length; cbn; lia.
  Qed.
  Lemma extend_spec : forall r st, let '(st', e) := extend f beta r st in same_simplex st st' /\ on_graph f e.
  Proof. intros r st. cbn. split; [apply ss_eval|reflexivity]. Qed.
  Lemma contract_spec : forall r st, let '(st', e) := contract f gamma r st in same_simplex st st' /\ on_graph f e.
  Proof.
    intros r st. unfold contract. cbn [evaluate]. split.
    - eapply ss_trans; apply ss_eval.
    - now destruct (oleb _ _).
  Qed.
  Lemma contract_to_spec : forall s r st, let '(st', e) := contract_to f gamma s r st in same_simplex st st' /\ on_graph f e.
  Proof. intros s r st. cbn. split; [apply ss_eval|reflexivity]. Qed.

  Lemma shrink_rows_spec : forall b rows st, let '(st', s) := shrink_rows f delta b rows st in
    same_simplex st st' /\ length s = length rows /\ forall p, In p s -> on_graph f p.
  Proof.
    intros b rows. induction rows as [|[x v] rows IH]; intro st; cbn [shrink_rows].
    - split; [apply ss_refl|split; [reflexivity|intros p []]].
    - cbn [evaluate]. set (st1 := MkNM _ _ _ _ _ _ _ _ _). specialize (IH st1).
      destruct (shrink_rows f delta b rows st1) as [st2 s]. destruct IH as [A [B C]].
      split; [|split; [cbn; now rewrite B|]].
      + apply ss_trans with st1; [|exact A]. exact (ss_eval st _).
      + intros p [<-|Hp]; [reflexivity|now apply C].
  Qed.

  Lemma good_ready_update : forall N st0 st p, N <> 0 -> good N st0 -> same_simplex st0 st -> on_graph f p ->
    ready N (snd (best st0)) (update_last p st).
  Proof.
    intros N st0 st p HN G S Hp. rewrite <- (ss_best _ _ S).
    apply update_ready; try assumption.
    - rewrite (ss_simp _ _ S). apply (g_len _ _ G).
    - rewrite (ss_simp _ _ S). apply (g_simp _ _ G).
    - rewrite (ss_simp _ _ S), (ss_best _ _ S). apply (g_best _ _ G).
    - apply (ss_calls _ _ S), (g_calls _ _ G).
  Qed.
  Lemma good_ready_shrink : forall N st0 st, good N st0 -> same_simplex st0 st ->
    ready N (snd (best st0)) (shrink f delta st).
  Proof.
    intros N st0 st G S. assert (Hs := ss_simp _ _ S). unfold shrink.
    destruct (simp st) as [|r0 rows] eqn:E.
    - pose proof (g_len _ _ G) as L. rewrite <- Hs in L. discriminate L.
    - pose proof (shrink_rows_spec (fst (best st)) rows st) as H.
      destruct (shrink_rows f delta (fst (best st)) rows st) as [st' s]. destruct H as [A [B C]].
      pose proof (g_len _ _ G) as L. rewrite <- Hs in L. cbn in L.
      pose proof (g_best _ _ G) as Hb. rewrite <- Hs in Hb. cbn in Hb. inversion Hb as [Hb'].
      constructor; cbn [simp calls log].
      + cbn. rewrite B. exact L.
      + intros p [<-|Hp]; [apply (g_simp _ _ G); rewrite <- Hs; now left|now apply C].
      + exists r0. split; [now left|]. rewrite Hb'. apply oleb_refl.
      + apply (ss_calls _ _ A), (ss_calls _ _ S), (g_calls _ _ G).
  Qed.

  Lemma nm_step_good : forall N u st, N <> 0 -> good N st ->
    exists st', nm_step f alpha beta gamma delta N u st = Some st' /\ good N st' /\
                oleb (snd (best st')) (snd (best st)) = true.
  Proof.
    intros N u st HN G. unfold nm_step.
    pose proof (reflect_spec u st) as HR. destruct (reflect f alpha u st) as [st1 r]. destruct HR as [S1 R1].
    assert (H : forall st2, ready N (snd (best st)) st2 -> exists st', clean_up N st2 = Some st' /\ good N st' /\
                oleb (snd (best st')) (snd (best st)) = true).
    { intros st2 H. destruct (clean_up_good N _ st2 HN H) as [st' [E [G' [L _]]]]. now exists st'. }
    apply H. destruct (oleb (snd r) (snd (second st1))).
    - destruct (oltb (snd (best st1)) (snd r)); [now apply good_ready_update|].
      pose proof (extend_spec r st1) as HE. destruct (extend f beta r st1) as [st1' e]. destruct HE as [S2 E2].
      destruct (oltb (snd e) (snd (best st1'))); apply good_ready_update; try assumption; now apply ss_trans with st1.
    - pose proof (contract_spec r st1) as HE. destruct (contract f gamma r st1) as [st1' e]. destruct HE as [S2 E2].
      destruct (oltb (snd e) (snd (worst st1'))); [apply good_ready_update|apply good_ready_shrink]; try assumption; now apply ss_trans with st1.
  Qed.

  Lemma lag_step_good : forall N u st st', N <> 0 -> good N st ->
    lag_step f alpha beta gamma delta N u st = Some st' -> good N st' /\ oleb (snd (best st')) (snd (best st)) = true.
  Proof.
    intros N u st st' HN G. unfold lag_step.
    pose proof (reflect_spec u st) as HR. destruct (reflect f alpha u st) as [st1 r]. destruct HR as [S1 R1].
    assert (H : forall st2, ready N (snd (best st)) st2 -> clean_up N st2 = Some st' -> good N st' /\
                oleb (snd (best st')) (snd (best st)) = true).
    { intros st2 H E. destruct (clean_up_good N _ st2 HN H) as [st'' [E' [G' [L _]]]]. rewrite E in E'. inversion E'. now subst. }
    destruct (oleb (snd r) (snd (second st1))).
    - destruct (oltb (snd (best st1)) (snd r)); [apply H; now apply good_ready_update|].
      pose proof (extend_spec r st1) as HE. destruct (extend f beta r st1) as [st1' e]. destruct HE as [S2 E2].
      destruct (oltb (snd e) (snd (best st1'))); [|discriminate].
      apply H, good_ready_update; try assumption; now apply ss_trans with st1.
    - destruct (oltb (snd (worst st1)) (snd r)).
      + pose proof (contract_to_spec 1%Q r st1) as HE. destruct (contract_to f gamma 1%Q r st1) as [st1' e]. destruct HE as [S2 E2].
        apply H. destruct (oltb (snd e) (snd (worst st1'))); [apply good_ready_update|apply good_ready_shrink]; try assumption; now apply ss_trans with st1.
      + pose proof (contract_to_spec (-1 # 1)%Q r st1) as HE. destruct (contract_to f gamma (-1 # 1)%Q r st1) as [st1' e]. destruct HE as [S2 E2].
        apply H. destruct (oltb (snd e) (snd r)); [apply good_ready_update|apply good_ready_shrink]; try assumption; now apply ss_trans with st1.
  Qed.

  Lemma init_fold : forall rows (st : nm O) s,
    let r := fold_left (fun acc x => let '(st, s) := acc in let '(st', v) := evaluate f st x in (st', s ++ [(x, v)])) rows (st, s) in
    snd r = s ++ map (fun x => (x, f x)) rows /\ calls (fst r) = calls st + length rows /\ log (fst r) = log st ++ rows.
  Proof.
    intros rows. induction rows as [|x rows IH]; intros st s; cbn [fold_left].
    - cbn. now rewrite !app_nil_r, Nat.add_0_r.
    - destruct (IH (fst (evaluate f st x)) (s ++ [(x, f x)])) as [A [B C]]. cbn zeta in *.
      cbn [evaluate fst] in *. rewrite A, B, C. cbn [calls log map length]. rewrite <- !app_assoc. cbn. repeat split. lia.
  Qed.

  Lemma nm_init_good : forall N rows, N <> 0 -> length rows = S N ->
    exists st, nm_init f N rows = Some st /\ good N st /\ log st = rows /\
               (forall x, In x rows -> oleb (snd (best st)) (f x) = true).
  Proof.
    intros N rows HN L. unfold nm_init. destruct rows as [|r0 rows0]; [discriminate L|]. set (rows := r0 :: rows0) in *.
    set (z := repeat 0%Q N). set (st0 := MkNM _ _ _ _ _ _ _ _ _).
    pose proof (init_fold rows st0 []) as H. cbn zeta in H.
    destruct (fold_left _ rows (st0, [])) as [st1 s]. destruct H as [A [B C]]. cbn [fst snd app] in *.
    set (st2 := MkNM s _ _ _ _ _ _ _ _).
    assert (R : ready N (f r0) st2).
    { constructor; cbn [st2 simp calls log].
      - rewrite A, map_length. exact L.
      - intros p Hp. rewrite A in Hp. apply in_map_iff in Hp. destruct Hp as [x [<- _]]. reflexivity.
      - exists (r0, f r0). rewrite A. split; [now left|apply oleb_refl].
      - rewrite B, C. reflexivity. }
    destruct (clean_up_good N _ st2 HN R) as [st' [E [G [_ [Lg [_ Sp]]]]]]. exists st'. split; [exact E|split; [exact G|split]].
    - rewrite Lg. cbn [st2 log]. rewrite C. reflexivity.
    - intros x Hx. change (f x) with (snd (x, f x)). apply (g_min _ _ G). rewrite Sp. cbn [st2 simp].
      apply (Permutation_in _ (order_points_perm O s)). rewrite A. now apply (in_map (fun x => (x, f x))).
  Qed.

  Lemma steps_app : forall step N us vs (st : nm O), steps step N (us ++ vs) st =
    match steps step N us st with Some st' => steps step N vs st' | None => None end.
  Proof.
    intros step N us vs. induction us as [|u us IH]; intro st; [reflexivity|]. cbn [app steps].
    destruct (step N u st); [apply IH|reflexivity].
  Qed.

  Lemma nm_steps_good : forall N us st, N <> 0 -> good N st ->
    exists st', steps (nm_step f alpha beta gamma delta) N us st = Some st' /\ good N st' /\
                oleb (snd (best st')) (snd (best st)) = true.
  Proof.
    intros N us. induction us as [|u us IH]; intros st HN G; cbn [steps].
    - exists st. split; [reflexivity|split; [exact G|apply oleb_refl]].
    - destruct (nm_step_good N u st HN G) as [st1 [E1 [G1 L1]]]. rewrite E1.
      destruct (IH st1 HN G1) as [st2 [E2 [G2 L2]]]. exists st2. split; [exact E2|split; [exact G2|]].
      now apply oleb_trans with (snd (best st1)).
  Qed.
  Lemma lag_steps_good : forall N us st st', N <> 0 -> good N st ->
    steps (lag_step f alpha beta gamma delta) N us st = Some st' ->
    good N st' /\ oleb (snd (best st')) (snd (best st)) = true.
  Proof.
    intros N us. induction us as [|u us IH]; intros st st' HN G; cbn [steps].
    - intro E. inversion E. subst. split; [exact G|apply oleb_refl].
    - destruct (lag_step f alpha beta gamma delta N u st) as [st1|] eqn:E1; [|discriminate]. intro E2.
      destruct (lag_step_good N u st st1 HN G E1) as [G1 L1]. destruct (IH st1 st' HN G1 E2) as [G2 L2].
      split; [exact G2|]. now apply oleb_trans with (snd (best st1)).
  Qed.
End NM.
