(** Neighbour tables and random sequences. *)
From Coq Require Import Bool List Arith QArith Lia Permutation.
From Verif Require Import UtilModel UtilSpec.
Import ListNotations.
Local Open Scope nat_scope.

Lemma mem_In x l : mem x l = true <-> In x l.
Proof.
  unfold mem. rewrite existsb_exists. split.
  - intros [y [I E]]. apply Nat.eqb_eq in E. now subst.
  - intro I. exists x. split; [exact I|apply Nat.eqb_refl].
Qed.
Lemma mem_not x l : mem x l = false <-> ~ In x l.
Proof. rewrite <- mem_In. destruct (mem x l); split; congruence. Qed.

Section Graph.
  Variable cm : list (nat * nat).
  Notation nb := (neighbor cm).
  Lemma adj_sym a b : adj cm a b -> adj cm b a.
  Proof. unfold adj. tauto. Qed.
  Lemma neighbor_adj a b : In b (nb a) <-> adj cm a b.
  Proof.
    unfold neighbor, adj. rewrite in_flat_map. split.
    - intros [[x y] [I J]]. apply in_app_iff in J. cbn [fst snd] in J. destruct J as [J|J].
      + destruct (Nat.eqb_spec x a); [|contradiction]. destruct J as [<-|[]]. subst x. now left.
      + destruct (Nat.eqb_spec y a); [|contradiction]. destruct J as [<-|[]]. subst y. now right.
    - intros [I|I].
      + exists (a, b). split; [exact I|]. apply in_app_iff. left. cbn. rewrite Nat.eqb_refl. now left.
      + exists (b, a). split; [exact I|]. apply in_app_iff. right. cbn. rewrite Nat.eqb_refl. now left.
  Qed.
  Lemma steps1 a b : steps cm 1 a b <-> adj cm a b.
  Proof. cbn. split; [intros [c [H <-]]; exact H|intro H; exists b; auto]. Qed.
  Definition far (k x : nat) : Prop := x <> k /\ ~ In x (nb k).
  Lemma far_dist k x n : dist cm k x n -> 2 <= n -> far k x.
  Proof.
    intros [_ H] L. split.
    - intros ->. exact (H 0 ltac:(lia) eq_refl).
    - rewrite neighbor_adj. intro I. exact (H 1 ltac:(lia) (proj2 (steps1 k x) I)).
  Qed.
  Lemma dist2 k x : dist cm k x 2 <-> far k x /\ exists m, In m (nb k) /\ In x (nb m).
  Proof.
    split.
    - intro D. split; [exact (far_dist k x 2 D ltac:(lia))|]. destruct D as [[m [A [y [B <-]]]] _].
      exists m. now rewrite !neighbor_adj.
    - intros [[N1 N2] [m [A B]]]. rewrite neighbor_adj in *. split; [exists m; split; [exact A|apply steps1; exact B]|].
      intros [|[|n]] L; [intro E; exact (N1 (eq_sym E))|rewrite steps1; exact N2|lia].
  Qed.

  (** The tables for one qubit. *)
  Variable k : nat.
  Definition ok (st : list nat * list nat) : Prop :=
    NoDup (fst st) /\ NoDup (snd st) /\ (forall x, In x (fst st) -> dist cm k x 2) /\
    (forall x, In x (snd st) -> far k x /\ exists m, dist cm k m 2 /\ In x (nb m)) /\
    (forall m x, In m (fst st) -> In x (nb m) -> far k x -> In x (fst st) \/ In x (snd st)).
  Lemma nodup_snoc (l : list nat) x : NoDup l -> ~ In x l -> NoDup (l ++ [x]).
  Proof.
    intros H I. apply NoDup_rev in H. rewrite <- (rev_involutive (l ++ [x])). apply NoDup_rev. rewrite rev_app_distr. cbn.
    constructor; [now rewrite <- in_rev|exact H].
  Qed.
  Lemma third_ok m l : forall st, fst st <> [] -> dist cm k m 2 -> (forall x, In x l -> In x (nb m)) ->
    NoDup (fst st) -> NoDup (snd st) -> (forall x, In x (snd st) -> far k x /\ exists m, dist cm k m 2 /\ In x (nb m)) ->
    let st' := fold_left (third nb k) l st in
    fst st' = fst st /\ NoDup (snd st') /\ incl (snd st) (snd st') /\
    (forall x, In x (snd st') -> far k x /\ exists m, dist cm k m 2 /\ In x (nb m)) /\
    (forall x, In x l -> far k x -> In x (fst st) \/ In x (snd st')).
  Proof.
    induction l as [|n3 l IH]; intros st Hne D L N1 N2 S3; cbn [fold_left].
    - repeat split; auto; try (apply S3; assumption); [apply incl_refl|]. intros x [].
    - unfold third at 2 4 6 8 10.
      destruct (negb (n3 =? k) && negb (mem n3 (nb k)) && negb (mem n3 (fst st)) && negb (mem n3 (snd st))) eqn:E.
      + apply andb_prop in E. destruct E as [E E4]. apply andb_prop in E. destruct E as [E E3]. apply andb_prop in E. destruct E as [E1 E2].
        apply negb_true_iff in E1, E2, E3, E4. apply Nat.eqb_neq in E1. rewrite mem_not in E2, E3, E4.
        destruct (IH (fst st, snd st ++ [n3])) as [F1 [F2 [F3 [F4 F5]]]]; cbn [fst snd] in *; auto.
        * intros x I. apply L. now right.
        * apply nodup_snoc; assumption.
        * intros x I. apply in_app_iff in I. destruct I as [I|[<-|[]]]; [apply S3; exact I|]. split; [split; assumption|]. exists m. split; [exact D|apply L; now left].
        * repeat split; auto; try (apply F4; assumption).
          -- intros x I. apply F3, in_app_iff. now left.
          -- intros x [<-|I] Fx; [right; apply F3, in_app_iff; right; now left|apply F5; assumption].
      + destruct (IH st) as [F1 [F2 [F3 [F4 F5]]]]; auto; [intros x I; apply L; now right|].
        repeat split; auto; try (apply F4; assumption). intros x [<-|I] Fx; [|apply F5; assumption]. destruct Fx as [X1 X2].
        destruct (in_dec Nat.eq_dec n3 (fst st)) as [|Y1]; [now left|]. destruct (in_dec Nat.eq_dec n3 (snd st)) as [I|Y2]; [right; apply F3, I|].
        exfalso. rewrite (proj2 (Nat.eqb_neq n3 k) X1), (proj2 (mem_not _ _) X2), (proj2 (mem_not _ _) Y1), (proj2 (mem_not _ _) Y2) in E. discriminate.
  Qed.
  Lemma second_ok st n1 n2 : ok st -> In n1 (nb k) -> In n2 (nb n1) ->
    ok (second nb k st n2) /\ incl (fst st) (fst (second nb k st n2)) /\ (far k n2 -> In n2 (fst (second nb k st n2))).
  Proof.
    intros [N1 [N2 [S2 [S3 S4]]]] I1 I2. unfold second.
    destruct (negb (n2 =? k) && negb (mem n2 (nb k)) && negb (mem n2 (fst st))) eqn:E.
    - apply andb_prop in E. destruct E as [E E3]. apply andb_prop in E. destruct E as [E1 E2]. apply negb_true_iff in E1, E2, E3.
      apply Nat.eqb_neq in E1. rewrite mem_not in E2, E3.
      assert (D : dist cm k n2 2) by (apply dist2; split; [split; assumption|exists n1; auto]).
      assert (N1' : NoDup (fst st ++ [n2])) by (apply nodup_snoc; assumption).
      destruct (third_ok n2 (nb n2) (fst st ++ [n2], snd st)) as [F1 [F2 [F3 [F4 F5]]]]; cbn [fst snd] in *; auto.
      { intro Z. apply app_eq_nil in Z. destruct Z. discriminate. }
      rewrite F1. split; [unfold ok; rewrite F1; split; [exact N1'|]; split; [exact F2|]; split; [|split; [exact F4|]]|split].
      + intros x H. apply in_app_iff in H. destruct H as [H|[<-|[]]]; [apply S2; exact H|exact D].
      + intros m x I J Fx. apply in_app_iff in I. destruct I as [I|[<-|[]]].
        * destruct (S4 m x I J Fx) as [A|A]; [left; apply in_app_iff; now left|right; apply F3, A].
        * exact (F5 x J Fx).
      + intros x I. apply in_app_iff. now left.
      + intros _. apply in_app_iff. right. now left.
    - split; [repeat split; auto; try (apply S2; assumption); apply S3; assumption|]. split; [apply incl_refl|].
      intros [X1 X2]. destruct (in_dec Nat.eq_dec n2 (fst st)) as [Y|Y]; [exact Y|]. exfalso.
      rewrite (proj2 (Nat.eqb_neq n2 k) X1), (proj2 (mem_not _ _) X2), (proj2 (mem_not _ _) Y) in E. discriminate.
  Qed.
  Lemma second_fold n1 l : forall st, ok st -> In n1 (nb k) -> (forall x, In x l -> In x (nb n1)) ->
    let st' := fold_left (second nb k) l st in ok st' /\ incl (fst st) (fst st') /\ forall x, In x l -> far k x -> In x (fst st').
  Proof.
    induction l as [|n2 l IH]; intros st O I L; cbn [fold_left]; [split; [exact O|split; [apply incl_refl|intros x []]]|].
    destruct (second_ok st n1 n2 O I (L n2 (or_introl eq_refl))) as [O' [A B]].
    destruct (IH (second nb k st n2) O' I (fun x J => L x (or_intror J))) as [O2 [A2 B2]].
    split; [exact O2|]. split; [exact (incl_tran A A2)|]. intros x [<-|J] Fx; [apply A2, B, Fx|apply B2; assumption].
  Qed.
  Lemma first_fold l : forall st, ok st -> (forall x, In x l -> In x (nb k)) ->
    let st' := fold_left (first nb k) l st in ok st' /\ incl (fst st) (fst st') /\
    forall n1 x, In n1 l -> In x (nb n1) -> far k x -> In x (fst st').
  Proof.
    induction l as [|n1 l IH]; intros st O L; cbn [fold_left]; [split; [exact O|split; [apply incl_refl|intros ? ? []]]|].
    assert (F : let st' := first nb k st n1 in ok st' /\ incl (fst st) (fst st') /\ forall x, In x (nb n1) -> far k x -> In x (fst st')).
    { unfold first. destruct (Nat.eqb_spec n1 k) as [->|Hk].
      - split; [exact O|]. split; [apply incl_refl|]. intros x I [_ X]. contradiction.
      - apply (second_fold n1); auto. apply L. now left. }
    destruct F as [O' [A B]]. destruct (IH (first nb k st n1) O' (fun x J => L x (or_intror J))) as [O2 [A2 B2]].
    split; [exact O2|]. split; [exact (incl_tran A A2)|]. intros m x [<-|J] I Fx; [apply A2, B; assumption|exact (B2 m x J I Fx)].
  Qed.
  Lemma more_ok : ok (more_neighbors nb k) /\ forall x, dist cm k x 2 -> In x (two_steps nb k).
  Proof.
    assert (O : ok ([], [])). { repeat split; try constructor; try (intros ? []); try (destruct H). }
    destruct (first_fold (nb k) ([], []) O (fun x H => H)) as [A [_ B]]. split; [exact A|].
    intros x D. apply dist2 in D. destruct D as [Fx [m [I J]]]. exact (B m x I J Fx).
  Qed.
  Theorem two_steps_spec x : In x (two_steps nb k) <-> dist cm k x 2.
  Proof. destruct more_ok as [[_ [_ [S2 _]]] C]. split; [apply S2|apply C]. Qed.
  Theorem two_steps_nodup : NoDup (two_steps nb k).
  Proof. exact (proj1 (proj1 more_ok)). Qed.
  Theorem three_steps_nodup : NoDup (three_steps nb k).
  Proof. exact (proj1 (proj2 (proj1 more_ok))). Qed.
  Theorem three_steps_complete x : dist cm k x 3 -> In x (three_steps nb k).
  Proof.
    intros D. pose proof (far_dist k x 3 D ltac:(lia)) as Fx. destruct D as [[n1 [A [n2 [B [y [Cc Ey]]]]]] M]. cbn in Ey. subst y.
    assert (D2 : dist cm k n2 2).
    { split; [exists n1; split; [exact A|apply steps1; exact B]|]. intros [|[|n]] L S; [| |lia].
      - cbn in S. subst n2. exact (M 1 ltac:(lia) (proj2 (steps1 _ _) Cc)).
      - apply steps1 in S. exact (M 2 ltac:(lia) (ex_intro _ n2 (conj S (proj2 (steps1 _ _) Cc)))). }
    destruct more_ok as [[_ [_ [S2 [_ S4]]]] C2].
    destruct (S4 n2 x (C2 n2 D2) (proj2 (neighbor_adj _ _) Cc) Fx) as [I|I]; [|exact I]. exfalso. exact (M 2 ltac:(lia) (proj1 (S2 x I))).
  Qed.
  Theorem three_steps_sound x : In x (three_steps nb k) -> dist cm k x 2 \/ dist cm k x 3.
  Proof.
    intro I. destruct more_ok as [[_ [_ [S2 [S3 _]]]] C2]. destruct (S3 x I) as [Fx [m [[St _] J]]].
    destruct (in_dec Nat.eq_dec x (two_steps nb k)) as [H|H]; [left; apply S2, H|]. right.
    apply neighbor_adj in J. split.
    - destruct St as [n1 [A [y [B <-]]]]. exists n1. split; [exact A|]. exists y. split; [exact B|]. exists x. split; [exact J|reflexivity].
    - intros [|[|[|n]]] L S; [| | |lia].
      + exact (proj1 Fx (eq_sym S)).
      + apply steps1, neighbor_adj in S. exact (proj2 Fx S).
      + apply H, C2, dist2. split; [exact Fx|]. destruct S as [m1 [A [y [B Ey]]]]. cbn in Ey. subst y. exists m1. rewrite !neighbor_adj. split; assumption.
  Qed.
End Graph.

(** Random sequences. *)
Section Walk.
  Variable cm : list (nat * nat).
  Variables Nq N : nat.
  Variable choice : nat -> nat.
  Variable shuffle : nat -> list nat -> list nat.
  Hypothesis Hshuffle : forall i l, Permutation (shuffle i l) l.
  Notation nb := (neighbor cm).
  Lemma chain_snoc l x : chain cm l -> (l = [] \/ adj cm (last l 0) x) -> chain cm (l ++ [x]).
  Proof.
    induction l as [|a [|b r] IH]; intros H [E|A]; try discriminate; cbn in *; auto.
    - destruct H as [H1 H2]. split; [exact H1|]. apply IH; [exact H2|]. right. exact A.
  Qed.
  Lemma chain_removelast l : chain cm l -> chain cm (removelast l).
  Proof.
    induction l as [|a [|b [|c r]] IH]; intros H; cbn [removelast] in *; try exact I.
    destruct H as [H1 H2]. split; [exact H1|]. exact (IH H2).
  Qed.
  Lemma removelast_incl (l : list nat) x : In x (removelast l) -> In x l.
  Proof. induction l as [|a [|b r] IH]; cbn [removelast]; [intros []|intros []|]. intros [<-|I]; [now left|right; apply IH, I]. Qed.
  Lemma nodup_removelast (l : list nat) : NoDup l -> NoDup (removelast l).
  Proof.
    induction l as [|a [|b r] IH]; intro H; cbn [removelast]; try constructor; inversion H; subst.
    - intro I. apply H2. exact (removelast_incl (b :: r) a I).
    - apply IH, H3.
  Qed.
  Lemma step_path w : simple_path cm (w_strand w) ->
    match walk_step nb Nq N choice shuffle w with
    | Done l => simple_path cm l /\ length l = N
    | Going w' => simple_path cm (w_strand w')
    | Fails => True
    end.
  Proof.
    intro P. unfold walk_step.
    set (strand := if w_it w mod 100 =? 0 then [] else w_strand w).
    assert (P1 : simple_path cm strand) by (unfold strand; destruct (_ =? 0); [split; [constructor|exact I]|exact P]).
    assert (P2 : match (match strand with [] => if Nq =? 0 then None else Some [choice (w_it w)] | _ => Some strand end) with
                 | Some s => simple_path cm s /\ s <> [] | None => True end).
    { destruct strand as [|a r]; [|split; [exact P1|discriminate]]. destruct (Nq =? 0); [exact I|].
      split; [|discriminate]. split; [constructor; [intros []|constructor]|exact I]. }
    destruct (match strand with [] => _ | _ => _ end) as [s|]; [|exact I]. destruct P2 as [[ND Ch] Ne]. clear strand P1.
    set (q := if w_start w then hd 0 s else last s 0). destruct (16 <=? q); [exact I|].
    set (seq := shuffle (w_it w) (nb q)).
    assert (X : match (match fresh seq s with
        | Some x => (w_start w, if w_start w then x :: s else s ++ [x])
        | None => match seq with [] => (w_start w, s) | _ => if w_start w then (false, s) else (true, removelast s) end
        end) with (_, s') => simple_path cm s' end).
    { destruct (fresh seq s) as [x|] eqn:E.
      - unfold fresh in E. apply find_some in E. destruct E as [I F]. apply negb_true_iff, mem_not in F.
        apply (Permutation_in _ (Hshuffle _ _)), neighbor_adj in I. unfold q in I. destruct (w_start w).
        + split; [constructor; assumption|]. destruct s as [|a r]; [contradiction|]. split; [apply adj_sym, I|exact Ch].
        + split; [apply nodup_snoc; assumption|]. apply chain_snoc; [exact Ch|now right].
      - destruct seq; [split; assumption|]. destruct (w_start w); [split; assumption|]. split; [apply nodup_removelast, ND|apply chain_removelast, Ch]. }
    destruct (match fresh seq s with Some _ => _ | None => _ end) as [st' s'].
    destruct (Nat.eqb_spec (length s') N); [split; assumption|exact X].
  Qed.
  Theorem walk_path fuel : forall w l, simple_path cm (w_strand w) -> walk_loop nb Nq N choice shuffle fuel w = Done l ->
    simple_path cm l /\ length l = N.
  Proof.
    induction fuel as [|f IH]; intros w l P; cbn [walk_loop]; [discriminate|].
    pose proof (step_path w P) as S. destruct (walk_step _ _ _ _ _ w) as [|w'|l']; [discriminate| |].
    - apply IH, S.
    - intro E. injection E as <-. exact S.
  Qed.
  (** The strand that is passed plays no role. *)
  Theorem strand_ignored fuel strand : generate_random_sequence nb Nq N choice shuffle (S fuel) strand = generate_random_sequence nb Nq N choice shuffle (S fuel) [].
  Proof. reflexivity. Qed.
  Theorem generate_path fuel strand l : generate_random_sequence nb Nq N choice shuffle fuel strand = Done l -> simple_path cm l /\ length l = N.
  Proof.
    destruct fuel as [|f]; [discriminate|]. rewrite strand_ignored. apply walk_path. split; [constructor|exact I].
  Qed.
End Walk.
