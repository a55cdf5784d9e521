From Coq Require Import Bool List Arith ZArith Permutation Lia.
From Verif Require Import ToolsModel ToolsSpec ToolsProofs.
Import ListNotations.

Lemma put_length i c s : i < length s -> length (put i c s) = length s.
Proof. intro H. unfold put. rewrite !app_length, firstn_length, skipn_length. cbn. lia. Qed.
Lemma put_nth i c s p : i < length s -> nth p (put i c s) false = if Nat.eqb p i then c else nth p s false.
Proof.
  intro H. unfold put. destruct (Nat.eqb_spec p i) as [-> |N].
  - rewrite app_nth2; rewrite firstn_length; [|lia]. replace (i - min i (length s)) with 0 by lia. reflexivity.
  - destruct (Nat.lt_ge_cases p i).
    + rewrite app_nth1 by (rewrite firstn_length; lia). rewrite <- (firstn_skipn i s) at 2. rewrite app_nth1 by (rewrite firstn_length; lia). reflexivity.
    + rewrite app_nth2 by (rewrite firstn_length; lia). rewrite firstn_length. cbn [app].
      destruct (p - min i (length s)) as [|m] eqn:E; [lia|]. cbn [nth].
      rewrite <- (firstn_skipn (S i) s) at 2. rewrite (app_nth2 (firstn (S i) s)) by (rewrite firstn_length; lia). rewrite firstn_length. f_equal. lia.
Qed.

(** ** map_wf *)
Lemma map_det_spec m det : permutes (length det) m -> exists new, map_det m det = Some new /\ length new = length det /\
  (forall i j, i < length det -> m i = Some j -> nth j new false = nth i det false).
Proof.
  intros [P1 P2]. set (n := length det) in *. unfold map_det. fold n.
  assert (G : forall k, k <= n -> exists new, fold_left (fun o i => match o with None => None | Some new => match m i with None => None | Some ind => Some (put ind (nth i det false) new) end end) (seq 0 k) (Some (repeat false n)) = Some new /\
     length new = n /\ forall i j, i < k -> m i = Some j -> nth j new false = nth i det false).
  { induction k as [|k IH]; intro Hk.
    - exists (repeat false n). split; [reflexivity|]. split; [apply repeat_length|]. intros i j Hi. lia.
    - destruct (IH ltac:(lia)) as [new [E [L H]]]. rewrite seq_S, fold_left_app, E. cbn [fold_left Nat.add]. destruct (P1 k ltac:(lia)) as [j [Ej Hj]]. rewrite Ej.
      exists (put j (nth k det false) new). split; [reflexivity|]. split; [rewrite put_length; lia|]. intros i j' Hi Ej'. rewrite put_nth by lia.
      destruct (Nat.eqb_spec j' j) as [-> |N].
      + now rewrite (P2 i k j ltac:(lia) ltac:(lia) Ej' Ej).
      + apply H; [|exact Ej']. assert (i <> k) by (intros ->; congruence). lia. }
  apply (G n). lia.
Qed.
Lemma nth_ext_len (a b : list bool) : length a = length b -> (forall i, i < length a -> nth i a false = nth i b false) -> a = b.
Proof. intros L H. apply (nth_ext a b false false L H). Qed.
Lemma map_det_inj m a b c : length a = length b -> permutes (length a) m -> map_det m a = Some c -> map_det m b = Some c -> a = b.
Proof.
  intros L P Ea Eb. destruct (map_det_spec m a P) as [na [Ea' [La Ha]]]. rewrite L in P. destruct (map_det_spec m b P) as [nb [Eb' [Lb Hb]]].
  rewrite Ea in Ea'. injection Ea' as <-. rewrite Eb in Eb'. injection Eb' as <-. apply nth_ext_len; [exact L|]. intros i Hi.
  destruct P as [P1 _]. destruct (P1 i ltac:(lia)) as [j [Ej _]]. rewrite <- (Ha i j Hi Ej), <- (Hb i j ltac:(lia) Ej). reflexivity.
Qed.
Lemma map_det_perm m det new : permutes (length det) m -> map_det m det = Some new -> Permutation det new.
Proof.
  intros P E. destruct (map_det_spec m det P) as [new' [E' [L H]]]. rewrite E in E'. injection E' as <-. destruct P as [P1 P2]. set (n := length det) in *.
  set (f := fun i => match m i with Some j => j | None => 0 end).
  assert (F : forall i, i < n -> m i = Some (f i) /\ f i < n). { intros i Hi. destruct (P1 i Hi) as [j [Ej Hj]]. unfold f. rewrite Ej. auto. }
  assert (NL : forall l : list bool, l = map (fun i => nth i l false) (seq 0 (length l))).
  { intro l. apply (nth_ext _ _ false false); [now rewrite map_length, seq_length|]. intros i Hi. rewrite (nth_indep (map _ _) false (nth 0 l false)) by (rewrite map_length, seq_length; lia).
    rewrite (map_nth (fun i => nth i l false) (seq 0 (length l)) 0 i). rewrite seq_nth by lia. reflexivity. }
  rewrite (NL det), (NL new), L. fold n.
  rewrite (map_ext_in (fun i => nth i det false) (fun i => nth (f i) new false) (seq 0 n)).
  2:{ intros i Hi. apply in_seq in Hi. destruct (F i ltac:(lia)) as [Ef _]. symmetry. apply H; [lia|exact Ef]. }
  rewrite <- (map_map f (fun j => nth j new false)). apply Permutation_map. apply NoDup_Permutation_bis.
  - assert (IN : forall l, NoDup l -> (forall i, In i l -> i < n) -> NoDup (map f l)).
    { induction l as [|x l IHl]; intros N Hl; cbn; [constructor|]. apply NoDup_cons_iff in N. destruct N as [N1 N2]. constructor; [|apply IHl; auto; intros; apply Hl; now right].
      intro Hx. apply in_map_iff in Hx. destruct Hx as [y [Ey Hy]]. apply N1. assert (y = x); [|now subst]. apply (P2 y x (f x)); [apply Hl; now right|apply Hl; now left| |].
      - rewrite <- Ey. apply F. apply Hl. now right.
      - apply F. apply Hl. now left. }
    apply IN; [apply seq_NoDup|intros i Hi; apply in_seq in Hi; lia].
  - now rewrite map_length.
  - intros j Hj. apply in_map_iff in Hj. destruct Hj as [i [<- Hi]]. apply in_seq in Hi. apply in_seq. destruct (F i ltac:(lia)). lia.
Qed.
Lemma NoDup_map_in {A B} (g : A -> B) l : (forall x y, In x l -> In y l -> g x = g y -> x = y) -> NoDup l -> NoDup (map g l).
Proof.
  induction l as [|x l IH]; intros H N; cbn; [constructor|]. apply NoDup_cons_iff in N. destruct N as [N1 N2]. constructor.
  - intro Hx. apply in_map_iff in Hx. destruct Hx as [y [E Hy]]. apply N1. rewrite (H x y); [exact Hy|now left|now right|now symmetry].
  - apply IH; [|exact N2]. intros a b Ha Hb. apply H; now right.
Qed.
Section W.
  Variable V : Type.
  Lemma rebuild_items (f : list bool -> option (list bool)) (wf : list (list bool * V)) : NoDup (map fst wf) ->
    (forall e, In e wf -> exists k, f (fst e) = Some k) ->
    (forall a b c, In a (map fst wf) -> In b (map fst wf) -> f a = Some c -> f b = Some c -> a = b) ->
    exists new, rebuild f wf [] = Some new /\ length new = length wf /\ NoDup (map fst new) /\
      (forall k v k', In (k, v) wf -> f k = Some k' -> In (k', v) new) /\ (forall k' v, In (k', v) new -> exists k, In (k, v) wf /\ f k = Some k').
  Proof.
    intros N F I. set (g := fun k => match f k with Some x => x | None => [] end).
    assert (Fg : forall e, In e wf -> f (fst e) = Some (g (fst e))). { intros e He. destruct (F e He) as [k Ek]. unfold g. now rewrite Ek. }
    assert (ND : NoDup (map (fun e => g (fst e)) wf)).
    { rewrite <- (map_map fst g). apply NoDup_map_in; [|exact N]. intros x y Hx Hy E. apply (I x y (g x) Hx Hy).
      - apply in_map_iff in Hx. destruct Hx as [e [<- He]]. now apply Fg.
      - rewrite E. apply in_map_iff in Hy. destruct Hy as [e [<- He]]. now apply Fg. }
    exists (map (fun e => (g (fst e), snd e)) wf). split; [apply (rebuild_inj V f g wf []); [exact Fg|exact ND]|]. split; [apply map_length|].
    split; [rewrite map_map; exact ND|]. split.
    - intros k v k' Hin E. apply in_map_iff. exists (k, v). split; [|exact Hin]. cbn. f_equal. assert (A := Fg _ Hin). cbn in A. congruence.
    - intros k' v Hin. apply in_map_iff in Hin. destruct Hin as [[k v'] [E Hin]]. injection E as <- <-. exists k. split; [exact Hin|]. exact (Fg _ Hin).
  Qed.
  Lemma map_wf_spec (wf : list (list bool * V)) n (m : nat -> option nat) : NoDup (map fst wf) -> (forall e, In e wf -> length (fst e) = n) -> permutes n m ->
    exists new, map_wf wf m = Some new /\ length new = length wf /\ NoDup (map fst new) /\
      (forall k v, In (k, v) wf -> exists k', In (k', v) new /\ Permutation k k' /\ forall i j, i < n -> m i = Some j -> nth j k' false = nth i k false) /\
      (forall k' v, In (k', v) new -> exists k, In (k, v) wf /\ length k' = n /\ forall i j, i < n -> m i = Some j -> nth j k' false = nth i k false).
  Proof.
    intros N L P. destruct (rebuild_items (map_det m) wf N) as [new [E [L1 [N1 [I1 I2]]]]].
    - intros e He. destruct (map_det_spec m (fst e)) as [k [Ek _]]; [rewrite (L e He); exact P|]. now exists k.
    - intros a b c Ha Hb. apply in_map_iff in Ha, Hb. destruct Ha as [ea [<- Ha]], Hb as [eb [<- Hb]]. apply map_det_inj; [now rewrite (L ea Ha), (L eb Hb)|rewrite (L ea Ha); exact P].
    - exists new. split; [exact E|]. split; [exact L1|]. split; [exact N1|]. split.
      + intros k v Hin. assert (Lk := L _ Hin). cbn in Lk. destruct (map_det_spec m k) as [k' [Ek [Lk' Hk]]]; [rewrite Lk; exact P|]. exists k'. split; [now apply (I1 k)|].
        split; [apply (map_det_perm m); [rewrite Lk; exact P|exact Ek]|]. rewrite <- Lk. exact Hk.
      + intros k' v Hin. destruct (I2 k' v Hin) as [k [Hk Ek]]. exists k. split; [exact Hk|]. assert (Lk := L _ Hk). cbn in Lk.
        destruct (map_det_spec m k) as [k2 [Ek2 [Lk2 Hk2]]]; [rewrite Lk; exact P|]. rewrite Ek in Ek2. injection Ek2 as <-. rewrite <- Lk. split; [exact Lk2|exact Hk2].
  Qed.
End W.

(** ** extend_wf *)
Lemma ones_spec : forall l s, (forall i, In i l -> i < length s) -> length (fold_left (fun s i => put i true s) l s) = length s /\
  forall p, nth p (fold_left (fun s i => put i true s) l s) false = orb (existsb (Nat.eqb p) l) (nth p s false).
Proof.
  induction l as [|i l IH]; intros s H; cbn [fold_left]; [split; reflexivity|]. assert (Hi := H i (or_introl eq_refl)).
  destruct (IH (put i true s)) as [L Q]; [intros j Hj; rewrite put_length by exact Hi; apply H; now right|]. rewrite put_length in L by exact Hi. split; [exact L|].
  intro p. rewrite Q, put_nth by exact Hi. cbn [existsb]. destruct (Nat.eqb p i); cbn; [now rewrite orb_true_r|reflexivity].
Qed.
(** The active orbital of character j: first the alpha ones, then the beta ones. *)
Lemma extend_loop a_act b_act S0 : length a_act = length b_act -> (forall i, In i (a_act ++ b_act) -> i < S0) ->
  forall k ind new, length new = S0 -> ind + length k <= length (a_act ++ b_act) ->
  exists r, fst (fold_left (fun (s : option (list bool) * nat) (i : bool) =>
    let (o, ind) := s in
    (match o with
     | None => None
     | Some new =>
         if i then
           if ind <? length a_act then option_map (fun z => put z true new) (nth_error a_act ind)
           else option_map (fun z => put z true new) (item b_act (Z.of_nat ind - Z.of_nat (length b_act)))
         else Some new
     end, S ind)) k (Some new, ind)) = Some r /\ length r = S0 /\
    forall p, nth p r false = true <-> nth p new false = true \/ exists j, j < length k /\ nth j k false = true /\ nth_error (a_act ++ b_act) (ind + j) = Some p.
Proof.
  intros LE HR. induction k as [|c k IH]; intros ind new Ln Hl.
  - exists new. cbn. split; [reflexivity|]. split; [exact Ln|]. intro p. split; [auto|]. intros [H|[j [H _]]]; [exact H|lia].
  - cbn [fold_left length] in *.
    assert (G : exists new1, (if c then if ind <? length a_act then option_map (fun z => put z true new) (nth_error a_act ind)
           else option_map (fun z => put z true new) (item b_act (Z.of_nat ind - Z.of_nat (length b_act))) else Some new) = Some new1 /\ length new1 = S0 /\
        forall p, nth p new1 false = true <-> nth p new false = true \/ (c = true /\ nth_error (a_act ++ b_act) ind = Some p)).
    { destruct c; [|exists new; split; [reflexivity|]; split; [exact Ln|]; intro p; split; [auto|intros [H|[H _]]; [exact H|discriminate]]].
      assert (X : exists z, nth_error (a_act ++ b_act) ind = Some z).
      { destruct (nth_error (a_act ++ b_act) ind) as [z|] eqn:E; [now exists z|]. apply nth_error_None in E. lia. }
      destruct X as [z Ez]. assert (Hz : z < length new) by (rewrite Ln; apply HR; eapply nth_error_In; exact Ez).
      exists (put z true new). split; [|split; [rewrite put_length by exact Hz; exact Ln|]].
      - destruct (Nat.ltb_spec ind (length a_act)) as [Hlt|Hge].
        + rewrite nth_error_app1 in Ez by exact Hlt. rewrite Ez. reflexivity.
        + rewrite nth_error_app2 in Ez by exact Hge. unfold item. assert (Q : (Z.of_nat ind - Z.of_nat (length b_act) <? 0)%Z = false) by (apply Z.ltb_ge; lia). rewrite Q.
          replace (Z.to_nat (Z.of_nat ind - Z.of_nat (length b_act))) with (ind - length a_act) by lia. rewrite Ez. reflexivity.
      - intro p. rewrite put_nth by exact Hz. rewrite Ez. destruct (Nat.eqb_spec p z) as [-> |NE].
        + split; [intros _; right; split; reflexivity|reflexivity].
        + split; [auto|]. intros [H|[_ H]]; [exact H|injection H as <-; contradiction]. }
    destruct G as [new1 [E1 [L1 Q1]]]. rewrite E1. destruct (IH (S ind) new1 L1 ltac:(lia)) as [r [Er [Lr Qr]]]. exists r. split; [exact Er|]. split; [exact Lr|].
    intro p. rewrite Qr, Q1. split.
    + intros [[H|[-> H]]|[j [Hj [Hb H]]]]; [now left|right; exists 0; split; [lia|]; split; [reflexivity|]; rewrite Nat.add_0_r; exact H|].
      right. exists (S j). split; [lia|]. split; [exact Hb|]. replace (ind + S j) with (S ind + j) by lia. exact H.
    + intros [H|[[|j] [Hj [Hb H]]]]; [left; now left|left; right; split; [exact Hb|]; rewrite Nat.add_0_r in H; exact H|].
      right. exists j. split; [lia|]. split; [exact Hb|]. replace (S ind + j) with (ind + S j) by lia. exact H.
Qed.
Lemma nth_repeat_false n p : nth p (repeat false n) false = false.
Proof. revert p. induction n as [|n IH]; intros [|p]; cbn; auto. Qed.
Lemma extend_det_spec Norb a_in a_act b_in b_act k : length a_act = length b_act -> length k <= length (a_act ++ b_act) ->
  (forall i, In i (a_in ++ b_in ++ a_act ++ b_act) -> i < Norb * 2) ->
  exists r, extend_det Norb a_in a_act b_in b_act k = Some r /\ length r = Norb * 2 /\
    forall p, nth p r false = true <-> In p (a_in ++ b_in) \/ exists j, j < length k /\ nth j k false = true /\ nth_error (a_act ++ b_act) j = Some p.
Proof.
  intros LE Lk HR. unfold extend_det. set (new := fold_left (fun s i => put i true s) (a_in ++ b_in) (repeat false (Norb * 2))).
  assert (H0 : forall i, In i (a_in ++ b_in) -> i < length (repeat false (Norb * 2))). { intros i Hi. rewrite repeat_length. apply HR. rewrite app_assoc. apply in_app_iff. now left. }
  destruct (ones_spec (a_in ++ b_in) (repeat false (Norb * 2)) H0) as [L1 Q1]. fold new in L1, Q1. rewrite repeat_length in L1.
  assert (HA : forall i, In i (a_act ++ b_act) -> i < Norb * 2). { intros i Hi. apply HR. rewrite app_assoc. apply in_app_iff. now right. }
  destruct (extend_loop a_act b_act (Norb * 2) LE HA k 0 new L1 Lk) as [r [E [L Q]]]. exists r. split; [exact E|]. split; [exact L|].
  intro p. rewrite Q, Q1, nth_repeat_false, orb_false_r, existsb_exists. cbn [Nat.add]. split.
  - intros [[x [Hx E']]|H]; [left; apply Nat.eqb_eq in E'; now subst|now right].
  - intros [H|H]; [left; exists p; split; [exact H|apply Nat.eqb_refl]|now right].
Qed.
Lemma extend_det_inj Norb a_in a_act b_in b_act k k' r : length a_act = length b_act -> length k <= length (a_act ++ b_act) -> length k = length k' ->
  (forall i, In i (a_in ++ b_in ++ a_act ++ b_act) -> i < Norb * 2) -> NoDup (a_in ++ b_in ++ a_act ++ b_act) ->
  extend_det Norb a_in a_act b_in b_act k = Some r -> extend_det Norb a_in a_act b_in b_act k' = Some r -> k = k'.
Proof.
  intros LE Lk Lkk HR ND E1 E2. destruct (extend_det_spec Norb a_in a_act b_in b_act k LE Lk HR) as [r1 [F1 [_ Q1]]].
  destruct (extend_det_spec Norb a_in a_act b_in b_act k' LE ltac:(lia) HR) as [r2 [F2 [_ Q2]]]. rewrite E1 in F1. rewrite E2 in F2. injection F1 as <-. injection F2 as <-.
  rewrite app_assoc in ND. assert (NDA : NoDup (a_act ++ b_act)). { clear - ND. induction (a_in ++ b_in) as [|x l IH]; [exact ND|]. apply IH. cbn in ND. now apply NoDup_cons_iff in ND. }
  assert (DJ : forall p, In p (a_in ++ b_in) -> In p (a_act ++ b_act) -> False).
  { intros p H1 H2. apply in_split in H1. destruct H1 as [l1 [l2 E]]. rewrite E in ND. rewrite <- app_assoc in ND. cbn in ND. apply NoDup_remove_2 in ND. apply ND. rewrite in_app_iff in H2. rewrite !in_app_iff. tauto. }
  assert (G : forall a b, length a = length b -> length a <= length (a_act ++ b_act) ->
     (forall p, nth p r false = true <-> In p (a_in ++ b_in) \/ exists j, j < length a /\ nth j a false = true /\ nth_error (a_act ++ b_act) j = Some p) ->
     (forall p, nth p r false = true <-> In p (a_in ++ b_in) \/ exists j, j < length b /\ nth j b false = true /\ nth_error (a_act ++ b_act) j = Some p) ->
     forall j, j < length a -> nth j a false = true -> nth j b false = true).
  { intros a b Lab La Qa Qb j Hj Ha. destruct (nth_error (a_act ++ b_act) j) as [p|] eqn:E; [|apply nth_error_None in E; lia].
    assert (H : nth p r false = true). { apply Qa. right. exists j. auto. }
    apply Qb in H. destruct H as [H|[j' [Hj' [Hb E']]]]; [exfalso; apply (DJ p H); eapply nth_error_In; exact E|].
    assert (j' = j); [|now subst]. apply (proj1 (NoDup_nth_error _) NDA); [lia|congruence]. }
  apply nth_ext_len; [exact Lkk|]. intros j Hj.
  destruct (nth j k false) eqn:A, (nth j k' false) eqn:B; try reflexivity.
  - rewrite (G k k' Lkk Lk Q1 Q2 j Hj A) in B. discriminate.
  - rewrite (G k' k ltac:(lia) ltac:(lia) Q2 Q1 j ltac:(lia) B) in A. discriminate.
Qed.
Lemma extend_wf_spec {V} (wf : list (list bool * V)) Norb a_in a_act b_in b_act : NoDup (map fst wf) -> length a_act = length b_act ->
  (forall e, In e wf -> length (fst e) = length a_act + length b_act) ->
  (forall i, In i (a_in ++ b_in ++ a_act ++ b_act) -> i < Norb * 2) -> NoDup (a_in ++ b_in ++ a_act ++ b_act) ->
  exists new, extend_wf wf Norb a_in a_act b_in b_act = Some new /\ length new = length wf /\ NoDup (map fst new) /\
    (forall k v, In (k, v) wf -> exists k', In (k', v) new /\ length k' = Norb * 2 /\
       forall p, nth p k' false = true <-> In p (a_in ++ b_in) \/ exists j, nth j k false = true /\ nth_error (a_act ++ b_act) j = Some p).
Proof.
  intros N LE L HR ND. 
  destruct (rebuild_items V (extend_det Norb a_in a_act b_in b_act) wf N) as [new [E [L1 [N1 [I1 I2]]]]].
  - intros e He. destruct (extend_det_spec Norb a_in a_act b_in b_act (fst e) LE) as [r [Er _]]; [rewrite (L e He), app_length; lia|exact HR|]. now exists r.
  - intros a b c Ha Hb. apply in_map_iff in Ha, Hb. destruct Ha as [ea [<- Ha]], Hb as [eb [<- Hb]]. apply extend_det_inj; [exact LE|rewrite (L ea Ha), app_length; lia|now rewrite (L ea Ha), (L eb Hb)|exact HR|exact ND].
  - exists new. split; [exact E|]. split; [exact L1|]. split; [exact N1|]. intros k v Hin. assert (Lk := L _ Hin). cbn in Lk.
    destruct (extend_det_spec Norb a_in a_act b_in b_act k LE) as [r [Er [Lr Qr]]]; [rewrite Lk, app_length; lia|exact HR|]. exists r. split; [now apply (I1 k)|]. split; [exact Lr|].
    intro p. rewrite Qr. split; (intros [H|[j H]]; [now left|right; exists j]); [tauto|]. destruct H as [H1 H2]. split; [|tauto].
    destruct (Nat.lt_ge_cases j (length k)); [assumption|]. rewrite nth_overflow in H1 by assumption. discriminate.
Qed.

(** ** Swaps *)
Definition disjoint_swaps (sw : list (nat * nat)) : Prop := NoDup (map fst sw ++ map snd sw).
Lemma location_out sw : forall i, ~ In i (map fst sw ++ map snd sw) -> location sw i = i.
Proof.
  induction sw as [|[q p] sw IH]; intros i Hi; [reflexivity|]. unfold location in *. cbn [fold_left fst snd]. cbn [map fst snd app In] in Hi. rewrite in_app_iff in Hi. cbn [In] in Hi.
  assert (E : transpose q p i = i). { unfold transpose. destruct (Nat.eqb_spec i q); [exfalso; apply Hi; left; now symmetry|]. destruct (Nat.eqb_spec i p); [exfalso; apply Hi; right; right; left; now symmetry|]. reflexivity. }
  rewrite E. apply IH. rewrite in_app_iff. tauto.
Qed.
Lemma location_app sw q p i : location (sw ++ [(q, p)]) i = transpose q p (location sw i).
Proof. unfold location. rewrite fold_left_app. reflexivity. Qed.
Lemma location_in : forall sw i, In (location sw i) (map fst sw ++ map snd sw) \/ location sw i = i.
Proof.
  intro sw. induction sw as [|[q p] sw IH] using rev_ind; intro i; [now right|]. rewrite location_app, !map_app. cbn [map fst snd]. unfold transpose.
  destruct (Nat.eqb_spec (location sw i) q); [left; rewrite !in_app_iff; cbn; tauto|]. destruct (Nat.eqb_spec (location sw i) p); [left; rewrite !in_app_iff; cbn; tauto|].
  destruct (IH i) as [H|H]; [left; rewrite !in_app_iff in *; tauto|now right].
Qed.
Lemma swap_dict_spec sw : disjoint_swaps sw -> forall i, g_swap (gcirc_run (map (fun qp => CSw (fst qp) (snd qp)) sw)) i = location sw i.
Proof.
  induction sw as [|[q p] sw IH] using rev_ind; intros D i; [reflexivity|]. unfold disjoint_swaps in D. rewrite !map_app in D. cbn [map fst snd] in D.
  assert (D' : disjoint_swaps sw /\ ~ In q (map fst sw ++ map snd sw) /\ ~ In p (map fst sw ++ map snd sw)).
  { rewrite app_assoc in D. assert (A := NoDup_remove_1 _ _ _ D). assert (B := NoDup_remove_2 _ _ _ D). rewrite app_nil_r in A, B.
    rewrite <- app_assoc in A. cbn [app] in A. assert (C := NoDup_remove_1 _ _ _ A). assert (C' := NoDup_remove_2 _ _ _ A).
    split; [exact C|]. split; [exact C'|]. intro H. apply B. rewrite !in_app_iff in *. tauto. }
  destruct D' as [D1 [D2 D3]]. rewrite map_app. unfold gcirc_run. rewrite fold_left_app. cbn [map fold_left gcirc_call g_swap fst snd].
  fold (gcirc_run (map (fun qp => CSw (fst qp) (snd qp)) sw)). rewrite IH by exact D1. rewrite location_app. unfold transpose.
  assert (LQ := location_out sw q D2). assert (LP := location_out sw p D3).
  assert (X : forall j, ~ In j (map fst sw ++ map snd sw) -> i <> j -> location sw i <> j).
  { intros j Hj Hi E. destruct (location_in sw i) as [H|H]; [rewrite E in H; contradiction|congruence]. }
  destruct (Nat.eqb_spec i q) as [-> |Nq]; [rewrite LQ, Nat.eqb_refl; reflexivity|]. destruct (Nat.eqb_spec i p) as [-> |Np].
  - rewrite LP. destruct (Nat.eqb_spec p q); [contradiction|]. rewrite Nat.eqb_refl. reflexivity.
  - destruct (Nat.eqb_spec (location sw i) q) as [E|_]; [now apply X in E|]. destruct (Nat.eqb_spec (location sw i) p) as [E|_]; [now apply X in E|]. reflexivity.
Qed.
(** No call looks at the recorded swaps. *)
Lemma gates_ignore_swaps cs : g_gates (gcirc_run cs) = flat_map (fun c => match c with CX q => [q] | CSw _ _ => [] end) cs.
Proof.
  induction cs as [|c cs IH] using rev_ind; [reflexivity|]. unfold gcirc_run. rewrite fold_left_app, flat_map_app. cbn [fold_left flat_map]. fold (gcirc_run cs). rewrite <- IH. destruct c; cbn; [now rewrite app_nil_r|reflexivity].
Qed.
