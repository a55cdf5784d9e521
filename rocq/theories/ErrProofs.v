(** Subsamples of counts. *)
From Coq Require Import Bool List Arith Lia.
From Verif Require Import ErrSpec ErrModel.
Import ListNotations.
Local Open Scope nat_scope.
Section Err.
  Context {P K R X : Type} (keq : forall a b : K, {a = b} + {a <> b}).
  Notation outcomes := (list (K * nat)).
  Lemma expand_count (c : outcomes) k : count_occ keq (expand c) k = counted keq c k.
  Proof.
    induction c as [|[k' v] c IH]; [reflexivity|]. cbn [expand flat_map fst snd counted fold_right]. fold (expand c). rewrite count_occ_app, IH. f_equal.
    destruct (keq k' k) as [->|N]; [induction v as [|v IHv]; [reflexivity|]; cbn; destruct (keq k k); [now rewrite IHv|contradiction]|]. induction v as [|v IHv]; [reflexivity|]. cbn. destruct (keq k' k); [contradiction|exact IHv].
  Qed.
  Lemma expand_length (c : outcomes) : length (expand c) = shots c.
  Proof. induction c as [|[k' v] c IH]; [reflexivity|]. cbn [expand flat_map shots fold_right fst snd]. fold (expand c). now rewrite app_length, repeat_length, IH. Qed.
  Lemma bump_counted k (c : outcomes) x : counted keq (bump keq k c) x = counted keq c x + (if keq k x then 1 else 0).
  Proof.
    induction c as [|[k' v] c IH]; cbn [bump]; [cbn; lia|]. destruct (keq k k') as [<-|N]; cbn [counted fold_right fst snd]; [destruct (keq k x); lia|]. fold (counted keq (bump keq k c) x) (counted keq c x). rewrite IH. lia.
  Qed.
  Lemma bump_shots k (c : outcomes) : shots (bump keq k c) = shots c + 1.
  Proof. induction c as [|[k' v] c IH]; cbn [bump]; [reflexivity|]. destruct (keq k k'); cbn [shots fold_right snd]; [lia|]. fold (shots (bump keq k c)) (shots c). lia. Qed.
  Lemma bump_keys k (c : outcomes) : NoDup (map fst c) -> NoDup (map fst (bump keq k c)) /\ forall x, In x (map fst (bump keq k c)) -> x = k \/ In x (map fst c).
  Proof.
    induction c as [|[k' v] c IH]; intros ND; cbn [bump]; [split; [constructor; [intros []|constructor]|intros x [<-|[]]; now left]|]. destruct (keq k k') as [<-|N]; [split; [exact ND|intros x Hx; now right]|].
    cbn [map fst] in *. inversion ND; subst. destruct (IH H2) as [A B]. split.
    - constructor; [|exact A]. intros I. destruct (B _ I) as [E|I']; [congruence|contradiction].
    - intros x [<-|Hx]; [right; now left|]. destruct (B x Hx) as [->|I]; [now left|right; now right].
  Qed.
  Lemma tally_spec (l : list K) : (forall x, counted keq (tally keq l) x = count_occ keq l x) /\ shots (tally keq l) = length l /\ NoDup (map fst (tally keq l)).
  Proof.
    unfold tally. assert (G : forall l c, NoDup (map fst c) -> (forall x, counted keq (fold_left (fun c k => bump keq k c) l c) x = counted keq c x + count_occ keq l x) /\
      shots (fold_left (fun c k => bump keq k c) l c) = shots c + length l /\ NoDup (map fst (fold_left (fun c k => bump keq k c) l c))).
    { clear l. induction l as [|k l IH]; intros c ND; [split; [intros x; cbn [fold_left count_occ]; now rewrite Nat.add_0_r|split; [cbn [fold_left length]; now rewrite Nat.add_0_r|exact ND]]|]. cbn [fold_left]. destruct (IH (bump keq k c) (proj1 (bump_keys k c ND))) as (A & B & D). split; [|split; [|exact D]].
      - intros x. rewrite A, bump_counted. cbn [count_occ]. destruct (keq k x); lia.
      - rewrite B, bump_shots. cbn [length]. lia. }
    destruct (G l [] (NoDup_nil _)) as (A & B & D). split; [exact A|]. split; [exact B|exact D].
  Qed.
  (** Draws. *)
  Lemma count_positions (l : list K) x : forall n0, length (filter (fun i => match nth_error l (i - n0) with Some k => if keq k x then true else false | None => false end) (seq n0 (length l))) = count_occ keq l x.
  Proof.
    induction l as [|k l IH]; intros n0; [reflexivity|]. cbn [length seq filter]. rewrite Nat.sub_diag. cbn [nth_error count_occ].
    assert (E : filter (fun i => match nth_error (k :: l) (i - n0) with Some k => if keq k x then true else false | None => false end) (seq (S n0) (length l)) = filter (fun i => match nth_error l (i - S n0) with Some k => if keq k x then true else false | None => false end) (seq (S n0) (length l))).
    { apply filter_ext_in. intros i Hi. apply in_seq in Hi. replace (i - n0) with (S (i - S n0)) by lia. reflexivity. }
    rewrite E. destruct (keq k x); cbn [length]; now rewrite IH.
  Qed.
  Lemma choice_spec (l : list K) size picks : valid_draw (length l) size picks -> exists s, choice l size picks = Some s /\ length s = size /\ forall x, count_occ keq s x <= count_occ keq l x.
  Proof.
    intros (ND & Ls & B). assert (Sz : size <= length l). { rewrite <- Ls, <- (seq_length (length l) 0). apply NoDup_incl_length; [exact ND|]. intros i Hi. apply in_seq. specialize (B i Hi). lia. }
    unfold choice. destruct (Nat.ltb_spec (length l) size); [lia|].
    assert (G : forall pk, (forall i, In i pk -> i < length l) -> exists s, fold_right (fun i r => match nth_error l i, r with Some k, Some l => Some (k :: l) | _, _ => None end) (Some []) pk = Some s /\ length s = length pk /\
      forall x, count_occ keq s x = length (filter (fun i => match nth_error l (i - 0) with Some k => if keq k x then true else false | None => false end) pk)).
    { induction pk as [|i pk IH]; intros Bp; [exists []; split; [reflexivity|split; [reflexivity|reflexivity]]|]. destruct (IH (fun j Hj => Bp j (or_intror Hj))) as (s & E & Es & C). cbn [fold_right]. rewrite E.
      destruct (nth_error l i) as [k|] eqn:Ek; [|apply nth_error_None in Ek; specialize (Bp i (or_introl eq_refl)); lia]. exists (k :: s). split; [reflexivity|]. split; [cbn; now rewrite Es|].
      intros x. cbn [filter]. rewrite Nat.sub_0_r, Ek. cbn [count_occ]. destruct (keq k x); cbn [length]; now rewrite C. }
    destruct (G picks B) as (s & E & Es & C). exists s. split; [exact E|]. split; [congruence|]. intros x. rewrite C, <- (count_positions l x 0). apply NoDup_incl_length; [now apply NoDup_filter|].
    intros i Hi. apply filter_In in Hi. destruct Hi as [I1 I2]. apply filter_In. split; [apply in_seq; specialize (B i I1); lia|exact I2].
  Qed.
  (** One sample. *)
  Notation subsample := (subsample keq).
  Lemma random_counts_spec (c : list (P * outcomes)) size draw : (forall e, In e c -> valid_draw (shots (snd e)) size (draw (fst e))) ->
    exists c', random_counts keq (map (fun e => (fst e, expand (snd e))) c) size draw = Some c' /\ subsample size c c'.
  Proof.
    induction c as [|[p o] c IH]; intros V; [exists []; split; [reflexivity|constructor]|]. destruct (IH (fun e He => V e (or_intror He))) as (c' & E & S). specialize (V (p, o) (or_introl eq_refl)). cbn [fst snd] in V. rewrite <- expand_length in V.
    destruct (choice_spec _ _ _ V) as (s & Es & Ls & C). cbn [map fst snd random_counts]. rewrite Es, E. exists ((p, tally keq s) :: c'). split; [reflexivity|]. constructor; [|exact S]. cbn [fst snd].
    destruct (tally_spec s) as (T1 & T2 & T3). split; [reflexivity|]. split; [congruence|]. split; [exact T3|]. intros k. rewrite T1, <- expand_count. apply C.
  Qed.
  Variable construct : list (P * outcomes) -> option R.
  Variable f : R -> option X.
  (** All samples. *)
  Theorem samples Ns size draws (t : tomo P K R) : let n := sample_size Ns size in
    (forall d e, In d draws -> In e (t_counts t) -> valid_draw (shots (snd e)) n (d (fst e))) -> t_rdm t <> None -> (forall c, subsample n (t_counts t) c -> construct c <> None) ->
    exists (l : list (list (P * outcomes) * R)) t', Forall (fun x => subsample n (t_counts t) (fst x) /\ construct (fst x) = Some (snd x)) l /\ length l = length draws /\
      evaluate_error keq construct f Ns size draws t = Some (flat_map (fun x => match f (snd x) with Some v => [v] | None => [] end) l, t') /\
      (forall x, last (map Some l) None = Some x -> t_counts t' = fst x /\ t_rdm t' = Some (snd x)) /\ (draws = [] -> t' = t).
  Proof.
    cbv zeta. unfold evaluate_error. set (c0 := t_counts t). set (n := sample_size Ns size). intros V Rd Co. clearbody c0. revert t Rd V. induction draws as [|d ds IH]; intros t Rd V.
    - exists [], t. split; [constructor|]. split; [reflexivity|]. split; [reflexivity|]. split; [intros x H; discriminate|reflexivity].
    - destruct (random_counts_spec c0 n d (fun e He => V d e (or_introl eq_refl) He)) as (c & E & S). cbn [sample_loop]. unfold random_rdm. rewrite E. destruct (t_rdm t) as [r0|] eqn:Er; [|now elim Rd].
      destruct (construct c) as [r|] eqn:Ec; [|now elim (Co c S)]. destruct (IH (MkTomo c (Some r))) as (l & t' & A & L & El & La & Em); [discriminate|intros d' e Hd; apply V; now right|].
      rewrite El. exists ((c, r) :: l), t'. split; [constructor; [split; [exact S|exact Ec]|exact A]|]. split; [cbn; now rewrite L|]. split; [cbn [flat_map snd]; destruct (f r); reflexivity|]. split; [|discriminate].
      intros x Hx. destruct l as [|y l].
      + cbn in Hx. injection Hx as <-. destruct ds; [|discriminate]. rewrite (Em eq_refl). split; reflexivity.
      + apply La. exact Hx.
  Qed.
  Lemma choice_raises (l : list K) size picks : length l < size -> choice l size picks = None.
  Proof. intros H. unfold choice. now rewrite (proj2 (Nat.ltb_lt _ _) H). Qed.
  Theorem raises Ns size d draws (t : tomo P K R) e : In e (t_counts t) -> shots (snd e) < sample_size Ns size -> evaluate_error keq construct f Ns size (d :: draws) t = None.
  Proof.
    intros He L. unfold evaluate_error. cbn [sample_loop]. unfold random_rdm. enough (G : random_counts keq (map (fun e => (fst e, expand (snd e))) (t_counts t)) (sample_size Ns size) d = None) by now rewrite G.
    induction (t_counts t) as [|[p o] c IH]; [destruct He|]. cbn [map fst snd random_counts]. destruct He as [<-|He].
    - cbn [snd] in L. rewrite choice_raises by now rewrite expand_length. reflexivity.
    - rewrite (IH He). now destruct (choice _ _ _).
  Qed.
End Err.
