(** The loop that leaves at most one X per row. *)
From Coq Require Import Bool List Arith ZArith Lia.
From Verif Require Import Coeff MatSpec MatLemmas PauliModel OptModel CircuitSpec StabModel StabSpec StabProofs StabProofs2 StabProofs3 StabProofs4
  ScModel ScProofs1 ScProofs2.
Import ListNotations.

(** ** Counting *)
Lemma filter_none : forall A (f : A -> bool) l, (forall x, In x l -> f x = false) -> length (filter f l) = 0.
Proof. intros A f l. induction l as [|x l IH]; intro H; [reflexivity|]. cbn [filter]. rewrite (H x) by now left. apply IH. intros; apply H; now right. Qed.
Lemma filter_some : forall A (f : A -> bool) l x, In x l -> f x = true -> 1 <= length (filter f l).
Proof.
  intros A f l x Hx Hf. assert (Hi : In x (filter f l)) by (apply filter_In; now split).
  destruct (filter f l); [destruct Hi|cbn; lia].
Qed.
Lemma filter_le1 : forall A (f : A -> bool) d l, (forall t t', t < length l -> t' < length l -> f (nth t l d) = true -> f (nth t' l d) = true -> t = t') ->
  length (filter f l) <= 1.
Proof.
  intros A f d l. induction l as [|x l IH]; intro H; [cbn; lia|]. cbn [filter]. destruct (f x) eqn:Fx.
  - cbn [length]. rewrite filter_none; [lia|]. intros y Hy. destruct (f y) eqn:Fy; [|reflexivity]. exfalso.
    destruct (In_nth _ _ d Hy) as (t & Ht & Et). specialize (H 0 (S t)). cbn [length nth] in H. rewrite Et in H.
    assert (0 = S t) by (apply H; auto; lia). lia.
  - apply IH. intros t t' Ht Ht' A1 A2. assert (S t = S t') by (apply H; cbn [length nth]; auto; lia). lia.
Qed.
Lemma filter_le : forall A (f g : A -> bool) l, (forall x, In x l -> g x = true -> f x = true) -> length (filter g l) <= length (filter f l).
Proof.
  intros A f g l. induction l as [|x l IH]; intro H; [cbn; lia|]. cbn [filter].
  assert (I : length (filter g l) <= length (filter f l)) by (apply IH; intros; apply H; auto; now right).
  destruct (g x) eqn:Gx; [rewrite (H x) by (auto; now left); cbn; lia|]. destruct (f x); cbn; lia.
Qed.
Lemma filter_lt : forall A (f g : A -> bool) l x, (forall x, In x l -> g x = true -> f x = true) -> In x l -> f x = true -> g x = false ->
  length (filter g l) < length (filter f l).
Proof.
  intros A f g l x. induction l as [|y l IH]; intros H Hx Fx Gx; [destruct Hx|]. cbn [filter]. destruct Hx as [<-|Hx].
  - rewrite Fx, Gx. cbn [length]. enough (length (filter g l) <= length (filter f l)) by lia. apply filter_le. intros; apply H; auto; now right.
  - assert (I : length (filter g l) < length (filter f l)) by (apply IH; auto; intros; apply H; auto; now right).
    destruct (g y) eqn:Gy; [rewrite (H y) by (auto; now left); cbn; lia|]. destruct (f y); cbn; lia.
Qed.
Lemma sum_le : forall A (h : A -> nat) (f : A -> A) l, (forall r, In r l -> h (f r) <= h r) -> list_sum (map h (map f l)) <= list_sum (map h l).
Proof.
  intros A h f l. induction l as [|r l IH]; intro H; [cbn; lia|]. unfold list_sum in *. cbn [map fold_right].
  specialize (IH (fun r Hr => H r (or_intror Hr))). specialize (H r (or_introl eq_refl)). lia.
Qed.
Lemma sum_lt : forall A (h : A -> nat) (f : A -> A) l x, (forall r, In r l -> h (f r) <= h r) -> In x l -> h (f x) < h x ->
  list_sum (map h (map f l)) < list_sum (map h l).
Proof.
  intros A h f l x. induction l as [|r l IH]; intros H Hx Lx; [destruct Hx|]. unfold list_sum. cbn [map fold_right]. fold (list_sum (map h (map f l))). fold (list_sum (map h l)).
  destruct Hx as [->|Hx].
  - pose proof (sum_le _ h f l (fun r Hr => H r (or_intror Hr))). lia.
  - specialize (IH (fun r Hr => H r (or_intror Hr)) Hx Lx). specialize (H r (or_introl eq_refl)). lia.
Qed.

(** ** The invariant *)
Section Inv.
  Variables (N : nat) (piv L : list nat) (xt : nat -> bool).
  Hypothesis ND : NoDup piv.
  Hypothesis cnt_lt_n : forall p, In p piv -> cnt piv p < length piv.
  Hypothesis surj : forall k, k < length piv -> exists p, In p piv /\ cnt piv p = k.
  Hypothesis NDL : NoDup L.
  Hypothesis L_lt : forall m, In m L -> m < N.
  Hypothesis L_np : forall m, In m L -> ~ In m piv.

  Record inv (G Zs : list vec) : Prop := {
    i_G : length G = length piv;
    i_Z : length Zs = length L;
    i_sG : shape (2 * N) G;
    i_sZ : shape (2 * N) Zs;
    i_gx : forall r i, In r G -> i < N -> xt i = false -> vget r (i + N) = false;
    i_gz : forall r i, In r G -> i < N -> xt i = true -> vget r i = false;
    i_one : forall p, In p piv -> p < N -> vget (nth (cnt piv p) G []) (p + N) = true;
    i_zero : forall p k, In p piv -> p < N -> k < length piv -> k <> cnt piv p -> vget (nth k G []) (p + N) = false;
    i_left : forall p j, In p piv -> p < N -> j < p -> vget (nth (cnt piv p) G []) (j + N) = false;
    i_rest : forall p j, In p piv -> N <= p -> j < N -> vget (nth (cnt piv p) G []) (j + N) = false;
    i_zx : forall r i, In r Zs -> i < N -> vget r (i + N) = false;
    i_zz : forall t i, t < length L -> i < N -> vget (nth t Zs []) i = if is_pivot piv i then vget (nth (cnt piv i) G []) (nth t L 0 + N) else i =? nth t L 0
  }.
  Definition rowx (r : vec) : nat := length (filter (fun c => vget r (c + N)) (seq 0 N)).
  Definition xcount (G : list vec) : nat := list_sum (map rowx G).

  Lemma vget_len (r : vec) c : length r <= c -> vget r c = false.
  Proof. intro H. unfold vget. apply nth_overflow. exact H. Qed.

  Lemma in_G G Zs r : inv G Zs -> In r G -> exists k, k < length piv /\ r = nth k G [].
  Proof. intros I Hr. destruct (In_nth _ _ [] Hr) as (k & Hk & E). exists k. split; [rewrite <- (i_G _ _ I); exact Hk|symmetry; exact E]. Qed.
  Lemma in_Z G Zs r : inv G Zs -> In r Zs -> exists k, k < length L /\ r = nth k Zs [].
  Proof. intros I Hr. destruct (In_nth _ _ [] Hr) as (k & Hk & E). exists k. split; [rewrite <- (i_Z _ _ I); exact Hk|symmetry; exact E]. Qed.

  (** The pair found: a pivot and a column that is none. *)
  Lemma pair_shape G Zs i j : inv G Zs -> find_pair N (G ++ Zs) = Some (i, j) ->
    i < N /\ j < N /\ In j piv /\ ~ In i piv /\ j < i /\ vget (nth (cnt piv j) G []) (i + N) = true.
  Proof.
    intros I F. pose proof (find_pair_spec N (G ++ Zs)) as H. rewrite F in H. destruct H as (r & Hr & Hi & Hj & Xi & Xj & Hl).
    apply in_app_iff in Hr. destruct Hr as [Hr|Hr]; [|rewrite (i_zx _ _ I r i Hr Hi) in Xi; discriminate].
    destruct (in_G _ _ _ I Hr) as (k & Hk & ->). destruct (surj k Hk) as (p & Hp & <-).
    destruct (le_lt_dec N p) as [Hn|Hn]; [rewrite (i_rest _ _ I p i Hp Hn Hi) in Xi; discriminate|].
    assert (j = p).
    { destruct (lt_eq_lt_dec j p) as [[C|C]|C]; [rewrite (i_left _ _ I p j Hp Hn C) in Xj; discriminate|exact C|].
      specialize (Hl p C). rewrite (i_one _ _ I p Hp Hn) in Hl. discriminate. }
    subst p. split; [exact Hi|]. split; [lia|]. split; [exact Hp|]. split; [|split; [exact Hj|exact Xi]].
    intro C. rewrite (i_zero _ _ I i (cnt piv j)) in Xi; [discriminate|exact C|exact Hi|exact Hk|].
    intro E. apply cnt_inj in E; [lia|exact ND|exact Hp|exact C].
  Qed.
  Lemma xt_of G Zs r i : inv G Zs -> In r G -> i < N -> vget r (i + N) = true -> xt i = true.
  Proof. intros I Hr Hi H. destruct (xt i) eqn:E; [reflexivity|]. rewrite (i_gx _ _ I r i Hr Hi E) in H. discriminate. Qed.
  Lemma rank_app (a b : list vec) c : rank (a ++ b) c = rank a c + rank b c.
  Proof. unfold rank. rewrite filter_app. apply app_length. Qed.

  Lemma branch G Zs i j : inv G Zs -> find_pair N (G ++ Zs) = Some (i, j) ->
    (rank (G ++ Zs) j <? rank (G ++ Zs) i) || (rank (G ++ Zs) (i + N) <? rank (G ++ Zs) (j + N)) = false.
  Proof.
    intros I F. destruct (pair_shape G Zs i j I F) as (Hi & Hj & Pj & Pi & Hji & Xi).
    assert (Kj : cnt piv j < length G) by (rewrite (i_G _ _ I); now apply cnt_lt_n).
    assert (Rk : In (nth (cnt piv j) G []) G) by now apply nth_In.
    assert (Xti : xt i = true) by (eapply xt_of; eauto).
    apply orb_false_iff. split; apply Nat.ltb_ge; rewrite !rank_app.
    - assert (G0 : rank G i = 0) by (apply filter_none; intros r Hr; now apply (i_gz _ _ I)).
      rewrite G0. cbn [Nat.add]. enough (rank Zs i <= rank Zs j) by lia.
      assert (Z1 : rank Zs i <= 1).
      { apply (filter_le1 _ _ []). intros t t' Ht Ht' A B. assert (Hu : t < length L) by (rewrite <- (i_Z _ _ I); exact Ht). assert (Hu' : t' < length L) by (rewrite <- (i_Z _ _ I); exact Ht').
        rewrite (i_zz _ _ I) in A, B by assumption. rewrite (proj2 (is_pivot_false _ _) Pi) in A, B.
        apply Nat.eqb_eq in A, B. apply (proj1 (NoDup_nth L 0) NDL); congruence. }
      destruct (rank Zs i) as [|[|x]] eqn:Ri; [lia| |lia].
      assert (Ne : rank Zs i <> 0) by lia.
      assert (Q : exists r, In r Zs /\ vget r i = true).
      { unfold rank in Ne. destruct (filter (fun r => vget r i) Zs) as [|r l] eqn:Ef; [now destruct Ne|].
        exists r. apply (proj1 (filter_In (fun r => vget r i) r Zs)). rewrite Ef. now left. }
      destruct Q as (r & Hr & Vr). apply (filter_some _ _ _ r Hr).
      destruct (in_Z _ _ _ I Hr) as (t & Ht & Et). rewrite Et in Vr |- *.
      rewrite (i_zz _ _ I) in Vr |- * by assumption. rewrite (proj2 (is_pivot_false _ _) Pi) in Vr. apply Nat.eqb_eq in Vr. rewrite <- Vr.
      rewrite (proj2 (is_pivot_spec _ _) Pj). exact Xi.
    - assert (Zj : rank Zs (j + N) = 0) by (apply filter_none; intros r Hr; now apply (i_zx _ _ I)).
      assert (Gj : rank G (j + N) <= 1).
      { apply (filter_le1 _ _ []). intros t t' Ht Ht' A B. assert (Hu : t < length piv) by (rewrite <- (i_G _ _ I); exact Ht). assert (Hu' : t' < length piv) by (rewrite <- (i_G _ _ I); exact Ht').
        destruct (Nat.eq_dec t (cnt piv j)) as [->|N1]; [|rewrite (i_zero _ _ I) in A by assumption; discriminate].
        destruct (Nat.eq_dec t' (cnt piv j)) as [->|N2]; [reflexivity|rewrite (i_zero _ _ I) in B by assumption; discriminate]. }
      assert (Gi : 1 <= rank G (i + N)) by (apply (filter_some _ _ _ _ Rk); exact Xi).
      lia.
  Qed.

  Lemma cx_nil a b : cx_row N a b [] = [].
  Proof. apply length_zero_iff_nil. rewrite cx_row_len. reflexivity. Qed.
  Lemma nth_cx a b G k : nth k (map (cx_row N a b) G) [] = cx_row N a b (nth k G []).
  Proof. rewrite <- (cx_nil a b) at 1. apply map_nth. Qed.

  Lemma step_inv G Zs i j : inv G Zs -> find_pair N (G ++ Zs) = Some (i, j) ->
    inv (map (cx_row N j i) G) (map (cx_row N j i) Zs) /\ xcount (map (cx_row N j i) G) < xcount G.
  Proof.
    intros I F. destruct (pair_shape G Zs i j I F) as (Hi & Hj & Pj & Pi & Hji & Xi).
    assert (Kj : cnt piv j < length piv) by now apply cnt_lt_n.
    assert (KjG : cnt piv j < length G) by (rewrite (i_G _ _ I); exact Kj).
    assert (Xti : xt i = true) by (eapply xt_of; eauto; now apply nth_In).
    assert (Xtj : xt j = true) by (eapply (xt_of _ _ (nth (cnt piv j) G [])); eauto; [now apply nth_In|now apply (i_one _ _ I)]).
    assert (gl : forall k, k < length piv -> length (nth k G []) = 2 * N) by (intros k Hk; apply (i_sG _ _ I), nth_In; rewrite (i_G _ _ I); exact Hk).
    assert (zl : forall k, k < length L -> length (nth k Zs []) = 2 * N) by (intros k Hk; apply (i_sZ _ _ I), nth_In; rewrite (i_Z _ _ I); exact Hk).
    assert (get : forall r c, length r = 2 * N -> vget (cx_row N j i r) c = if c =? i + N then xorb (vget r (i + N)) (vget r (j + N)) else if c =? j then xorb (vget r j) (vget r i) else vget r c)
      by (intros; apply cx_row_get; auto; lia).
    assert (getX : forall r c, length r = 2 * N -> c < N -> vget (cx_row N j i r) (c + N) = if c =? i then xorb (vget r (i + N)) (vget r (j + N)) else vget r (c + N)).
    { intros r c Hr Hc. rewrite get by exact Hr. destruct (Nat.eqb_spec c i) as [->|Hn]; [now rewrite Nat.eqb_refl|].
      rewrite (proj2 (Nat.eqb_neq (c + N) (i + N))) by lia. now rewrite (proj2 (Nat.eqb_neq (c + N) j)) by lia. }
    assert (getZ : forall r c, length r = 2 * N -> c < N -> vget (cx_row N j i r) c = if c =? j then xorb (vget r j) (vget r i) else vget r c).
    { intros r c Hr Hc. rewrite get by exact Hr. now rewrite (proj2 (Nat.eqb_neq c (i + N))) by lia. }
    assert (Xj0 : forall k, k < length piv -> k <> cnt piv j -> vget (nth k G []) (j + N) = false) by (intros; now apply (i_zero _ _ I)).
    split; [constructor|].
    - rewrite map_length. apply (i_G _ _ I).
    - rewrite map_length. apply (i_Z _ _ I).
    - intros r Hr. apply in_map_iff in Hr. destruct Hr as (r0 & <- & Hr). rewrite cx_row_len. now apply (i_sG _ _ I).
    - intros r Hr. apply in_map_iff in Hr. destruct Hr as (r0 & <- & Hr). rewrite cx_row_len. now apply (i_sZ _ _ I).
    - intros r c Hr Hc Hx. apply in_map_iff in Hr. destruct Hr as (r0 & <- & Hr). rewrite getX by (auto; now apply (i_sG _ _ I)).
      destruct (Nat.eqb_spec c i); [congruence|]. now apply (i_gx _ _ I).
    - intros r c Hr Hc Hx. apply in_map_iff in Hr. destruct Hr as (r0 & <- & Hr). rewrite getZ by (auto; now apply (i_sG _ _ I)).
      destruct (Nat.eqb_spec c j); [|now apply (i_gz _ _ I)]. rewrite !(i_gz _ _ I r0) by assumption. reflexivity.
    - intros p Hp Hn. rewrite nth_cx, getX by (auto; apply gl; auto). destruct (Nat.eqb_spec p i); [congruence|]. now apply (i_one _ _ I).
    - intros p k Hp Hn Hk Hd. rewrite nth_cx, getX by (auto; apply gl; auto). destruct (Nat.eqb_spec p i); [congruence|]. now apply (i_zero _ _ I).
    - intros p c Hp Hn Hc. rewrite nth_cx, getX by (try lia; apply gl; auto). destruct (Nat.eqb_spec c i) as [->|Hd]; [|now apply (i_left _ _ I)].
      rewrite (i_left _ _ I p i Hp Hn Hc). rewrite xorb_false_l. apply (i_zero _ _ I); auto.
      intro E. apply cnt_inj in E; auto. lia.
    - intros p c Hp Hn Hc. rewrite nth_cx, getX by (try lia; apply gl; auto). destruct (Nat.eqb_spec c i) as [->|Hd]; [|now apply (i_rest _ _ I)].
      rewrite (i_rest _ _ I p i Hp Hn Hc). rewrite xorb_false_l. apply (i_zero _ _ I); auto.
      intro E. apply cnt_inj in E; auto. lia.
    - intros r c Hr Hc. apply in_map_iff in Hr. destruct Hr as (r0 & <- & Hr). rewrite getX by (auto; now apply (i_sZ _ _ I)).
      rewrite !(i_zx _ _ I r0) by assumption. now destruct (c =? i).
    - intros t c Ht Hc. rewrite nth_cx, getZ by (auto; now apply zl). destruct (Nat.eqb_spec c j) as [->|Hd].
      + rewrite (proj2 (is_pivot_spec _ _) Pj). rewrite nth_cx, getX by (auto; apply L_lt, nth_In; exact Ht).
        rewrite !(i_zz _ _ I) by assumption. rewrite (proj2 (is_pivot_spec _ _) Pj), (proj2 (is_pivot_false _ _) Pi).
        rewrite (Nat.eqb_sym i). destruct (Nat.eqb_spec (nth t L 0) i) as [->|Hd]; [|apply xorb_false_r].
        now rewrite (i_one _ _ I j Pj Hj).
      + rewrite (i_zz _ _ I) by assumption. destruct (is_pivot piv c) eqn:Pc; [|reflexivity]. apply is_pivot_spec in Pc.
        rewrite nth_cx, getX by (try (apply gl; now apply cnt_lt_n); apply L_lt, nth_In; exact Ht).
        destruct (Nat.eqb_spec (nth t L 0) i) as [->|Hd']; [|reflexivity].
        rewrite Xj0; [now rewrite xorb_false_r|now apply cnt_lt_n|]. intro E. apply cnt_inj in E; auto.
    - assert (rx : forall r, In r G -> vget r (j + N) = false -> rowx (cx_row N j i r) <= rowx r).
      { intros r Hr H0. apply filter_le. intros c Hc. apply in_seq in Hc. rewrite getX by (try lia; now apply (i_sG _ _ I)).
        destruct (Nat.eqb_spec c i) as [->|]; [now rewrite H0, xorb_false_r|auto]. }
      assert (rk : rowx (cx_row N j i (nth (cnt piv j) G [])) < rowx (nth (cnt piv j) G [])).
      { apply (filter_lt _ _ _ _ i).
        - intros c Hc. apply in_seq in Hc. rewrite getX by (try lia; now apply gl). destruct (Nat.eqb_spec c i) as [->|]; [|auto]. intros _; exact Xi.
        - apply in_seq. lia.
        - exact Xi.
        - rewrite getX, Nat.eqb_refl by (auto; now apply gl). rewrite Xi, (i_one _ _ I j Pj Hj). reflexivity. }
      apply (sum_lt _ _ _ _ (nth (cnt piv j) G [])); [|now apply nth_In|exact rk].
      intros r Hr. destruct (in_G _ _ _ I Hr) as (k & Hk & ->).
      destruct (Nat.eq_dec k (cnt piv j)) as [->|Hd]; [lia|]. apply rx; [now apply nth_In; rewrite (i_G _ _ I)|now apply Xj0].
  Qed.

  Section Loop.
    Variable K : CoefRing.
    Variable rt : K.
    (** The row t of the matrix comes from the string T0_t. *)
    Definition tracked (T0 : list (list pauli)) (gs : list sgate) (m : list vec) : Prop :=
      length m = length T0 /\
      forall t, t < length m -> carries N (cmat rt N (circuit rt gs)) (nth t T0 []) (check_to_pauli N (nth t m [])).

    Lemma tracked_map T0 gs m g f : (forall r, In r m -> carries N (cmat rt N (written rt g)) (check_to_pauli N r) (check_to_pauli N (f r))) ->
      tracked T0 gs m -> tracked T0 (gs ++ [g]) (map f m).
    Proof.
      intros H (H1 & H2). split; [now rewrite map_length|]. intros t Ht. rewrite map_length in Ht.
      rewrite (nth_indep _ [] (f [])) by (now rewrite map_length). rewrite map_nth.
      eapply carries_snoc; [now apply H2|]. apply H. now apply nth_In.
    Qed.

    Lemma step_tracked T0 gs G Zs i j : inv G Zs -> find_pair N (G ++ Zs) = Some (i, j) -> tracked T0 gs (G ++ Zs) ->
      tracked T0 (gs ++ [SCx j i]) (map (cx_row N j i) (G ++ Zs)).
    Proof.
      intros I F. destruct (pair_shape G Zs i j I F) as (Hi & Hj & Pj & Pi & Hji & Xi).
      assert (KjG : cnt piv j < length G) by (rewrite (i_G _ _ I); now apply cnt_lt_n).
      assert (Xti : xt i = true) by (eapply xt_of; eauto; now apply nth_In).
      assert (Xtj : xt j = true) by (eapply (xt_of _ _ (nth (cnt piv j) G [])); eauto; [now apply nth_In|now apply (i_one _ _ I)]).
      apply tracked_map. intros r Hr. apply in_app_iff in Hr. destruct Hr as [Hr|Hr].
      - apply cx_row_carries; try lia; [now apply (i_sG _ _ I)|]. left. split; now apply (i_gz _ _ I).
      - apply cx_row_carries; try lia; [now apply (i_sZ _ _ I)|]. right. split; now apply (i_zx _ _ I).
    Qed.

    Lemma loop_spec T0 : forall fuel G Zs gs done iters, inv G Zs -> tracked T0 gs (G ++ Zs) ->
      (forall g, In g gs -> sgate_ok N g) -> (done = true -> find_pair N (G ++ Zs) = None) ->
      xcount G + (5 - iters) + (if done then 0 else 1) < fuel ->
      exists G' Zs' gs', xx_loop fuel N (G ++ Zs) gs done iters = Some (G' ++ Zs', gs') /\ inv G' Zs' /\ tracked T0 gs' (G' ++ Zs') /\
        (forall g, In g gs' -> sgate_ok N g) /\ find_pair N (G' ++ Zs') = None.
    Proof.
      induction fuel as [|f IH]; intros G Zs gs done iters I T O D Fu; [lia|]. cbn [xx_loop].
      destruct (negb done || (iters <? 5)) eqn:C.
      - unfold sub_step. destruct (find_pair N (G ++ Zs)) as [[i j]|] eqn:F.
        + rewrite (branch G Zs i j I F). destruct (step_inv G Zs i j I F) as (I' & X'). pose proof (step_tracked T0 gs G Zs i j I F T) as T'.
          destruct (pair_shape G Zs i j I F) as (Hi & Hj & _ & _ & Hji & _).
          rewrite map_app in T' |- *. apply IH; auto.
          * intros g Hg. apply in_app_iff in Hg. destruct Hg as [Hg|[<-|[]]]; [now apply O|]. cbn. lia.
          * discriminate.
          * destruct done; [specialize (D eq_refl); discriminate|]. lia.
        + apply IH; auto. destruct done; [|lia]. cbn [negb orb] in C. apply Nat.ltb_lt in C. lia.
      - apply orb_false_iff in C. destruct C as (C1 & C2). apply negb_false_iff in C1. exists G, Zs, gs. split; [reflexivity|]. auto.
    Qed.

    (** At the end every qubit has only I and X, or only I and Z. *)
    Lemma end_letters G Zs : inv G Zs -> find_pair N (G ++ Zs) = None ->
      forall q, q < N -> (forall r, In r (G ++ Zs) -> vget r q = false) \/ (forall r, In r (G ++ Zs) -> vget r (q + N) = false).
    Proof.
      intros I F q Hq. pose proof (find_pair_spec N (G ++ Zs)) as H. rewrite F in H.
      assert (one : forall r a b, In r (G ++ Zs) -> a < N -> b < N -> a <> b -> vget r (a + N) = true -> vget r (b + N) = false).
      { intros r a b Hr Ha Hb Hd Xa. destruct (lt_eq_lt_dec a b) as [[C|C]|C]; [|lia|now apply (H r a b)].
        destruct (vget r (b + N)) eqn:Xb; [|reflexivity]. rewrite (H r b a Hr Hb C Xb) in Xa. discriminate. }
      destruct (is_pivot piv q) eqn:P.
      - left. apply is_pivot_spec in P. assert (Kq : cnt piv q < length G) by (rewrite (i_G _ _ I); now apply cnt_lt_n).
        assert (Rq : In (nth (cnt piv q) G []) (G ++ Zs)) by (apply in_app_iff; left; now apply nth_In).
        intros r Hr. apply in_app_iff in Hr. destruct Hr as [Hr|Hr].
        + apply (i_gz _ _ I); auto. eapply (xt_of _ _ (nth (cnt piv q) G [])); eauto; [now apply nth_In|now apply (i_one _ _ I)].
        + destruct (in_Z _ _ _ I Hr) as (t & Ht & ->). rewrite (i_zz _ _ I) by assumption.
          rewrite (proj2 (is_pivot_spec _ _) P). apply (one _ q); auto; [apply L_lt; now apply nth_In| |now apply (i_one _ _ I)].
          intros ->. apply (L_np (nth t L 0)); [now apply nth_In|exact P].
      - right. apply is_pivot_false in P. intros r Hr. pose proof Hr as Hr'. apply in_app_iff in Hr. destruct Hr as [Hr|Hr]; [|now apply (i_zx _ _ I)].
        destruct (in_G _ _ _ I Hr) as (k & Hk & ->). destruct (surj k Hk) as (p & Hp & <-).
        destruct (le_lt_dec N p) as [Hn|Hn]; [now apply (i_rest _ _ I)|].
        apply (one _ p); auto; [congruence|now apply (i_one _ _ I)].
    Qed.
  End Loop.
End Inv.
Arguments tracked N {K}.
