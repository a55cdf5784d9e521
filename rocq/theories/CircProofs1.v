(** Proofs about the explicit matrices of the Circ class: entries, products, permutations. *)
From Coq Require Import Bool List Arith ZArith Lia Ring.
From Verif Require Import Coeff MatSpec MatLemmas KronLemmas CircuitSpec FockSpec CircModel CircSpec2.
Import ListNotations.

(** * Basis states *)
Lemma bits_ext (r c : bits) : length r = length c -> (forall k, k < length r -> nth k r false = nth k c false) -> r = c.
Proof. intros L H. apply (nth_ext _ _ false false); assumption. Qed.
Lemma upd_length {A} j (b : A) l : length (upd j b l) = length l.
Proof. revert j. induction l as [|x l IH]; intros [|j]; cbn; try reflexivity. now rewrite IH. Qed.
Lemma nth_upd j b (l : bits) k : k < length l -> nth k (upd j b l) false = if j =? k then b else nth k l false.
Proof.
  revert j k. induction l as [|x l IH]; intros [|j] [|k] H; cbn in *; try lia; try reflexivity. apply IH. lia.
Qed.
Lemma bits_eqb_neq r c : bits_eqb r c = false <-> r <> c.
Proof.
  split.
  - intros H ->. rewrite bits_eqb_refl in H. discriminate.
  - intro H. destruct (bits_eqb r c) eqn:E; [|reflexivity]. apply bits_eqb_spec in E. contradiction.
Qed.

Lemma agree_spec n qs r c : agree_off n qs r c = true <->
  forall k, k < n -> ~ In k qs -> nth k r false = nth k c false.
Proof.
  unfold agree_off. rewrite forallb_forall. split.
  - intros H k Hk Hn. specialize (H k). rewrite in_seq in H. specialize (H ltac:(lia)).
    apply orb_true_iff in H. destruct H as [H | H].
    + apply existsb_exists in H. destruct H as [x [Hx E]]. apply Nat.eqb_eq in E. subst x. contradiction.
    + now apply eqb_prop in H.
  - intros H k Hk. apply in_seq in Hk. destruct (existsb (Nat.eqb k) qs) eqn:E; [reflexivity|]. cbn.
    rewrite (H k); [apply eqb_reflx|lia|]. intro G.
    assert (X : existsb (Nat.eqb k) qs = true) by (apply existsb_exists; exists k; split; [exact G|apply Nat.eqb_refl]).
    rewrite X in E. discriminate.
Qed.
(** Equality of booleans from equivalence. *)
Lemma bool_iff (a b : bool) : (a = true <-> b = true) -> a = b.
Proof. destruct a, b; intuition congruence. Qed.

Lemma agree_nil n r c : length r = n -> length c = n -> agree_off n [] r c = bits_eqb r c.
Proof.
  intros Hr Hc. apply bool_iff. rewrite agree_spec, bits_eqb_spec. split.
  - intro H. apply bits_ext; [lia|]. intros k Hk. apply H; [lia|intros []].
  - intros ->. reflexivity.
Qed.
Lemma agree_cons n i qs r c : i < n -> ~ In i qs ->
  agree_off n qs r c = agree_off n (i :: qs) r c && Bool.eqb (nth i r false) (nth i c false).
Proof.
  intros Hi Hn. apply bool_iff. rewrite andb_true_iff, !agree_spec, eqb_true_iff. split.
  - intro H. split; [|apply H; assumption]. intros k Hk G. apply H; [exact Hk|]. intro X. apply G. now right.
  - intros [H E] k Hk G. destruct (Nat.eq_dec k i) as [-> | D]; [exact E|]. apply H; [exact Hk|]. intros [X | X]; [congruence|contradiction].
Qed.
Lemma agree_comm n i j r c : agree_off n [i; j] r c = agree_off n [j; i] r c.
Proof.
  apply bool_iff. rewrite !agree_spec. split; intros H k Hk G; apply H; auto; cbn in *; tauto.
Qed.
Lemma agree_upd_l n qs j b r c : length r = n -> In j qs -> agree_off n qs (upd j b r) c = agree_off n qs r c.
Proof.
  intros Hr Hin. apply bool_iff. rewrite !agree_spec. split; intros H k Hk G.
  - rewrite <- (H k Hk G). rewrite nth_upd by lia. destruct (Nat.eqb_spec j k); [subst; contradiction|reflexivity].
  - rewrite nth_upd by lia. destruct (Nat.eqb_spec j k); [subst; contradiction|auto].
Qed.
Lemma same_but_agree n j k l : length k = n -> length l = n -> j < n -> same_but j k l = agree_off n [j] k l.
Proof.
  intros Hk Hl Hj. apply bool_iff. unfold same_but. rewrite andb_true_iff, agree_spec, !bits_eqb_spec. split.
  - intros [F G] q Hq Hn. destruct (Nat.lt_ge_cases q j) as [L | L].
    + transitivity (nth q (firstn j k) false); [|rewrite F].
      * rewrite <- (firstn_skipn j k) at 1. rewrite app_nth1; [reflexivity|rewrite firstn_length; lia].
      * rewrite <- (firstn_skipn j l) at 2. rewrite app_nth1; [reflexivity|rewrite firstn_length; lia].
    + assert (q <> j) by (intros ->; apply Hn; now left).
      assert (Q : forall x : bits, length x = n -> nth q x false = nth (q - S j) (skipn (S j) x) false).
      { intros x Hx. rewrite <- (firstn_skipn (S j) x) at 1. rewrite app_nth2; rewrite firstn_length; [f_equal; lia|lia]. }
      rewrite (Q k Hk), (Q l Hl), G. reflexivity.
  - intro H. split.
    + apply bits_ext; [rewrite !firstn_length; lia|]. intros q Hq. rewrite firstn_length in Hq.
      assert (Q : forall x : bits, length x = n -> nth q (firstn j x) false = nth q x false).
      { intros x Hx. rewrite <- (firstn_skipn j x) at 2. rewrite app_nth1; [reflexivity|rewrite firstn_length; lia]. }
      rewrite (Q k Hk), (Q l Hl). apply H; [lia|]. intros [X | []]. lia.
    + apply bits_ext; [rewrite !skipn_length; lia|]. intros q Hq. rewrite skipn_length in Hq.
      assert (Q : forall x : bits, length x = n -> nth q (skipn (S j) x) false = nth (S j + q) x false).
      { intros x Hx. rewrite <- (firstn_skipn (S j) x) at 2. rewrite app_nth2; rewrite firstn_length; [f_equal; lia|lia]. }
      rewrite (Q k Hk), (Q l Hl). apply H; [lia|]. intros [X | []]. lia.
Qed.

Section Entries.
  Variable K : CoefRing.
  Add Ring KRing : (c_ring K).
  Local Open Scope coef_scope.

  (** * One qubit *)
  Lemma kron_app ms ms' r c : length r = length c -> (length ms <= length r)%nat ->
    @kron K (ms ++ ms') r c = kron ms (firstn (length ms) r) (firstn (length ms) c) * kron ms' (skipn (length ms) r) (skipn (length ms) c).
  Proof.
    revert r c. induction ms as [|m ms IH]; intros r c L H; cbn [length] in *.
    - cbn. ring.
    - destruct r as [|a r], c as [|b c]; cbn in L, H; try lia. cbn. rewrite IH by lia. ring.
  Qed.
  Lemma skipn_last (r : bits) w : length r = S w -> skipn w r = [nth w r false].
  Proof.
    revert w. induction r as [|x r IH]; intros [|w] H; cbn in H; try lia.
    - destruct r; [reflexivity|cbn in H; lia].
    - cbn [skipn nth]. apply IH. lia.
  Qed.
  Lemma np_kron_spec w ms (A : mat K) g : length ms = w -> meq w A (kron ms) -> meq (S w) (np_kron w A g) (kron (ms ++ [g])).
  Proof.
    intros L H r c Hr Hc. rewrite kron_app by lia. rewrite L, !skipn_last by assumption. unfold np_kron, bit. cbn [kron].
    rewrite H by (rewrite firstn_length; lia). ring.
  Qed.
  Lemma np_fold k : forall w ms (A : mat K), length ms = w -> meq w A (kron ms) ->
    meq (w + k) (fold_left (fun t j => np_kron j t np_id2) (seq w k) A) (kron (ms ++ repeat (pauli1 PI) k)).
  Proof.
    induction k as [|k IH]; intros w ms A L H; cbn [seq fold_left repeat].
    - rewrite Nat.add_0_r, app_nil_r. exact H.
    - replace (w + S k)%nat with (S w + k)%nat by lia.
      replace (ms ++ pauli1 PI :: repeat (pauli1 PI) k) with ((ms ++ [pauli1 PI]) ++ repeat (@pauli1 K PI) k) by (rewrite <- app_assoc; reflexivity).
      apply IH; [rewrite app_length; cbn; lia|].
      eapply meq_trans; [apply (np_kron_spec w ms); eassumption|]. intros r c _ _. apply kron_eqk. apply eqk_app; [apply eqk_refl|].
      constructor; [|constructor]. intros a b. destruct a, b; reflexivity.
  Qed.
  Lemma sqg_full_spec n i (g : mat2 K) : (i < n)%nat -> meq n (sqg_full n i g) (at1 n i g).
  Proof.
    intro H. unfold sqg_full, at1.
    assert (A0 : meq i (fold_left (fun t j => np_kron j t np_id2) (seq 0 i) (@np_one K)) (kron (repeat (pauli1 PI) i))).
    { apply (np_fold i 0 [] np_one eq_refl). intros r c Hr Hc. destruct r, c; try discriminate. reflexivity. }
    pose proof (np_fold (n - S i) (S i) (repeat (pauli1 PI) i ++ [g]) _ ltac:(rewrite app_length, repeat_length; cbn; lia)
                  (np_kron_spec i (repeat (pauli1 PI) i) _ g (repeat_length _ _) A0)) as M.
    replace (S i + (n - S i))%nat with n in M by lia. rewrite <- app_assoc in M. cbn [app] in M.
    replace (n - i - 1)%nat with (n - S i)%nat by lia. exact M.
  Qed.

  Lemma at1_entry n q (g : mat2 K) r c : length r = n -> length c = n -> (q < n)%nat ->
    at1 n q g r c = if agree_off n [q] r c then g (nth q r false) (nth q c false) else 0.
  Proof.
    intros Hr Hc Hq. rewrite <- (same_but_agree n q r c Hr Hc Hq). unfold at1.
    rewrite kron_app by (rewrite ?repeat_length; lia). rewrite repeat_length.
    rewrite kron_one by (rewrite firstn_length; lia).
    assert (Q : forall x : bits, (q < length x)%nat -> skipn q x = nth q x false :: skipn (S q) x).
    { clear. induction q as [|q IH]; intros [|a x] H; cbn in H; try lia; [reflexivity|]. cbn [skipn nth]. rewrite IH by lia. reflexivity. }
    rewrite (Q r), (Q c) by lia. cbn [kron].
    replace (n - q - 1)%nat with (length (skipn (S q) r)) by (rewrite skipn_length; lia).
    rewrite kron_one by (rewrite ?skipn_length; lia).
    unfold mone, same_but. destruct (bits_eqb (firstn q r) (firstn q c)), (bits_eqb (skipn (S q) r) (skipn (S q) c)); cbn; ring.
  Qed.

  (** * Sums over one or two qubits *)
  Lemma pair_cases n i j (r m : bits) : length r = n -> length m = n -> (i < n)%nat -> (j < n)%nat -> i <> j ->
    agree_off n [i; j] r m = true -> m = upd i (nth i m false) (upd j (nth j m false) r).
  Proof.
    intros Hr Hm Hi Hj D H. apply bits_ext; [rewrite !upd_length; lia|]. intros k Hk. rewrite agree_spec in H.
    rewrite nth_upd by (rewrite upd_length; lia). destruct (Nat.eqb_spec i k) as [-> | Di]; [reflexivity|].
    rewrite nth_upd by lia. destruct (Nat.eqb_spec j k) as [-> | Dj]; [reflexivity|].
    symmetry. apply H; [lia|]. intros [X | [X | []]]; congruence.
  Qed.
  Lemma sum_pick1 n m (f : bits -> K) : length m = n -> sumbits n (fun k => if bits_eqb k m then f k else 0) = f m.
  Proof.
    intro H. apply sumbits_pick. exact H.
  Qed.
  Lemma upd2_inj n i j (r : bits) a b a' b' : length r = n -> (i < n)%nat -> (j < n)%nat -> i <> j ->
    upd i a (upd j b r) = upd i a' (upd j b' r) -> a = a' /\ b = b'.
  Proof.
    intros Hr Hi Hj D E. split.
    - apply (f_equal (fun l => nth i l false)) in E. rewrite !nth_upd, Nat.eqb_refl in E by (rewrite ?upd_length; lia). exact E.
    - apply (f_equal (fun l => nth j l false)) in E. rewrite !nth_upd in E by (rewrite ?upd_length; lia).
      rewrite Nat.eqb_refl in E. destruct (Nat.eqb_spec i j); [contradiction|exact E].
  Qed.
  Lemma sum_pair n i j (r : bits) (f : bits -> K) : length r = n -> (i < n)%nat -> (j < n)%nat -> i <> j ->
    sumbits n (fun m => if agree_off n [i; j] r m then f m else 0)
    = f (upd i false (upd j false r)) + f (upd i false (upd j true r)) + f (upd i true (upd j false r)) + f (upd i true (upd j true r)).
  Proof.
    intros Hr Hi Hj D.
    rewrite (sumbits_ext K n _ (fun m =>
      (if bits_eqb m (upd i false (upd j false r)) then f m else 0) + (if bits_eqb m (upd i false (upd j true r)) then f m else 0)
      + (if bits_eqb m (upd i true (upd j false r)) then f m else 0) + (if bits_eqb m (upd i true (upd j true r)) then f m else 0))).
    - rewrite !sumbits_add, !sum_pick1 by (rewrite !upd_length; assumption). reflexivity.
    - intros m Hm. destruct (agree_off n [i; j] r m) eqn:E.
      + apply (pair_cases n i j r m Hr Hm Hi Hj D) in E.
        assert (Q : forall a b, bits_eqb m (upd i a (upd j b r)) = Bool.eqb (nth i m false) a && Bool.eqb (nth j m false) b).
        { intros a b. apply bool_iff. rewrite bits_eqb_spec, andb_true_iff, !eqb_true_iff. split.
          - intro X. rewrite X in E at 1. apply (upd2_inj n i j r) in E; auto. destruct E as [E1 E2]. auto.
          - intros [<- <-]. exact E. }
        rewrite !Q. destruct (nth i m false), (nth j m false); cbn; ring.
      + assert (Q : forall a b, bits_eqb m (upd i a (upd j b r)) = false).
        { intros a b. apply bits_eqb_neq. intros ->. revert E. apply not_false_iff_true. apply agree_spec. intros k Hk G.
          rewrite nth_upd by (rewrite upd_length; lia). destruct (Nat.eqb_spec i k) as [-> | Di]; [exfalso; apply G; now left|].
          rewrite nth_upd by lia. destruct (Nat.eqb_spec j k) as [-> | Dj]; [exfalso; apply G; right; now left|]. reflexivity. }
        rewrite !Q. ring.
  Qed.

  (** * Two-qubit matrices *)
  Definition mul4 (U V : mat4 K) : mat4 K := fun a b c d =>
    U a b false false * V false false c d + U a b false true * V false true c d
    + U a b true false * V true false c d + U a b true true * V true true c d.
  Lemma at2_mul n i j (U V : mat4 K) : (i < n)%nat -> (j < n)%nat -> i <> j ->
    meq n (mmul n (at2 n i j U) (at2 n i j V)) (at2 n i j (mul4 U V)).
  Proof.
    intros Hi Hj D r c Hr Hc. unfold mmul.
    rewrite (sumbits_ext K n _ (fun m => if agree_off n [i; j] r m then
        U (nth i r false) (nth j r false) (nth i m false) (nth j m false) * at2 n i j V m c else 0)).
    2:{ intros m Hm. unfold at2 at 1. destruct (agree_off n [i; j] r m); ring. }
    rewrite (sum_pair n i j r) by assumption. unfold at2, mul4.
    rewrite !agree_upd_l by (rewrite ?upd_length; cbn; auto).
    rewrite !nth_upd by (rewrite ?upd_length; lia). rewrite !Nat.eqb_refl.
    destruct (Nat.eqb_spec i j) as [X | _]; [contradiction|].
    destruct (agree_off n [i; j] r c); ring.
  Qed.
  Definition eq4 (U V : mat4 K) : Prop := forall a b c d, U a b c d = V a b c d.
  Lemma at2_ext n i j (U V : mat4 K) : eq4 U V -> meq n (at2 n i j U) (at2 n i j V).
  Proof. intros H r c _ _. unfold at2. rewrite H. reflexivity. Qed.
  (** g on the second, on the first qubit. *)
  Definition on_j (g : mat2 K) : mat4 K := fun a b c d => if Bool.eqb a c then g b d else 0.
  Definition on_i (g : mat2 K) : mat4 K := fun a b c d => if Bool.eqb b d then g a c else 0.
  Lemma at1_at2_j n i j (g : mat2 K) : (i < n)%nat -> (j < n)%nat -> i <> j -> meq n (at1 n j g) (at2 n i j (on_j g)).
  Proof.
    intros Hi Hj D r c Hr Hc. rewrite at1_entry by assumption. unfold at2, on_j.
    rewrite (agree_cons n i [j]) by (auto; intros [X | []]; congruence).
    destruct (agree_off n [i; j] r c), (Bool.eqb (nth i r false) (nth i c false)); reflexivity.
  Qed.
  Lemma at1_at2_i n i j (g : mat2 K) : (i < n)%nat -> (j < n)%nat -> i <> j -> meq n (at1 n i g) (at2 n i j (on_i g)).
  Proof.
    intros Hi Hj D r c Hr Hc. rewrite at1_entry by assumption. unfold at2, on_i. rewrite agree_comm.
    rewrite (agree_cons n j [i]) by (auto; intros [X | []]; congruence).
    destruct (agree_off n [j; i] r c), (Bool.eqb (nth j r false) (nth j c false)); reflexivity.
  Qed.

  (** * Controlled flips *)
  Lemma delta_agree n i j r c : length r = n -> length c = n -> (i < n)%nat -> (j < n)%nat -> i <> j ->
    bits_eqb r c = agree_off n [i; j] r c && Bool.eqb (nth i r false) (nth i c false) && Bool.eqb (nth j r false) (nth j c false).
  Proof.
    intros Hr Hc Hi Hj D. rewrite <- (agree_nil n r c Hr Hc). rewrite (agree_cons n j []) by (auto).
    rewrite (agree_cons n i [j]) by (auto; intros [X | []]; congruence). reflexivity.
  Qed.
  Lemma hold_at2 n i j : (i < n)%nat -> (j < n)%nat -> i <> j -> meq n (@hold K [i] j) (at2 n i j (ctrl (pauli1 PX))).
  Proof.
    intros Hi Hj D r c Hr Hc. unfold hold, at2. cbn [forallb]. rewrite andb_true_r.
    rewrite (same_but_agree n j r c Hr Hc Hj), (delta_agree n i j r c Hr Hc Hi Hj D).
    rewrite (agree_cons n i [j]) by (auto; intros [X | []]; congruence).
    unfold bit, flip_entry, bit, ctrl. destruct (agree_off n [i; j] r c), (nth i r false), (nth i c false), (nth j r false), (nth j c false); reflexivity.
  Qed.
  (** The second qubit controls the first. *)
  Definition ctrl_ji : mat4 K := fun a b c d => ctrl (pauli1 PX) b a d c.
  Lemma hold_at2' n i j : (i < n)%nat -> (j < n)%nat -> i <> j -> meq n (@hold K [j] i) (at2 n i j ctrl_ji).
  Proof.
    intros Hi Hj D r c Hr Hc. rewrite (hold_at2 n j i Hj Hi (not_eq_sym D) r c Hr Hc). unfold at2. rewrite agree_comm. reflexivity.
  Qed.
  Lemma hold_perm n cs j : (j < n)%nat -> ~ In j cs -> meq n (@hold K cs j) (perm_mat (flip_if cs j)).
  Proof.
    intros Hj Hn r c Hr Hc. unfold hold, perm_mat, flip_if. rewrite (same_but_agree n j r c Hr Hc Hj).
    assert (Q : agree_off n [j] r c = true -> forallb (bit r) cs = forallb (fun i => nth i c false) cs).
    { intro A. rewrite agree_spec in A. clear -A Hn Hr Hc. induction cs as [|i cs IH]; [reflexivity|]. cbn [forallb].
      rewrite IH by (intro X; apply Hn; now right). f_equal. unfold bit.
      destruct (Nat.lt_ge_cases i n) as [L | L]; [|rewrite !nth_overflow by lia; reflexivity].
      apply A; [exact L|]. intros [X | []]. apply Hn. left. congruence. }
    destruct (agree_off n [j] r c) eqn:A.
    - rewrite <- (Q eq_refl). destruct (forallb (bit r) cs) eqn:F; cbn [andb]; [|reflexivity].
      rewrite agree_spec in A. unfold flip_entry, bit.
      assert (E : bits_eqb r (upd j (negb (nth j c false)) c) = Bool.eqb (nth j r false) (negb (nth j c false))).
      { apply bool_iff. rewrite bits_eqb_spec, eqb_true_iff. split.
        - intros ->. rewrite nth_upd, Nat.eqb_refl by lia. reflexivity.
        - intro E. apply bits_ext; [rewrite upd_length; lia|]. intros k Hk. rewrite nth_upd by lia.
          destruct (Nat.eqb_spec j k) as [-> | Dj]; [exact E|]. apply A; [lia|]. intros [X | []]. congruence. }
      rewrite E. destruct (nth j r false), (nth j c false); reflexivity.
    - rewrite andb_false_r.
      assert (E : bits_eqb r c = false).
      { apply bits_eqb_neq. intros ->. revert A. apply not_false_iff_true. apply agree_spec. reflexivity. }
      rewrite E. destruct (forallb (fun i => nth i c false) cs); [|now rewrite E].
      assert (E' : bits_eqb r (upd j (negb (nth j c false)) c) = false).
      { apply bits_eqb_neq. intros ->. revert A. apply not_false_iff_true. rewrite agree_upd_l by (auto; now left). apply agree_spec. reflexivity. }
      rewrite E'. reflexivity.
  Qed.
  Lemma perm_mul n (f g : bits -> bits) : (forall b, length b = n -> length (g b) = n) ->
    meq n (mmul n (perm_mat f) (perm_mat g)) (@perm_mat K (fun b => f (g b))).
  Proof.
    intros L r c Hr Hc. unfold mmul, perm_mat.
    rewrite (sumbits_ext K n _ (fun k => if bits_eqb k (g c) then (if bits_eqb r (f k) then 1 else 0) else 0)).
    - apply sum_pick1. auto.
    - intros k Hk. destruct (bits_eqb k (g c)); ring.
  Qed.
  Lemma perm_ext n (f g : bits -> bits) : (forall b, length b = n -> f b = g b) -> meq n (@perm_mat K f) (perm_mat g).
  Proof. intros H r c _ Hc. unfold perm_mat. rewrite H by assumption. reflexivity. Qed.
End Entries.
