(** Proofs about build_2rdm: the whole array. *)
From Coq Require Import Bool List Arith ZArith Lia Ring.
From Verif Require Import Coeff MatSpec MatLemmas OpSpec FockSpec CircuitSpec FermiModel FermiProofs RdmSpec RdmFock RdmEnum RdmBuild InvModel IntsModel W2Model W2Proofs W2Proofs2.
Import ListNotations.
Local Open Scope nat_scope.

Lemma has_app a b x : has (a ++ b) x = has a x || has b x.
Proof. unfold has. apply existsb_app. Qed.
Lemma cover_split A B p : (forall x, In x A -> In x B -> False) ->
  covered A B p = both A p || both B p || cross A B p /\ (both A p && both B p = false) /\ ((both A p || both B p) && cross A B p = false).
Proof.
  intro D. destruct p as [[[a b] c] d].
  assert (X : forall x, has A x && has B x = false).
  { intro x. destruct (has A x) eqn:E1, (has B x) eqn:E2; try reflexivity. exfalso. apply (D x); now apply has_In. }
  assert (E : forall x y, Nat.eqb x y = true -> has A x = has A y /\ has B x = has B y) by (intros x y H; apply Nat.eqb_eq in H; now subst).
  unfold covered, both, cross. cbn [forallb filter]. rewrite !has_app.
  pose proof (X a) as Xa. pose proof (X b) as Xb. pose proof (X c) as Xc. pose proof (X d) as Xd.
  pose proof (E a b) as Eab. pose proof (E c d) as Ecd. clear X E D.
  destruct (Nat.eqb a b); [destruct (Eab eq_refl) as [<- <-]|]; (destruct (Nat.eqb c d); [destruct (Ecd eq_refl) as [<- <-]|]); clear Eab Ecd;
    destruct (has A a), (has B a); try discriminate; destruct (has A b), (has B b); try discriminate;
    destruct (has A c), (has B c); try discriminate; destruct (has A d), (has B d); try discriminate; vm_compute; auto.
Qed.

Section W3.
  Variable K : CoefRing.
  Add Ring KRing : (c_ring K).
  Local Open Scope coef_scope.
  Notation array4 := (nat -> nat -> nat -> nat -> K).
  Variables (R : nat) (wf : wavefunction K).
  Hypothesis keys : NoDup (map fst wf).
  Hypothesis lens : forall d v, In (d, v) wf -> length d = R.
  Notation psi := (psi_of K wf).
  Variables alpha beta : groups.
  Let A := g_inactive alpha ++ g_active alpha.
  Let B := g_inactive beta ++ g_active beta.
  Hypothesis nodup : NoDup (A ++ B).
  Hypothesis range : Forall (fun x => x < R)%nat (A ++ B).

  Lemma disjoint : forall x, In x A -> In x B -> False.
  Proof. intros x Ha Hb. apply in_split in Ha as (l1 & l2 & E). clear range. rewrite E in nodup. rewrite <- app_assoc in nodup. apply NoDup_remove_2 in nodup. apply nodup. rewrite !in_app_iff. auto. Qed.
  Lemma nodupA : NoDup A. Proof. clear range. induction A as [|x l IH]; [constructor|]. inversion nodup; subst. constructor; [intro H; apply H1; apply in_or_app; auto|apply IH; assumption]. Qed.
  Lemma nodupB : NoDup B. Proof. clear range. induction A as [|x l IH]; [assumption|]. inversion nodup; subst. apply IH. assumption. Qed.
  Lemma in_range x : In x A \/ In x B -> (x < R)%nat.
  Proof. intro H. rewrite Forall_forall in range. apply range. apply in_or_app. exact H. Qed.
  Lemma same_inside o : (o = A \/ o = B) -> Forall (inside R) (same_spin o) /\ Forall distinct (same_spin o).
  Proof.
    intro Ho. split; apply Forall_forall; intros [[[i k] l] j] H; apply in_same in H as (H1 & H2 & H3 & H4 & L1 & L2).
    - unfold inside. repeat split; apply in_range; destruct Ho; subst; auto.
    - unfold distinct. lia.
  Qed.
  Lemma mixed_inside : Forall (inside R) (mixed_spin A B) /\ Forall distinct (mixed_spin A B).
  Proof.
    split; apply Forall_forall; intros [[[i k] l] j] H; apply in_mixed in H as (H1 & H2 & H3 & H4).
    - unfold inside. repeat split; apply in_range; auto.
    - unfold distinct. split; intro E; [rewrite E in H1; exact (disjoint k H1 H2)|rewrite <- E in H4; exact (disjoint l H4 H3)].
  Qed.
  Definition norb : nat :=
    (length (g_inactive alpha ++ g_virtual alpha ++ g_active alpha) + length (g_virtual beta ++ g_inactive beta ++ g_active beta))%nat.
  Lemma build_full given : Forall (fun x => x < norb)%nat (A ++ B) ->
    exists t, build_2rdm wf alpha beta Full given = Some (norb, t) /\ forall p, at4 t p = if covered A B p then elem K R psi p else 0.
  Proof.
    intro Hn. unfold build_2rdm. fold norb. fold A B.
    replace (forallb (fun x => x <? norb)%nat (A ++ B)) with true by (symmetry; apply forallb_forall; intros x Hx; apply Nat.ltb_lt; rewrite Forall_forall in Hn; auto).
    destruct (fold_full K R wf keys lens (g_inactive alpha) (same_spin A) (fun _ _ _ _ => 0)) as (t1 & E1 & P1); [apply same_inside; auto|apply same_inside; auto|].
    destruct (fold_full K R wf keys lens (g_inactive beta) (same_spin B) t1) as (t2 & E2 & P2); [apply same_inside; auto|apply same_inside; auto|].
    destruct (fold_full K R wf keys lens (g_inactive alpha ++ g_inactive beta) (mixed_spin A B) t2) as (t3 & E3 & P3); [apply mixed_inside|apply mixed_inside|].
    exists t3. rewrite E1, E2, E3. split; [reflexivity|]. intro p. rewrite P3, P2, P1.
    rewrite (lsum_once K (fun q => touches q p)), (lsum_once K (fun q => touches q p)), (lsum_once K (fun q => touches q p)).
    - rewrite !same_touched, mixed_touched. destruct (cover_split A B p disjoint) as (-> & X1 & X2). destruct p as [[[a b] c] d]. unfold at4.
      destruct (both A (a, b, c, d)), (both B (a, b, c, d)), (cross A B (a, b, c, d)); try discriminate; cbn [orb]; ring.
    - apply mixed_nodup; [apply nodupA|apply nodupB].
    - intros q q'. apply mixed_unique. exact disjoint.
    - apply same_nodup, nodupB.
    - intros q q'. apply same_unique.
    - apply same_nodup, nodupA.
    - intros q q'. apply same_unique.
  Qed.

  (** The entries that keep their value in the active region: all four orbitals inactive. *)
  Definition frozen (p : nat * nat * nat * nat) : bool := let '(a, b, c, d) := p in forallb (has (g_inactive alpha ++ g_inactive beta)) [a; b; c; d].
  Lemma all_in_touch o i k l j a b c d : touches (i, k, l, j) (a, b, c, d) = true -> all_in o (i, k, l, j) = forallb (has o) [a; b; c; d].
  Proof.
    rewrite touches_true. unfold all_in. cbn [forallb]. fold (has o i) (has o j) (has o k) (has o l).
    intros [[[-> ->]|[-> ->]] [[-> ->]|[-> ->]]]; destruct (has o i), (has o j), (has o k), (has o l); reflexivity.
  Qed.
  Lemma active_touched o Q p : existsb (fun q => negb (all_in o q) && touches q p) Q = existsb (fun q => touches q p) Q && negb (let '(a, b, c, d) := p in forallb (has o) [a; b; c; d]).
  Proof.
    destruct p as [[[a b] c] d]. induction Q as [|[[[i k] l] j] Q IH]; [reflexivity|]. cbn [existsb]. rewrite IH.
    destruct (touches (i, k, l, j) (a, b, c, d)) eqn:T; [rewrite (all_in_touch o _ _ _ _ _ _ _ _ T)|].
    - destruct (forallb (has o) [a; b; c; d]); cbn [negb andb orb]; rewrite ?andb_false_r, ?andb_true_r; reflexivity.
    - rewrite andb_false_r. reflexivity.
  Qed.
  Lemma frozen_block o o' p : (o = A /\ o' = g_inactive alpha \/ o = B /\ o' = g_inactive beta) -> both o p = true ->
    (let '(a, b, c, d) := p in forallb (has o') [a; b; c; d]) = frozen p.
  Proof.
    intros Ho H. destruct p as [[[a b] c] d]. unfold frozen. unfold both in H. rewrite !andb_true_iff in H. destruct H as [_ H]. cbn [forallb] in *. rewrite !andb_true_iff, !has_In in H.
    assert (E : forall x, In x o -> has o' x = has (g_inactive alpha ++ g_inactive beta) x).
    { intros x Hx. rewrite has_app. destruct Ho as [[-> ->]|[-> ->]].
      - destruct (has (g_inactive beta) x) eqn:F; [|now rewrite orb_false_r]. exfalso. apply has_In in F. apply (disjoint x Hx). unfold B. apply in_or_app. auto.
      - destruct (has (g_inactive alpha) x) eqn:F; [|reflexivity]. exfalso. apply has_In in F. apply (disjoint x); [|exact Hx]. unfold A. apply in_or_app. auto. }
    destruct H as (Ha & Hb & Hc & Hd & _). rewrite !E by assumption. reflexivity.
  Qed.
  Lemma build_active N t0 : Forall (fun x => x < N)%nat (A ++ B) ->
    exists t, build_2rdm wf alpha beta Active (Some (N, t0)) = Some (N, t) /\
      forall p, at4 t p = if covered A B p && negb (frozen p) then elem K R psi p else at4 t0 p.
  Proof.
    intro Hn. unfold build_2rdm. fold A B.
    replace (forallb (fun x => x <? N)%nat (A ++ B)) with true by (symmetry; apply forallb_forall; intros x Hx; apply Nat.ltb_lt; rewrite Forall_forall in Hn; auto).
    destruct (fold_active K R wf keys lens (g_inactive alpha) (same_spin A) t0) as (t1 & E1 & P1); [apply same_inside; auto|apply same_inside; auto|].
    destruct (fold_active K R wf keys lens (g_inactive beta) (same_spin B) t1) as (t2 & E2 & P2); [apply same_inside; auto|apply same_inside; auto|].
    destruct (fold_active K R wf keys lens (g_inactive alpha ++ g_inactive beta) (mixed_spin A B) t2) as (t3 & E3 & P3); [apply mixed_inside|apply mixed_inside|].
    exists t3. rewrite E1, E2, E3. split; [reflexivity|]. intro p. rewrite P3, P2, P1, !active_touched, !same_touched, mixed_touched.
    destruct (cover_split A B p disjoint) as (-> & X1 & X2).
    assert (FA := frozen_block A (g_inactive alpha) p (or_introl (conj eq_refl eq_refl))).
    assert (FB := frozen_block B (g_inactive beta) p (or_intror (conj eq_refl eq_refl))).
    change (let '(a, b, c, d) := p in forallb (has (g_inactive alpha ++ g_inactive beta)) [a; b; c; d]) with (frozen p).
    destruct (both A p), (both B p), (cross A B p); try discriminate; rewrite ?FA, ?FB by reflexivity; cbn [orb andb]; destruct (frozen p); reflexivity.
  Qed.

  (** States in which the other orbitals are empty and the number of alpha electrons is definite. *)
  Lemma elem_empty v c a : (forall x, length x = R -> nth v x false = true -> psi x = 0) -> In v a -> rdm_of R psi c a = 0.
  Proof.
    intros H Hv. unfold rdm_of. rewrite expect_reach. transitivity (sumbits R (fun _ => (0:K))); [|apply sumbits_0]. apply sumbits_ext. intros x Hx.
    destruct (nth v x false) eqn:E; [rewrite (H x Hx E); ring|].
    unfold reach. destruct (fock (rdm_letters c a) x) as [[s m]|] eqn:F; [|ring]. exfalso.
    rewrite letters_eq, fock_app in F. destruct (fock (anns (rev a)) x) as [[s1 m1]|] eqn:F1; [|discriminate F].
    pose proof (anns_count (Nat.eqb v) (rev a) x s1 m1 F1) as C.
    assert (Z : pcnt (Nat.eqb v) 0 x = 0%nat).
    { clear -E. enough (G : forall i, (i <= v)%nat -> nth (v - i) x false = false -> pcnt (Nat.eqb v) i x = 0%nat) by (apply G; [lia|now rewrite Nat.sub_0_r]).
      clear E. induction x as [|b x IH]; intros i Hi G; [reflexivity|]. cbn [pcnt]. destruct (Nat.eqb_spec v i) as [->|N].
      - rewrite Nat.sub_diag in G. cbn [nth] in G. subst b. cbn [andb Nat.add].
        clear. assert (G : forall k, (i < k)%nat -> pcnt (Nat.eqb i) k x = 0%nat).
        { induction x as [|b x IH]; intros k Hk; [reflexivity|]. cbn [pcnt]. destruct (Nat.eqb_spec i k); [lia|]. rewrite andb_false_r. cbn [Nat.add]. apply IH. lia. }
        apply G. lia.
      - rewrite andb_false_r. cbn [Nat.add]. apply IH; [lia|]. replace (v - i)%nat with (S (v - S i)) in G by lia. exact G. }
    rewrite cnt_rev in C. assert (cnt (Nat.eqb v) a = 0%nat) by lia. unfold cnt in H0. apply length_zero_iff_nil in H0.
    assert (I : In v (filter (Nat.eqb v) a)) by (apply filter_In; split; [assumption|apply Nat.eqb_refl]). rewrite H0 in I. destruct I.
  Qed.
  Lemma uncovered_zero na p : (forall x i, length x = R -> nth i x false = true -> ~ In i (A ++ B) -> psi x = 0) ->
    (forall x, length x = R -> pcnt (has A) 0 x <> na -> psi x = 0) -> covered A B p = false -> elem K R psi p = 0.
  Proof.
    intros He Ha Hc. destruct p as [[[a b] c] d]. unfold elem.
    assert (Hout : forall v, ~ In v (A ++ B) -> forall x, length x = R -> nth v x false = true -> psi x = 0) by (intros v Hv x Hx E; exact (He x v Hx E Hv)).
    assert (Dec : forall v, In v (A ++ B) \/ ~ In v (A ++ B)) by (intro v; destruct (in_dec Nat.eq_dec v (A ++ B)); auto).
    destruct (Dec c) as [Ic|Nc]; [|apply (elem_empty c _ _ (Hout c Nc)); cbn; auto].
    destruct (Dec d) as [Id|Nd]; [|apply (elem_empty d _ _ (Hout d Nd)); cbn; auto].
    destruct (Dec a) as [Ia|Na]; [|rewrite (rdm_herm K R psi [c; d] [a; b]), (elem_empty a _ _ (Hout a Na)) by (cbn; auto); apply cconj_0].
    destruct (Dec b) as [Ib|Nb]; [|rewrite (rdm_herm K R psi [c; d] [a; b]), (elem_empty b _ _ (Hout b Nb)) by (cbn; auto); apply cconj_0].
    destruct (Nat.eqb_spec a b) as [->|Nab]; [apply self_opp; exact (rdm_antisym_cre K R psi [] b b [] [c; d])|].
    destruct (Nat.eqb_spec c d) as [->|Ncd]; [apply self_opp; exact (rdm_antisym_ann K R psi [] d d [] [a; b])|].
    apply (rdm_selection K R psi (has A) na); [exact Ha|]. unfold cnt. intro E.
    unfold covered in Hc. rewrite E, Nat.eqb_refl, (proj2 (Nat.eqb_neq a b) Nab), (proj2 (Nat.eqb_neq c d) Ncd) in Hc. cbn [forallb negb andb] in Hc.
    apply has_In in Ia, Ib, Ic, Id. rewrite Ia, Ib, Ic, Id in Hc. discriminate.
  Qed.
End W3.

Lemma pcnt_filter P x : forall i, pcnt P i x = length (filter (fun k => P k && nth (k - i) x false) (seq i (length x))).
Proof.
  induction x as [|b x IH]; intro i; [reflexivity|]. cbn [pcnt length seq filter]. rewrite Nat.sub_diag. change (nth 0 (b :: x) false) with b. rewrite IH.
  assert (E : filter (fun k => P k && nth (k - i) (b :: x) false) (seq (S i) (length x)) = filter (fun k => P k && nth (k - S i) x false) (seq (S i) (length x))).
  { apply filter_ext_in. intros k Hk. apply in_seq in Hk. replace (k - i) with (S (k - S i)) by lia. reflexivity. }
  rewrite E. destruct b, (P i); reflexivity.
Qed.
Lemma pcnt_list A x : NoDup A -> Forall (fun i => i < length x) A -> pcnt (has A) 0 x = length (filter (fun i => nth i x false) A).
Proof.
  intros Hn Hr. rewrite pcnt_filter. apply Permutation.Permutation_length. apply Permutation.NoDup_Permutation.
  - apply NoDup_filter, seq_NoDup.
  - apply NoDup_filter, Hn.
  - intro k. rewrite !filter_In, in_seq, andb_true_iff, has_In, Nat.sub_0_r. rewrite Forall_forall in Hr. split; [tauto|].
    intros [H1 H2]. specialize (Hr k H1). repeat split; auto; lia.
Qed.
Lemma psi_of_key K (wf : wavefunction K) x : psi_of K wf x <> c0 -> exists v, In (x, v) wf.
Proof.
  unfold psi_of. intro H. induction wf as [|[d v] wf IH]; [now destruct H|]. cbn [wf_get] in H. destruct (bits_eqb d x) eqn:E.
  - apply bits_eqb_spec in E. subst. exists v. left. reflexivity.
  - destruct (IH H) as [w Hw]. exists w. right. exact Hw.
Qed.
Lemma psi_of_zero (K : CoefRing) (wf : wavefunction K) x : ~ In x (map fst wf) -> psi_of K wf x = c0.
Proof. intro H. unfold psi_of. now rewrite wf_get_none. Qed.
Lemma build_full_all (K : CoefRing) R (wf : wavefunction K) alpha beta na given :
  let A := g_inactive alpha ++ g_active alpha in let B := g_inactive beta ++ g_active beta in
  NoDup (map fst wf) -> (forall d v, In (d, v) wf -> length d = R) -> NoDup (A ++ B) -> Forall (fun x => x < R) (A ++ B) -> Forall (fun x => x < norb alpha beta) (A ++ B) ->
  (forall d v, In (d, v) wf -> (forall i, nth i d false = true -> In i (A ++ B)) /\ length (filter (fun i => nth i d false) A) = na) ->
  exists t, build_2rdm wf alpha beta Full given = Some (norb alpha beta, t) /\ forall a b c d, t a b c d = rdm_of R (psi_of K wf) [a; b] [c; d].
Proof.
  intros A B keys lens nd rg rn Hs. destruct (build_full K R wf keys lens alpha beta nd rg given rn) as (t & E & H). exists t. split; [exact E|].
  intros a b c d. specialize (H (a, b, c, d)). cbn [at4] in H. rewrite H. fold A B. destruct (covered A B (a, b, c, d)) eqn:C; [reflexivity|].
  symmetry. refine (uncovered_zero K R wf alpha beta na (a, b, c, d) _ _ C).
  - intros x i Hx Hi Hn. apply psi_of_zero. intro Hk. apply in_map_iff in Hk as ([d' v] & Ed & Hk). cbn [fst] in Ed. subst d'. apply Hn. now apply (Hs x v Hk).
  - intros x Hx Hc. apply psi_of_zero. intro Hk. apply in_map_iff in Hk as ([d' v] & Ed & Hk). cbn [fst] in Ed. subst d'. apply Hc. fold A. rewrite pcnt_list.
    + now apply (Hs x v Hk).
    + exact (nodupA alpha beta nd).
    + rewrite Hx. apply Forall_app in rg. apply rg.
Qed.

(** The same in the words of the property file. *)
Definition amp {K : CoefRing} (wf : list (bits * K)) (x : bits) : K :=
  match find (fun e => bits_eqb (fst e) x) wf with Some e => snd e | None => c0 end.
Lemma amp_psi (K : CoefRing) (wf : wavefunction K) x : psi_of K wf x = amp wf x.
Proof.
  unfold psi_of, amp. induction wf as [|[d v] wf IH]; [reflexivity|]. cbn [wf_get find fst]. destruct (bits_eqb d x); [reflexivity|exact IH].
Qed.
Lemma rdm_of_psi (K : CoefRing) R (f g : bits -> K) c a : (forall x, f x = g x) -> rdm_of R f c a = rdm_of R g c a.
Proof. intro H. unfold rdm_of, expect, mvec. apply sumbits_ext. intros r _. rewrite H. f_equal. apply sumbits_ext. intros. now rewrite H. Qed.
Definition spin_cons (A B : list nat) (a b c d : nat) : Prop :=
  a <> b /\ c <> d /\ (forall x, In x [a; b; c; d] -> In x (A ++ B)) /\
  length (filter (fun x => if in_dec Nat.eq_dec x A then true else false) [a; b]) =
  length (filter (fun x => if in_dec Nat.eq_dec x A then true else false) [c; d]).
Lemma covered_iff A B a b c d : covered A B (a, b, c, d) = true <-> spin_cons A B a b c d.
Proof.
  unfold covered, spin_cons. rewrite !andb_true_iff, !negb_true_iff, !Nat.eqb_neq, Nat.eqb_eq, forallb_forall.
  assert (E : forall l, filter (fun x => if in_dec Nat.eq_dec x A then true else false) l = filter (has A) l).
  { intro l. apply filter_ext. intro x. destruct (in_dec Nat.eq_dec x A) as [i|n]; [symmetry; now apply has_In|]. destruct (has A x) eqn:F; [|reflexivity]. apply has_In in F. contradiction. }
  rewrite !E. split.
  - intros [[[H1 H2] H3] H4]. repeat split; auto. intros x Hx. apply has_In. auto.
  - intros (H1 & H2 & H3 & H4). repeat split; auto. intros x Hx. apply has_In. auto.
Qed.
Section Words.
  Variables (K : CoefRing) (R : nat) (wf : list (bits * K)) (alpha beta : groups).
  Let A := g_inactive alpha ++ g_active alpha.
  Let B := g_inactive beta ++ g_active beta.
  Lemma build_full_amp na given : NoDup (map fst wf) -> (forall d v, In (d, v) wf -> length d = R) -> NoDup (A ++ B) -> Forall (fun x => x < R) (A ++ B) -> Forall (fun x => x < norb alpha beta) (A ++ B) ->
    (forall d v, In (d, v) wf -> (forall i, nth i d false = true -> In i (A ++ B)) /\ length (filter (fun i => nth i d false) A) = na) ->
    exists t, build_2rdm wf alpha beta Full given = Some (norb alpha beta, t) /\ forall a b c d, t a b c d = rdm_of R (amp wf) [a; b] [c; d].
  Proof.
    intros H1 H2 H3 H4 H5 H6. destruct (build_full_all K R wf alpha beta na given H1 H2 H3 H4 H5 H6) as (t & E & H). exists t. split; [exact E|].
    intros. rewrite H. apply rdm_of_psi. apply amp_psi.
  Qed.
  Lemma build_full_entries given : NoDup (map fst wf) -> (forall d v, In (d, v) wf -> length d = R) -> NoDup (A ++ B) -> Forall (fun x => x < R) (A ++ B) -> Forall (fun x => x < norb alpha beta) (A ++ B) ->
    exists t, build_2rdm wf alpha beta Full given = Some (norb alpha beta, t) /\
      (forall a b c d, spin_cons A B a b c d -> t a b c d = rdm_of R (amp wf) [a; b] [c; d]) /\ (forall a b c d, ~ spin_cons A B a b c d -> t a b c d = c0).
  Proof.
    intros H1 H2 H3 H4 H5. destruct (build_full K R wf H1 H2 alpha beta H3 H4 given H5) as (t & E & H). exists t. split; [exact E|].
    fold A B in H. split; intros a b c d Hc; specialize (H (a, b, c, d)); cbn [at4] in H; rewrite H.
    - apply covered_iff in Hc. rewrite Hc. apply rdm_of_psi. apply amp_psi.
    - destruct (covered A B (a, b, c, d)) eqn:C; [|reflexivity]. apply covered_iff in C. contradiction.
  Qed.
  Lemma build_active_entries N t0 : NoDup (map fst wf) -> (forall d v, In (d, v) wf -> length d = R) -> NoDup (A ++ B) -> Forall (fun x => x < R) (A ++ B) -> Forall (fun x => x < N) (A ++ B) ->
    exists t, build_2rdm wf alpha beta Active (Some (N, t0)) = Some (N, t) /\
      (forall a b c d, spin_cons A B a b c d -> (exists x, In x [a; b; c; d] /\ ~ In x (g_inactive alpha ++ g_inactive beta)) -> t a b c d = rdm_of R (amp wf) [a; b] [c; d]) /\
      (forall a b c d, ~ spin_cons A B a b c d \/ (forall x, In x [a; b; c; d] -> In x (g_inactive alpha ++ g_inactive beta)) -> t a b c d = t0 a b c d).
  Proof.
    intros H1 H2 H3 H4 H5. destruct (build_active K R wf H1 H2 alpha beta H3 H4 N t0 H5) as (t & E & H). exists t. split; [exact E|].
    fold A B in H. split.
    - intros a b c d Hc (x & Hx & Nx). specialize (H (a, b, c, d)); cbn [at4] in H; rewrite H. apply covered_iff in Hc. rewrite Hc.
      replace (frozen alpha beta (a, b, c, d)) with false; [apply rdm_of_psi, amp_psi|]. symmetry. unfold frozen. destruct (forallb _ [a; b; c; d]) eqn:F; [|reflexivity].
      rewrite forallb_forall in F. exfalso. apply Nx. apply has_In. auto.
    - intros a b c d Hc. specialize (H (a, b, c, d)); cbn [at4] in H; rewrite H. destruct (covered A B (a, b, c, d)) eqn:C; [|reflexivity]. apply covered_iff in C.
      destruct Hc as [Hc|Hc]; [contradiction|]. replace (frozen alpha beta (a, b, c, d)) with true; [reflexivity|]. symmetry. unfold frozen. apply forallb_forall. intros x Hx. apply has_In. auto.
  Qed.
End Words.
