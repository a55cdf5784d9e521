(** The strings of a real anti-Hermitian operator that flips one set of modes commute with each other. *)
From Coq Require Import Bool List Arith Lia Ring.
From Verif Require Import Coeff MatSpec MatLemmas FockSpec OpSpec OpTotal PauliModel PauliProofs PauliBasis OperatorModel TomoModel TomoProofs VqeSpec VqeProofs3 VqeProofs4 RdmFock.
Import ListNotations.

(** Letters that flip a qubit; parity of the number of Y. *)
Definition flips1 (p : pauli) : bool := match p with PX | PY => true | _ => false end.
Fixpoint yodd (s : list pauli) : bool := match s with [] => false | p :: s' => xorb (pauli_eqb p PY) (yodd s') end.
(** The modes on which two configurations differ. *)
Definition differ (F : nat -> bool) (r c : bits) : Prop := forall k, k < length c -> nth k r false = xorb (nth k c false) (F k).

Lemma class_even : forall a b, length a = length b -> (forall k, flips1 (nth k a PI) = flips1 (nth k b PI)) -> Nat.even (nconf a b) = negb (xorb (yodd a) (yodd b)).
Proof.
  induction a as [|x a IH]; intros [|y b] L H; try discriminate; [reflexivity|]. cbn [nconf yodd]. injection L as L.
  specialize (IH b L (fun k => H (S k))). pose proof (H 0) as H0. cbn [nth] in H0.
  rewrite Nat.even_add, IH. destruct x, y; try discriminate H0; cbn; destruct (yodd a), (yodd b); reflexivity.
Qed.
Lemma nth_upd_eq {A} j (b d : A) : forall l, j < length l -> nth j (upd j b l) d = b.
Proof. induction j as [|j IH]; intros [|x l] H; cbn in *; try lia; [reflexivity|]. apply IH. lia. Qed.
Lemma nth_upd_neq {A} j k (b d : A) : j <> k -> forall l, nth k (upd j b l) d = nth k l d.
Proof. revert k. induction j as [|j IH]; intros [|k] Ne [|x l]; cbn; try reflexivity; try (now destruct Ne). apply IH. lia. Qed.

Lemma fock_differ l : forall n s m, (forall e, In e l -> ladder (fst e) = true) -> fock l n = Some (s, m) ->
  forall k, nth k m false = xorb (nth k n false) (Nat.odd (count_occ Nat.eq_dec (map snd l) k)).
Proof.
  induction l as [|[o j] l IH]; intros n s m H E k.
  - cbn in E. injection E as <- <-. cbn. now rewrite xorb_false_r.
  - cbn [fock] in E. destruct (fock l n) as [[s0 m0]|] eqn:E0; [|discriminate]. unfold fock1 in E.
    destruct (nth_error m0 j) as [b|] eqn:Eb; [|discriminate]. destruct (local o b) as [b'|] eqn:El; [|discriminate]. injection E as <- <-.
    assert (B : b' = negb b).
    { pose proof (H (o, j) (or_introl eq_refl)) as Lo. cbn in Lo. destruct o, b; cbn in Lo, El; try discriminate; injection El as <-; reflexivity. }
    subst b'. assert (Lj : j < length m0) by (apply nth_error_Some; congruence).
    specialize (IH n s0 m0 (fun e I => H e (or_intror I)) E0 k). cbn [map snd count_occ].
    destruct (Nat.eq_dec j k) as [->|Ne].
    + rewrite nth_upd_eq by exact Lj. apply (nth_error_nth _ _ false) in Eb. rewrite <- Eb, IH, Nat.odd_succ, <- Nat.negb_odd.
      destruct (nth k n false), (Nat.odd _); reflexivity.
    + rewrite nth_upd_neq by exact Ne. exact IH.
Qed.

Section Cls.
  Variable K : CoefRing.
  Add Ring KRing : (c_ring K).
  Local Open Scope coef_scope.
  Notation pop := (list (list pauli * K)).

  Lemma class_commute a b N : length a = N -> length b = N -> (forall k, flips1 (nth k a PI) = flips1 (nth k b PI)) -> yodd a = yodd b ->
    meq N (mmul N (@pmat K a) (pmat b)) (mmul N (pmat b) (pmat a)).
  Proof.
    intros La Lb F Y. pose proof (comm_phase K a b N La Lb) as C. rewrite cpow_m1, (class_even a b) in C by (try congruence; exact F).
    rewrite Y, xorb_nilpotent in C. cbn [negb] in C. eapply meq_trans; [exact C|]. intros r c _ _. unfold mscal. ring.
  Qed.
  Lemma pmat_conj : forall s r c, cconj (@pmat K s r c) = sgn (yodd s) * pmat s r c.
  Proof.
    induction s as [|p s IH]; intros [|a r] [|b c]; cbn [pmat yodd]; rewrite ?cconj_0; try (destruct (xorb _ _); cbn; ring); try (cbn; ring).
    - rewrite cconj_1. cbn. ring.
    - rewrite cconj_mul, IH. destruct p, a, b; cbn [pauli1 pauli_eqb xorb]; rewrite ?cconj_0, ?cconj_opp, ?cconj_i, ?cconj_1; destruct (yodd s); cbn [sgn negb]; ring.
  Qed.
  Lemma pmat_differ : forall s r c, @pmat K s r c <> 0 -> differ (fun k => flips1 (nth k s PI)) r c.
  Proof.
    induction s as [|p s IH]; intros [|a r] [|b c] H; cbn [pmat] in H; try (contradiction H; reflexivity).
    - intros k Hk. cbn in Hk. lia.
    - intros [|k] Hk; cbn [nth].
      + destruct p, a, b; cbn [flips1]; try reflexivity; contradiction H; cbn [pauli1]; ring.
      + apply IH; [|cbn in Hk; lia]. intro E. apply H. rewrite E. ring.
  Qed.
  Lemma excite_differ m t r c : @excite K m t r c <> 0 -> differ (fun k => Nat.odd (count_occ Nat.eq_dec t k)) r c.
  Proof.
    unfold excite, fock_mat, pmap_mat. intro H.
    match type of H with match fock ?l _ with _ => _ end <> _ => set (w := l) in H; assert (W : map snd w = t) end.
    { unfold w. rewrite map_app, !map_map. transitivity (firstn m t ++ skipn m t); [|apply firstn_skipn]. f_equal; apply map_id. }
    assert (Lw : forall e, In e w -> ladder (fst e) = true).
    { intros e He. unfold w in He. apply in_app_iff in He. destruct He as [He|He]; apply in_map_iff in He; destruct He as [i [<- _]]; reflexivity. }
    destruct (fock w c) as [[s q]|] eqn:E; [|contradiction H; reflexivity]. destruct (bits_eqb q r) eqn:B; [|contradiction H; reflexivity].
    apply bits_eqb_spec in B. subst q. intros k _. rewrite <- W. exact (fock_differ w c s r Lw E k).
  Qed.
  Lemma differ_sym F r c : length r = length c -> differ F r c -> differ F c r.
  Proof. intros L H k Hk. rewrite (H k) by lia. destruct (nth k c false), (F k); reflexivity. Qed.
  Lemma generator_differ m t (p : K) r c : length r = length c -> generator m t p r c <> 0 -> differ (fun k => Nat.odd (count_occ Nat.eq_dec t k)) r c.
  Proof.
    unfold generator, madj. intros L H. destruct (ceqb (@excite K m t r c) 0) eqn:E.
    - apply ceqb_spec in E. rewrite E in H. apply differ_sym; [congruence|]. apply (excite_differ m t c r). intro Z. apply H. rewrite Z, cconj_0. ring.
    - apply (excite_differ m t r c). intro Z. rewrite Z, (proj2 (ceqb_spec K 0 0) eq_refl) in E. discriminate.
  Qed.
  Lemma fock_mat_real l r c : cconj (@fock_mat K l r c) = fock_mat l r c.
  Proof.
    unfold fock_mat, pmap_mat. destruct (fock l c) as [[s q]|]; [|apply cconj_0]. destruct (bits_eqb q r); [|apply cconj_0].
    destruct s; cbn [sgn]; rewrite ?cconj_opp, cconj_1; reflexivity.
  Qed.
  Lemma generator_real m t (p : K) r c : cconj p = p -> cconj (generator m t p r c) = generator m t p r c.
  Proof.
    intro H. unfold generator, madj. rewrite cconj_mul, H. f_equal. unfold excite.
    transitivity (cconj (fock_mat (map (fun i => (Cre, i)) (firstn m t) ++ map (fun i => (Ann, i)) (skipn m t)) r c +
      - cconj (fock_mat (map (fun i => (Cre, i)) (firstn m t) ++ map (fun i => (Ann, i)) (skipn m t)) c r) : K)); [f_equal; ring|].
    rewrite cconj_add, cconj_opp, !fock_mat_real. ring.
  Qed.

  (** Each string with a non-zero coefficient flips that set and has an odd number of Y. *)
  Lemma strings_class N (F : nat -> bool) (b : pop) : NoDup (keys b) -> (forall e, In e b -> length (fst e) = N /\ cconj (snd e) = - snd e) ->
    (forall r c, length r = N -> length c = N -> cconj (omat b r c) = omat b r c) ->
    (forall r c, length r = N -> length c = N -> omat b r c <> 0 -> differ F r c) ->
    forall s x, In (s, x) b -> x <> 0 -> (forall k, (k < N)%nat -> flips1 (nth k s PI) = F k) /\ yodd s = true.
  Proof.
    intros ND HB HR HF s x I X. split.
    - set (ok := fun s : list pauli => forallb (fun k => eqb (flips1 (nth k s PI)) (F k)) (seq 0 N)).
      assert (OK : forall s, ok s = true <-> forall k, (k < N)%nat -> flips1 (nth k s PI) = F k).
      { intro s'. unfold ok. rewrite forallb_forall. split; intros H k Hk.
        - apply eqb_prop, H, in_seq. lia.
        - apply in_seq in Hk. rewrite H by lia. apply eqb_reflx. }
      apply OK. destruct (ok s) eqn:E; [reflexivity|]. exfalso. apply X.
      rewrite <- (total_In K _ _ pauli_list_eqb_spec pkeq s x b ND I).
      rewrite (pauli_unique K pkeq N b (filter (fun e => ok (fst e)) b)).
      + apply total_notin. intro J. apply in_map_iff in J. destruct J as [e [Es Je]]. apply filter_In in Je. destruct Je as [_ Je]. rewrite Es in Je. congruence.
      + intros e He. apply HB. exact He.
      + intros e He. apply filter_In in He. apply HB. tauto.
      + assert (G : forall l : pop, (forall e, In e l -> length (fst e) = N) -> forall r c, length r = N -> length c = N ->
          (differ F r c -> omat (filter (fun e => ok (fst e)) l) r c = omat l r c) /\ (~ differ F r c -> omat (filter (fun e => ok (fst e)) l) r c = 0)).
        { induction l as [|[u y] l IH]; intros HL r c Lr Lc; [split; reflexivity|].
          destruct (IH (fun e h => HL e (or_intror h)) r c Lr Lc) as [I1 I2]. cbn [filter fst].
          destruct (ok u) eqn:Eu; split; intro H; cbn [omat]; unfold madd, mscal.
          - rewrite I1 by exact H. reflexivity.
          - rewrite I2 by exact H. destruct (ceqb (@pmat K u r c) 0) eqn:Z; [apply ceqb_spec in Z; rewrite Z; ring|].
            exfalso. apply H. intros k Hk. rewrite (pmat_differ u r c); [|intro Z'; rewrite Z', (proj2 (ceqb_spec K 0 0) eq_refl) in Z; discriminate|exact Hk].
            f_equal. apply (proj1 (OK u) Eu). lia.
          - rewrite I1 by exact H. destruct (ceqb (@pmat K u r c) 0) eqn:Z; [apply ceqb_spec in Z; rewrite Z; ring|].
            exfalso. assert (Q : ok u = true); [|congruence]. apply OK. intros k Hk.
            assert (D : differ (fun k => flips1 (nth k u PI)) r c) by (apply pmat_differ; intro Z'; rewrite Z', (proj2 (ceqb_spec K 0 0) eq_refl) in Z; discriminate).
            specialize (D k ltac:(lia)). rewrite (H k) in D by lia. destruct (nth k c false), (F k), (flips1 (nth k u PI)); cbn in D; congruence.
          - apply I2. exact H. }
        intros r c Lr Lc. destruct (G b (fun e h => proj1 (HB e h)) r c Lr Lc) as [G1 G2].
        destruct (ceqb (omat b r c) 0) eqn:Z.
        * apply ceqb_spec in Z. rewrite Z. destruct (forallb (fun k => eqb (nth k r false) (xorb (nth k c false) (F k))) (seq 0 N)) eqn:Q.
          { rewrite G1; [symmetry; exact Z|]. intros k Hk. rewrite forallb_forall in Q. apply eqb_prop, Q, in_seq. lia. }
          rewrite G2; [reflexivity|]. intro H.
          assert (forallb (fun k => eqb (nth k r false) (xorb (nth k c false) (F k))) (seq 0 N) = true); [|congruence].
          apply forallb_forall. intros k Hk. apply in_seq in Hk. rewrite (H k) by lia. apply eqb_reflx.
        * symmetry. apply G1, HF; try assumption. intro Z'. rewrite Z', (proj2 (ceqb_spec K 0 0) eq_refl) in Z. discriminate.
    - destruct (yodd s) eqn:E; [reflexivity|]. exfalso. apply X.
      apply (two_neq0 K).
      rewrite <- (total_In K _ _ pauli_list_eqb_spec pkeq s x b ND I) at 1.
      rewrite (pauli_unique K pkeq N b (map (fun e => (fst e, sgn (yodd (fst e)) * cconj (snd e))) b)).
      + rewrite (total_In K _ _ pauli_list_eqb_spec pkeq s (- x)); [reflexivity| |].
        * unfold keys. rewrite map_map. exact ND.
        * apply in_map_iff. exists (s, x). split; [|exact I]. cbn [fst snd]. pose proof (proj2 (HB _ I)) as Q. cbn [snd] in Q. rewrite E, Q. cbn [sgn]. f_equal. ring.
      + intros e He. apply HB. exact He.
      + intros e He. apply in_map_iff in He. destruct He as [e' [<- He]]. apply (HB e' He).
      + intros r c Lr Lc. rewrite <- (HR r c Lr Lc). clear. induction b as [|[u y] l IH]; cbn [map omat fst snd]; unfold madd, mscal, mzero; [apply cconj_0|].
        rewrite cconj_add, cconj_mul, IH, pmat_conj. ring.
  Qed.
End Cls.
