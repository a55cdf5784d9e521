(** A run of the symmetry projected tomography on a state vector. *)
From Coq Require Import Bool List Arith ZArith Lia Ring Permutation Sorted ListDec.
From Verif Require Import Coeff MatSpec MatLemmas OpSpec FockSpec PauliModel PauliProofs OperatorModel OperatorProofs TransformModel TwoTerm JWProofs
  CircuitSpec CircuitModel CircuitProofs CircuitProofs2 TomoModel TomoProofs CountsProofs RdmModel RdmSpec RdmEnum RdmPerm RdmFock RdmBuild RdmProofs HamModel ItModel ItProofs FermiModel
  Sqrt2 SymSpec SymModel SymProofs4 SymProofs5 SymProofs6 PlanModel PlanSpec PlanProofs PlanProofs2 RtomModel.
Import ListNotations.

Lemma occ_on_firstn N : forall x, occ_on (fun q => q <? N) x = popcount (firstn N x).
Proof.
  induction N as [|N IH]; intros x.
  - cbn [firstn popcount filter length]. assert (G : forall sel, (forall q, sel q = false) -> occ_on sel x = 0).
    { induction x as [|b x IHx]; intros sel H; [reflexivity|]. cbn [occ_on]. rewrite H. cbn. apply IHx. intro q. apply H. }
    apply G. intro q. reflexivity.
  - destruct x as [|b x]; [reflexivity|]. cbn [occ_on firstn]. change (0 <? S N) with true. cbn [andb].
    change (fun i => S i <? S N) with (fun i => i <? N). rewrite IH. unfold popcount. cbn [filter]. destruct b; reflexivity.
Qed.

Section Build.
  Variable K : CoefRing.
  Add Ring KRing : (c_ring K).
  Local Open Scope coef_scope.

  (** The array is additive in the values. *)
  Lemma build_lsum p N L value c a : (1 <= p)%nat -> (forall x, In x L -> exists c a, element p N c a /\ x = listed c a) ->
    length c = p -> length a = p ->
    build_rdm p L value (c ++ a) = lsum L (fun r => contrib K (firstn p r) (rev (skipn p r)) (value r) c a).
  Proof.
    intros Hp G1 Lc La. unfold build_rdm.
    rewrite (fold_acc K (fun r t => add_element p r (value r) t) (fun r => contrib K (firstn p r) (rev (skipn p r)) (value r) c a) (c ++ a)); [unfold tzero; ring|].
    intros r t Hr. destruct (G1 r Hr) as [c0 [a0 [[S1 [S2 [L1 [L2 _]]]] ->]]]. unfold listed.
    rewrite (firstn_app_l c0 _ p L1), (skipn_app_l c0 _ p L1), rev_involutive. apply add_element_spec; auto.
  Qed.
  Lemma build_add p N L (u v w : list nat -> K) c a : (1 <= p)%nat -> (forall x, In x L -> exists c a, element p N c a /\ x = listed c a) ->
    length c = p -> length a = p -> (forall r, In r L -> u r + v r = w r) ->
    build_rdm p L u (c ++ a) + build_rdm p L v (c ++ a) = build_rdm p L w (c ++ a).
  Proof.
    intros Hp G1 Lc La E. rewrite !(build_lsum p N) by assumption. rewrite <- lsum_add. apply lsum_ext. intros r Hr.
    rewrite <- (E r Hr). unfold contrib. rewrite cconj_add. destruct (ind_eqb _ _); ring.
  Qed.
  Definition one_value (v x : K) : Prop := x = v \/ x = - v \/ x = cconj v \/ x = - cconj v.
  (** Each entry comes from at most one element. *)
  Lemma build_single p N L value c a : (1 <= p)%nat -> (forall x, In x L -> exists c a, element p N c a /\ x = listed c a) -> NoDup L ->
    (forall c a, element p N c a -> In (listed c a) L -> In (listed a c) L -> c = a) ->
    length c = p -> length a = p ->
    build_rdm p L value (c ++ a) = 0 \/ exists r, In r L /\ one_value (value r) (build_rdm p L value (c ++ a)).
  Proof.
    intros Hp G1 G2 G3 Lc La. rewrite (build_lsum p N L value c a Hp G1 Lc La).
    set (g := fun r => contrib K (firstn p r) (rev (skipn p r)) (value r) c a).
    assert (Gv : forall c0 a0, length c0 = p -> g (listed c0 a0) = contrib K c0 a0 (value (listed c0 a0)) c a).
    { intros c0 a0 L1. unfold g, listed. rewrite (firstn_app_l c0 _ p L1), (skipn_app_l c0 _ p L1), rev_involutive. reflexivity. }
    assert (Ne : forall l : list nat, length l = p -> l <> []) by (intros [|? ?] Hl; [simpl in Hl; lia|discriminate]).
    destruct (NoDup_dec Nat.eq_dec c) as [Nc|Nc].
    2:{ left. apply lsum_none. intros r Hr.
        destruct (G1 r Hr) as [c0 [a0 [[S1 [S2 [L1 [L2 _]]]] ->]]]. rewrite (Gv c0 a0 L1). unfold contrib.
        rewrite (ps_zero K c0 c), (ps_zero K a0 c).
        - destruct (ind_eqb a0 c0); ring.
        - intro P. apply Nc. apply (Permutation_NoDup P). apply sorted_NoDup, S2.
        - intro P. apply Nc. apply (Permutation_NoDup P). apply sorted_NoDup, S1. }
    destruct (NoDup_dec Nat.eq_dec a) as [Na|Na].
    2:{ left. apply lsum_none. intros r Hr.
        destruct (G1 r Hr) as [c0 [a0 [[S1 [S2 [L1 [L2 _]]]] ->]]]. rewrite (Gv c0 a0 L1). unfold contrib.
        rewrite (ps_zero K c0 a), (ps_zero K a0 a).
        - destruct (ind_eqb a0 c0); ring.
        - intro P. apply Na. apply (Permutation_NoDup P). apply sorted_NoDup, S2.
        - intro P. apply Na. apply (Permutation_NoDup P). apply sorted_NoDup, S1. }
    destruct (sort_exists c Nc) as [c1 [Sc Pc]]. destruct (sort_exists a Na) as [a1 [Sa Pa]].
    assert (Lc1 : length c1 = p) by (rewrite (Permutation_length Pc); exact Lc).
    assert (La1 : length a1 = p) by (rewrite (Permutation_length Pa); exact La).
    destruct (perm_listed c1 c (Ne c1 Lc1) Pc) as [sc Hsc]. destruct (perm_listed a1 a (Ne a1 La1) Pa) as [sa Hsa].
    assert (P1 : ps K c1 c = sgn sc) by (apply ps_perm; [apply sorted_NoDup; exact Sc|exact Hsc]).
    assert (P2 : ps K a1 a = sgn sa) by (apply ps_perm; [apply sorted_NoDup; exact Sa|exact Hsa]).
    assert (Zr : forall c0 a0, element p N c0 a0 -> (c0 = c1 /\ a0 = a1) \/ (c0 = a1 /\ a0 = c1) \/ g (listed c0 a0) = 0).
    { intros c0 a0 [S1 [S2 [L1 [L2 _]]]].
      assert (Z : forall l l1 q, StronglySorted lt l -> StronglySorted lt l1 -> Permutation l1 q -> l <> l1 -> ps K l q = 0).
      { intros l l1 q Sl Sl1 Pl Dl. apply ps_zero. intro P. apply Dl. apply sorted_perm_eq; auto. rewrite P. symmetry. exact Pl. }
      destruct (list_eq_dec Nat.eq_dec c0 c1) as [E1|E1], (list_eq_dec Nat.eq_dec a0 a1) as [E2|E2],
        (list_eq_dec Nat.eq_dec c0 a1) as [E3|E3], (list_eq_dec Nat.eq_dec a0 c1) as [E4|E4];
        try (left; split; assumption); try (right; left; split; assumption); right; right; rewrite (Gv c0 a0 L1); unfold contrib;
        rewrite ?(Z c0 c1 c S1 Sc Pc E1), ?(Z a0 a1 a S2 Sa Pa E2), ?(Z c0 a1 a S1 Sa Pa E3), ?(Z a0 c1 c S2 Sc Pc E4);
        destruct (ind_eqb a0 c0); ring. }
    assert (X : c1 <> a1 -> ps K a1 c = 0).
    { intro Dl. apply ps_zero. intro P. apply Dl. apply sorted_perm_eq; auto. rewrite P. exact Pc. }
    assert (Only : forall r0, In r0 L -> (r0 = listed c1 a1 \/ r0 = listed a1 c1) -> lsum L g = g r0).
    { intros r0 H0 E0. apply lsum_single; [exact G2|exact H0|]. intros r Hr Dr. destruct (G1 r Hr) as [c0 [a0 [E ->]]].
      destruct (Zr c0 a0 E) as [[-> ->]|[[-> ->]|Z]]; [| |exact Z]; exfalso.
      - destruct E0 as [->| ->]; [apply Dr; reflexivity|]. pose proof (G3 c1 a1 E Hr H0). subst a1. apply Dr. reflexivity.
      - destruct E0 as [->| ->]; [|apply Dr; reflexivity]. pose proof (G3 a1 c1 E Hr H0). subst a1. apply Dr. reflexivity. }
    destruct (in_dec (list_eq_dec Nat.eq_dec) (listed c1 a1) L) as [Hin|Hout1].
    - right. exists (listed c1 a1). split; [exact Hin|]. rewrite (Only _ Hin (or_introl eq_refl)), (Gv c1 a1 Lc1). unfold contrib.
      replace (if ind_eqb a1 c1 then 0 else cconj (value (listed c1 a1)) * (ps K a1 c * ps K c1 a)) with (0 : K).
      2:{ destruct (ind_eqb a1 c1) eqn:E; [reflexivity|]. rewrite X; [ring|]. intros ->. rewrite ind_eqb_refl in E. discriminate. }
      rewrite P1, P2. unfold one_value. destruct sc, sa; cbn [sgn]; [left|right; left|right; left|left]; ring.
    - destruct (in_dec (list_eq_dec Nat.eq_dec) (listed a1 c1) L) as [Hin|Hout2].
      + right. exists (listed a1 c1). split; [exact Hin|]. rewrite (Only _ Hin (or_intror eq_refl)), (Gv a1 c1 La1). unfold contrib.
        destruct (ind_eqb c1 a1) eqn:E; [apply ind_eqb_spec in E; subst a1; contradiction|].
        rewrite X; [|intros ->; rewrite ind_eqb_refl in E; discriminate].
        rewrite P1, P2. unfold one_value. destruct sc, sa; cbn [sgn]; [right; right; left|right; right; right|right; right; right|right; right; left]; ring.
      + left. apply lsum_none. intros r Hr. destruct (G1 r Hr) as [c0 [a0 [E ->]]].
        destruct (Zr c0 a0 E) as [[-> ->]|[[-> ->]|Z]]; [contradiction|contradiction|exact Z].
  Qed.

  Lemma elements_good p N real imag : (1 <= p <= 3)%nat -> real || imag = true ->
    let L := rdm_elements p real imag (seq 0 N) (seq N N) in
    (forall x, In x L -> exists c a, element p N c a /\ x = listed c a) /\ NoDup L /\
    (forall c a, element p N c a -> In (listed c a) L -> In (listed a c) L -> c = a).
  Proof.
    intros Hp RI L. destruct (enumeration p N real imag Hp) as [En1 En2]. destruct real.
    - destruct (En1 (or_introl eq_refl)) as [_ [H2 [H3 H4]]]. auto.
    - destruct imag; [|discriminate]. destruct (En2 eq_refl eq_refl) as [_ [H2 [H3 H4]]]. split; [|split; [exact H3|]].
      + intros x Hx. destruct (H2 x Hx) as [c [a [E [_ X]]]]. exists c, a. auto.
      + intros c a E I1 I2. destruct (H2 _ I1) as [c' [a' [_ [D X]]]]. exfalso.
        apply (H4 c a E); auto.
  Qed.
End Build.
