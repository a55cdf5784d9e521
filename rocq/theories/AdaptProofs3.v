(** Proofs about AdaptModel: the rotations of any excitation, whatever its indices and the size of its parameter. *)
From Coq Require Import Bool List Arith Lia ZArith Ring.
From Verif Require Import Coeff MatSpec MatLemmas FockSpec OpSpec OpTotal PauliModel PauliProofs OperatorModel OperatorProofs FermiModel FermiProofs AdjProofs
  TransformModel TwoTerm JWProofs RdmModel RdmSpec RdmFock HamModel KeyProofs InvModel InvProofs PlanProofs VqeModel VqeSpec VqeProofs3 AdaptProofs.
From Verif Require RdmProofs RdmEnum.
Import ListNotations.
Local Open Scope nat_scope.

Lemma supp_diag s : adjs s = s -> exists r, length r = length s /\ supp s r r = true.
Proof.
  induction s as [|x s IH]; intro H; [exists []; auto|]. cbn [adjs map] in H. injection H as Hx Hs. destruct (IH Hs) as [r [L S]].
  assert (X : exists a, site x a a = true) by (destruct x as [[]|]; try discriminate; [exists true|exists false|exists true]; reflexivity).
  destruct X as [a A]. exists (a :: r). cbn [length supp]. rewrite A, S, L. auto.
Qed.
Lemma count_adjs s : count_ops (adjs s) = count_ops s.
Proof. unfold count_ops. generalize 0 at 1 2. induction s as [|[o|] s IH]; intro i; cbn; [reflexivity| |]; rewrite <- ?IH; reflexivity. Qed.
Lemma count_0 s : count_ops s = 0 -> adjs s = s.
Proof. unfold count_ops. generalize 0 at 1. induction s as [|[o|] s IH]; intros i H; [reflexivity|discriminate|]. cbn [adjs map option_map]. f_equal. apply (IH (S i)). exact H. Qed.

Section Any.
  Variable K : CoefRing.
  Add Ring KRing : (c_ring K).
  Local Open Scope coef_scope.
  Notation pop := (list (list pauli * K)).

  Lemma pop_mul_small N (c : K) k (P P' : nat -> Prop) (t new : pop) :
    Inv N c k P new -> okterm N P P' t -> small (cpow chalf (S k) * c) = true -> pop_mul t new = [].
  Proof.
    intros [ND [W [AG CO]]] [s1 [s2 [z1 [z2 [q [Et [L1 [L2 [Pq [Hq HP']]]]]]]]]] HS.
    subst t. unfold pop_mul. rewrite op_mul_products.
    set (m1 := fun e : list pauli * K => pauli_mul (s1, ipow z1 * chalf) e).
    set (m2 := fun e : list pauli * K => pauli_mul (s2, ipow z2 * chalf) e).
    assert (EP : products pauli_mul [(s1, ipow z1 * chalf); (s2, ipow z2 * chalf)] new
                 = flat_map (fun e => [m1 e; m2 e]) new) by reflexivity.
    rewrite EP.
    assert (M1 : forall e, In e new -> m1 e = (pmuls s1 (fst e), ipow z1 * chalf * snd e * ipow (pexps s1 (fst e)))).
    { intros e He. unfold m1. rewrite pauli_mul_eq; [reflexivity|]. cbn. rewrite (W e He). exact L1. }
    assert (M2 : forall e, In e new -> m2 e = (pmuls s2 (fst e), ipow z2 * chalf * snd e * ipow (pexps s2 (fst e)))).
    { intros e He. unfold m2. rewrite pauli_mul_eq; [reflexivity|]. cbn. rewrite (W e He). exact L2. }
    assert (NDP : NoDup (map fst (flat_map (fun e => [m1 e; m2 e]) new))).
    { rewrite (flat_map_concat_map), concat_map, map_map. rewrite <- flat_map_concat_map. cbn [map].
      apply (NoDup_pairs (fun e => fst (m1 e)) (fun e => fst (m2 e))).
      - eapply NoDup_map_inv. exact ND.
      - intros x y Hx Hy E. rewrite (M1 x Hx), (M1 y Hy) in E. cbn in E.
        apply (map_fst_In K new); try assumption. apply (pmuls_inj_r s1);
          [rewrite (W x Hx)|rewrite (W y Hy)|exact E]; exact L1.
      - intros x y Hx Hy E. rewrite (M2 x Hx), (M2 y Hy) in E. cbn in E.
        apply (map_fst_In K new); try assumption. apply (pmuls_inj_r s2);
          [rewrite (W x Hx)|rewrite (W y Hy)|exact E]; exact L2.
      - intros x y Hx Hy E. rewrite (M1 x Hx), (M2 y Hy) in E. cbn in E.
        apply (f_equal (fun l => nth q l PI)) in E. rewrite !nth_pmuls in E
          by (rewrite ?(W x Hx), ?(W y Hy); assumption).
        rewrite (AG x y q Hx Hy Pq) in E. apply pmul1_inj_l in E. contradiction. }
    rewrite (fold_add_fresh K _ _ pauli_list_eqb_spec) by exact NDP. cbn [app].
    assert (CO' : forall e, In e (flat_map (fun e => [m1 e; m2 e]) new) -> small (snd e) = true).
    { intros e He. apply flat_map_pair in He. destruct He as [x [Hx [->| ->]]].
      - rewrite (M1 x Hx). cbn [snd]. destruct (CO x Hx) as [z Ez]. rewrite Ez.
        replace (ipow z1 * chalf * (ipow z * (cpow chalf k * c)) * ipow (pexps s1 (fst x))) with (ipow (z1 + z + pexps s1 (fst x)) * (cpow chalf (S k) * c)) by (rewrite !ipow_add; cbn [cpow]; ring).
        rewrite small_ipow. exact HS.
      - rewrite (M2 x Hx). cbn [snd]. destruct (CO x Hx) as [z Ez]. rewrite Ez.
        replace (ipow z2 * chalf * (ipow z * (cpow chalf k * c)) * ipow (pexps s2 (fst x))) with (ipow (z2 + z + pexps s2 (fst x)) * (cpow chalf (S k) * c)) by (rewrite !ipow_add; cbn [cpow]; ring).
        rewrite small_ipow. exact HS. }
    revert CO'. generalize (flat_map (fun e => [m1 e; m2 e]) new). clear. intros l. unfold op_clean.
    induction l as [|e l IH]; intro H; [reflexivity|]. cbn [filter]. rewrite (H e (or_introl eq_refl)). cbn [negb]. apply IH. intros x Hx. apply H. now right.
  Qed.
  Lemma jw_loop_nil N rs : jw_loop (K := K) N rs [] = [].
  Proof.
    induction rs as [|[o|] rs IH]; cbn [jw_loop]; [reflexivity| |exact IH]. rewrite (zeros_mul K) by (intros e []). exact IH.
  Qed.
  Lemma jw_loop_small N (c : K) rs : forall k new, (length rs <= N)%nat -> Inv N c k (fun j => (j < length rs)%nat) new -> (0 < length (flat 0 rs))%nat ->
    small (cpow chalf (length (flat 0 rs) + k) * c) = true -> jw_loop N rs new = [].
  Proof.
    induction rs as [|[o|] rs IH]; intros k new HN HI HC HS; [cbn in HC; lia| |].
    - cbn [jw_loop]. cbn [length] in HN. cbn [flat length] in HS. rewrite (length_flat 1 0) in HS.
      destruct (small (cpow chalf (S k) * c)) eqn:S1.
      + rewrite (pop_mul_small N c k _ (fun j => (j < length rs)%nat) (jw_term N (length rs) o) new HI (jw_term_ok K N (length rs) o ltac:(lia)) S1). apply jw_loop_nil.
      + destruct (pop_mul_step K N c k _ (fun j => (j < length rs)%nat) (jw_term N (length rs) o) new HI (jw_term_ok K N (length rs) o ltac:(lia)) S1) as [HI' _].
        apply (IH (S k)); [lia|exact HI'| |].
        * destruct (length (flat 0 rs)) eqn:E; [|lia]. replace (1 + 0 + k)%nat with (S k) in HS by lia. cbn [Nat.add] in HS. congruence.
        * replace (length (flat 0 rs) + S k)%nat with (S (length (flat 0 rs)) + k)%nat by lia. exact HS.
    - cbn [jw_loop]. cbn [length] in HN. cbn [flat length] in *. rewrite (length_flat 1 0) in *. apply (IH k); [lia| |exact HC|exact HS].
      destruct HI as [H1 [H2 [H3 H4]]]. split; [|split; [|split]]; auto.
  Qed.
  Lemma jw_string_small s (c : K) : (0 < count_ops s)%nat -> small (cpow chalf (count_ops s) * c) = true -> jw_string (s, c) = [].
  Proof.
    intros HC HS. unfold jw_string, count_ops in *. cbn [fst snd]. apply (jw_loop_small (length s) c (rev s) 0).
    - rewrite rev_length. lia.
    - apply Inv_init.
    - now rewrite length_flat_rev.
    - rewrite length_flat_rev, Nat.add_0_r. exact HS.
  Qed.

  Lemma pm_cancel (u v x : K) : (forall a b : K, a * b = 0 -> a = 0 \/ b = 0) -> x <> 0 -> x * u = x * v -> u = v.
  Proof. intros dom Hx H. destruct (dom x (u - v)) as [Z|Z]; [transitivity (x * u - x * v); [ring|rewrite H; ring]|contradiction|]. transitivity (u - v + v); [ring|rewrite Z; ring]. Qed.

  Variable keq : forall a b : list pauli, {a = b} + {a <> b}.
  Variable dom : forall a b : K, a * b = 0 -> a = 0 \/ b = 0.

  (** The rotations of an excitation: none, or those of its anti-Hermitian generator. *)
  Theorem assign_op_any N m t (p : K) : length t = (2 * m)%nat -> (forall i, In i t -> (i < N)%nat) -> intact t -> cconj p = p ->
    exists o, assign_op N t p = Some o /\ NoDup (keys (jw_operator o)) /\
      (jw_operator o = [] \/ meq N (omat (jw_operator o)) (generator m t p)) /\
      (p = 0 \/ small (cpow chalf (2 * m) * p) = false -> meq N (omat (jw_operator o)) (generator m t p)) /\
      forall e, In e (jw_operator o) -> length (fst e) = N /\ cconj (snd e) = - snd e.
  Proof.
    intros HL HN Hsh Hp. apply RdmProofs.shortens_spec in Hsh.
    assert (HLr : length (rev t) = (2 * m)%nat) by (rewrite rev_length; exact HL).
    destruct (fermi_new_spec K p (rdme_letters t) N) as [s1 [c1 [E1 [S1 [M1 C1]]]]]; [now apply (letters_lt m)|].
    destruct (fermi_new_spec K p (rdme_letters (rev t)) N) as [s2 [c2 [E2 [S2 [M2 C2]]]]]; [apply (letters_lt m); [exact HLr|intros i Hi; apply HN; now apply in_rev]|].
    assert (EO : assign_op N t p = Some (op_add_string fstr_eqb (op_add_string fstr_eqb [] (s1, c1)) (s2, c2 * - (1)))) by (unfold assign_op; now rewrite E1, Hsh, E2).
    exists (op_add_string fstr_eqb (op_add_string fstr_eqb [] (s1, c1)) (s2, c2 * - (1))). split; [exact EO|].
    set (o := op_add_string fstr_eqb (op_add_string fstr_eqb [] (s1, c1)) (s2, c2 * - (1))).
    assert (AD : forall r c, length r = N -> length c = N -> c2 * fstr_mat s2 r c = cconj (c1 * fstr_mat s1 c r)).
    { intros r c Hr Hc. rewrite M2, (letters_rev m t HL), (fock_mat_adj K _ N r c Hr Hc). unfold madj. rewrite M1, cconj_mul, Hp. reflexivity. }
    assert (GE : forall r c, length r = N -> length c = N -> generator m t p r c = c1 * fstr_mat s1 r c - c2 * fstr_mat s2 r c).
    { intros r c Hr Hc. rewrite (AD r c Hr Hc), !M1, (excite_letters K m t HL). unfold generator, madj. rewrite cconj_mul, Hp. ring. }
    assert (ZZ : zeros K o -> (forall r c, length r = N -> length c = N -> generator m t p r c = 0) -> NoDup (keys (jw_operator o)) /\ (jw_operator o = [] \/ meq N (omat (jw_operator o)) (generator m t p)) /\
      (p = 0 \/ small (cpow chalf (2 * m) * p) = false -> meq N (omat (jw_operator o)) (generator m t p)) /\ forall e, In e (jw_operator o) -> length (fst e) = N /\ cconj (snd e) = - snd e).
    { intros Z G. rewrite (zeros_jw_operator K o Z). split; [constructor|]. split; [left; reflexivity|]. split; [|intros e []]. intros _ r c Hr Hc. rewrite (G r c Hr Hc). reflexivity. }
    destruct (ceqb p 0) eqn:P0.
    { apply ceqb_spec in P0. apply ZZ; [apply (assign_op_zero K N t); rewrite <- P0; exact EO|]. intros r c _ _. unfold generator. rewrite P0. ring. }
    assert (Hp0 : p <> 0) by (intro Z; apply (ceqb_spec K) in Z; congruence). clear P0.
    assert (NZ : forall s, length s = N -> exists r c, length r = N /\ length c = N /\ pm K (fstr_mat s r c)).
    { intros s Ls. destruct (supp_some s) as [r [c [Lr [Lc S]]]]. exists r, c. pose proof (supp_mat K s r c Lr Lc) as X. rewrite S in X. repeat split; congruence. }
    assert (Z12 : c1 = 0 <-> c2 = 0).
    { split; intro Z.
      - destruct (NZ s2 S2) as [r [c [Lr [Lc X]]]]. pose proof (AD r c Lr Lc) as Y. rewrite Z in Y. replace (0 * fstr_mat s1 c r) with (0 : K) in Y by ring. rewrite cconj_0 in Y.
        destruct (dom _ _ Y) as [Q|Q]; [exact Q|]. exfalso. exact (pm_ne K _ X Q).
      - destruct (NZ s1 S1) as [c [r [Lc [Lr X]]]]. pose proof (AD r c Lr Lc) as Y. rewrite Z in Y. replace (0 * fstr_mat s2 r c) with (0 : K) in Y by ring.
        assert (Y' : c1 * fstr_mat s1 c r = 0) by (rewrite <- (cconj_inv K (c1 * _)), <- Y; apply cconj_0).
        destruct (dom _ _ Y') as [Q|Q]; [exact Q|]. exfalso. exact (pm_ne K _ X Q). }
    destruct (ceqb c1 0) eqn:C0.
    { apply ceqb_spec in C0. pose proof (proj1 Z12 C0) as C0'. apply ZZ; [unfold o; subst c1 c2; apply zeros_add_string; [apply zeros_add_string; [intros e []|reflexivity]|]; cbn [snd]; ring|].
      intros r c Hr Hc. rewrite (GE r c Hr Hc), C0, C0'. ring. }
    assert (N1 : c1 <> 0) by (intro Z; apply (ceqb_spec K) in Z; congruence). assert (N2 : c2 <> 0) by (intro Z; apply N1; now apply Z12). clear C0.
    assert (U1 : exists u, pm K u /\ c1 = p * u). { destruct C1 as [Z|[Z|Z]]; [exists 1|exists (- (1))|contradiction]; (split; [|rewrite Z; ring]); [left|right]; reflexivity. }
    assert (U2 : exists v, pm K v /\ c2 = p * v). { destruct C2 as [Z|[Z|Z]]; [exists 1|exists (- (1))|contradiction]; (split; [|rewrite Z; ring]); [left|right]; reflexivity. }
    destruct U1 as [u [Pu Eu]]. destruct U2 as [v [Pv Ev]].
    destruct (adjs_mat K N s1 S1) as [w [Pw AW]].
    assert (AD' : forall r c, length r = N -> length c = N -> v * fstr_mat s2 r c = u * w * fstr_mat (adjs s1) r c).
    { intros r c Hr Hc. apply (pm_cancel _ _ p dom Hp0). pose proof (AD r c Hr Hc) as Y. rewrite Eu, Ev, !cconj_mul, Hp, (pm_conj K u Pu) in Y.
      rewrite (AW r c Hr Hc). transitivity (p * v * fstr_mat s2 r c); [ring|]. rewrite Y.
      transitivity (p * u * ((w * w) * cconj (fstr_mat s1 c r))); [rewrite (pm_sq K w Pw); ring|ring]. }
    destruct (mat_inj K N s2 (adjs s1) v (u * w) S2 ltac:(rewrite adjs_length; exact S1) Pv (pm_mul K _ _ Pu Pw) AD') as [Es Ew].
    destruct (fstr_eqb s2 s1) eqn:EQ.
    - (* a number word *)
      apply fstr_eqb_spec' in EQ. assert (SA : adjs s1 = s1) by congruence. destruct (supp_diag s1 SA) as [r [Lr Sr]].
      pose proof (supp_mat K s1 r r Lr Lr) as X. rewrite Sr in X. rewrite S1 in Lr. pose proof (AW r r Lr Lr) as Y. rewrite SA, (pm_conj K _ X) in Y.
      assert (W1 : w = 1).
      { apply (pm_cancel _ _ (fstr_mat s1 r r) dom (pm_ne K _ X)). transitivity (w * fstr_mat s1 r r); [ring|]. rewrite <- Y. ring. }
      apply ZZ; [|intros r' c' Hr Hc; rewrite (GE r' c' Hr Hc), EQ, Eu, Ev, Ew, W1; ring].
      unfold o. unfold op_add_string at 2. cbn [op_get op_set fst snd]. unfold op_add_string. cbn [op_get op_set fst snd]. rewrite EQ, (proj2 (fstr_eqb_spec' s1 s1) eq_refl).
      intros e [<-|[]]. cbn [snd]. rewrite Eu, Ev, Ew, W1. ring.
    - assert (EOO : o = [(s1, c1); (s2, c2 * - (1))]).
      { unfold o, op_add_string. cbn [op_get op_set fst snd]. rewrite ?EQ. cbn [op_get op_set]. rewrite ?EQ. reflexivity. }
      rewrite EOO. set (k := count_ops s1).
      assert (K2 : count_ops s2 = k) by (rewrite Es; apply count_adjs).
      assert (KP : (0 < k)%nat). { destruct k eqn:Ek; [|lia]. exfalso. apply count_0 in Ek. rewrite <- Es in Ek. rewrite Ek, (proj2 (fstr_eqb_spec' s1 s1) eq_refl) in EQ. discriminate. }
      assert (SC : forall y c, pm K y -> c = p * y -> small (cpow chalf k * c) = small (cpow chalf k * p)).
      { intros y c [-> | ->] ->; [f_equal; ring|]. replace (cpow chalf k * (p * - (1))) with (- (cpow chalf k * p)) by ring. apply small_opp. }
      assert (Pv' : pm K (- v)) by (destruct Pv as [-> | ->]; [right|left]; ring).
      assert (Ev' : c2 * - (1) = p * - v) by (rewrite Ev; ring).
      destruct (small (cpow chalf k * p)) eqn:Hs.
      + (* all strings are dropped *)
        assert (J1 : jw_string (s1, c1) = []) by (apply jw_string_small; [exact KP|]; fold k; now rewrite (SC u c1 Pu Eu)).
        assert (J2 : jw_string (s2, c2 * - (1)) = []) by (apply jw_string_small; [rewrite K2; exact KP|]; rewrite K2; now rewrite (SC (- v) _ Pv' Ev')).
        assert (EJ : jw_operator [(s1, c1); (s2, c2 * - (1))] = []) by (unfold jw_operator, op_transform; cbn [map fold_left]; rewrite J1, J2; reflexivity).
        rewrite EJ. split; [constructor|]. split; [left; reflexivity|]. split; [|intros e []]. intros [Z|Z]; [contradiction|]. exfalso.
        assert (KL : (k <= 2 * m)%nat) by (unfold k; rewrite <- (letters_length m t HL); exact (fermi_new_count K true p (rdme_letters t) N s1 c1 E1)).
        assert (X : forall a, small (cpow chalf (a + k) * p) = true).
        { intro a. induction a as [|a IH]; [exact Hs|]. destruct (small (cpow chalf (S a + k) * p)) eqn:Y; [reflexivity|]. apply (small_cpow K (a + k)) in Y. rewrite IH in Y. discriminate. }
        specialize (X (2 * m - k)%nat). replace (2 * m - k + k)%nat with (2 * m)%nat in X by lia. congruence.
      + destruct (jw_string_spec K s1 c1) as [JM1 [JI1 _]]; [fold k; rewrite (SC u c1 Pu Eu); reflexivity|].
        destruct (jw_string_spec K s2 (c2 * - (1))) as [JM2 [JI2 _]]; [rewrite K2, (SC (- v) _ Pv' Ev'); reflexivity|].
        fold k in JI1. rewrite K2 in JI2. rewrite S1 in JM1, JI1. rewrite S2 in JM2, JI2.
        destruct JI1 as [ND1 [W1 [_ Z1]]]. destruct JI2 as [ND2 [W2 [_ Z2]]].
        set (J1 := jw_string (s1, c1)) in *. set (J2 := jw_string (s2, c2 * - (1))) in *.
        assert (EJ : jw_operator [(s1, c1); (s2, c2 * - (1))] = op_add pauli_list_eqb J1 J2).
        { unfold jw_operator, op_transform. cbn [map fold_left]. fold J1 J2. f_equal. unfold op_add.
          rewrite (fold_add_fresh _ _ _ pauli_list_eqb_spec) by exact ND1. cbn [app]. apply clean_id.
          intros e He. destruct (Z1 e He) as [z ->]. rewrite small_ipow, (SC u c1 Pu Eu). reflexivity. }
        set (x := cpow chalf k * p) in *.
        assert (Hx : cconj x = x) by (unfold x; rewrite cconj_mul, (conj_half_pow K), Hp; reflexivity).
        assert (Q1 : meq N (omat J1) (mscal p (excite m t))).
        { intros r c Hr Hc. rewrite (JM1 r c Hr Hc). unfold mscal. rewrite M1, (excite_letters K m t HL). reflexivity. }
        assert (Q2 : meq N (omat J2) (fun r c => - madj (omat J1) r c)).
        { intros r c Hr Hc. rewrite (JM2 r c Hr Hc). unfold mscal, madj. rewrite (JM1 c r Hc Hr). unfold mscal.
          replace (c2 * - (1) * fstr_mat s2 r c) with (- (c2 * fstr_mat s2 r c)) by ring. rewrite (AD r c Hr Hc). reflexivity. }
        rewrite EJ. destruct (add_images K keq N x J1 J2) as [A [B C]]; [exact Hx|exact Hs|exact ND1|exact ND2|exact W1|exact W2| |exact Q2|].
        * intros e He. destruct (Z1 e He) as [z E]. unfold x. rewrite E, Eu. destruct Pu as [-> | ->]; [exists z; ring|]. exists (z + 2)%Z. rewrite ipow_add.
          replace (@ipow K 2) with (- (1) : K) by reflexivity. ring.
        * assert (QQ : meq N (omat (op_add pauli_list_eqb J1 J2)) (generator m t p)).
          { intros r c Hr Hc. rewrite (B r c Hr Hc). unfold generator, madj. rewrite (Q1 r c Hr Hc), (Q1 c r Hc Hr). unfold mscal. rewrite cconj_mul, Hp. ring. }
          split; [exact A|]. split.
          -- right. exact QQ.
          -- split; [intros _; exact QQ|]. intros e He. destruct (C e He) as [C0 [C3 _]]. now split.
  Qed.
  Lemma assign_any N (l : list (list nat * K)) :
    (forall t p, In (t, p) l -> (exists m, length t = (2 * m)%nat) /\ (forall i, In i t -> (i < N)%nat) /\ intact t /\ cconj p = p) ->
    exists bs, assign_all N l = Some (concat bs) /\
      Forall2 (fun tp b => (b = [] \/ meq N (omat b) (generator (Nat.div2 (length (fst tp))) (fst tp) (snd tp))) /\
                           (snd tp = 0 \/ small (cpow chalf (length (fst tp)) * snd tp) = false -> meq N (omat b) (generator (Nat.div2 (length (fst tp))) (fst tp) (snd tp))) /\ NoDup (keys b) /\
                           forall e, In e b -> length (fst e) = N /\ cconj (snd e) = - snd e) l bs.
  Proof.
    unfold assign_all. induction l as [|[t p] l IH]; intro H; [exists []; split; [reflexivity|constructor]|].
    destruct IH as [bs [E F]]; [intros t' p' Hi; apply H; now right|]. cbn [assign].
    destruct (H t p (or_introl eq_refl)) as [[m HL] [HN [Hi Hp]]].
    destruct (assign_op_any N m t p HL HN Hi Hp) as [o [EO [NK [M [M' C]]]]].
    exists (jw_operator o :: bs). rewrite EO, E. split; [reflexivity|]. constructor; [|exact F]. cbn [fst snd].
    replace (Nat.div2 (length t)) with m by (rewrite HL; now rewrite Nat.div2_double). split; [exact M|]. split; [rewrite HL; exact M'|]. split; [exact NK|exact C].
  Qed.
End Any.
