(** Proofs about VqeModel: the generator of one excitation. *)
From Coq Require Import Bool List Arith Lia ZArith Ring Permutation.
From Verif Require Import Coeff MatSpec MatLemmas FockSpec OpSpec OpTotal PauliModel PauliProofs OperatorModel OperatorProofs FermiModel FermiProofs AdjProofs
  TransformModel TwoTerm JWProofs TransformLin PauliBasis Sqrt2 InvModel RdmModel RdmFock HamModel InvProofs VqeModel VqeSpec.
From Verif Require RdmProofs RdmEnum.
Import ListNotations.
Local Open Scope nat_scope.

Lemma letters_split m (a b : list nat) : length a = m -> length b = m -> rdme_letters (a ++ b) = map (fun i => (Cre, i)) a ++ map (fun i => (Ann, i)) b.
Proof.
  intros Ha Hb. unfold rdme_letters. rewrite app_length. replace (Nat.div2 (length a + length b)) with m by (rewrite Ha, Hb; replace (m + m) with (2 * m) by lia; now rewrite Nat.div2_double).
  clear - Ha Hb. revert b Hb. assert (X : forall (b : list nat) k, length b = k -> combine (repeat Ann k) b = map (fun i => (Ann, i)) b).
  { intro b. induction b as [|x b IH]; intros k <-; [reflexivity|]. cbn. f_equal. now apply IH. }
  intros b Hb. assert (Y : forall (a : list nat) k b, length a = k -> length b = m -> combine (repeat Cre k ++ repeat Ann m) (a ++ b) = map (fun i => (Cre, i)) a ++ map (fun i => (Ann, i)) b).
  { clear - X. intro a. induction a as [|x a IH]; intros k b <- Hb; cbn; [now apply X|]. f_equal. now apply IH. }
  now apply Y.
Qed.
Lemma letters_firstn m t : length t = 2 * m -> rdme_letters t = map (fun i => (Cre, i)) (firstn m t) ++ map (fun i => (Ann, i)) (skipn m t).
Proof.
  intro H. rewrite <- (firstn_skipn m t) at 1. apply letters_split with (m := m); [rewrite firstn_length; lia|rewrite skipn_length; lia].
Qed.
Lemma letters_rev m t : length t = 2 * m -> rdme_letters (rev t) = rev (map cadj (rdme_letters t)).
Proof.
  intro H. rewrite (letters_firstn m t H). rewrite <- (firstn_skipn m t) at 1. rewrite rev_app_distr.
  rewrite (letters_split m) by (rewrite rev_length, ?firstn_length, ?skipn_length; lia).
  rewrite map_app, rev_app_distr, !map_map, !map_rev. reflexivity.
Qed.
Lemma letters_snd m t : length t = 2 * m -> map snd (rdme_letters t) = t.
Proof. intro H. rewrite (letters_firstn m t H), map_app, !map_map. cbn [snd]. rewrite !map_id. apply firstn_skipn. Qed.
Lemma letters_length m t : length t = 2 * m -> length (rdme_letters t) = 2 * m.
Proof. intro H. rewrite <- (map_length snd), (letters_snd m t H). exact H. Qed.
Lemma letters_lt m t N : length t = 2 * m -> (forall i, In i t -> i < N) -> forall e, In e (rdme_letters t) -> snd e < N.
Proof. intros H HN e He. apply HN. rewrite <- (letters_snd m t H). now apply in_map. Qed.
Lemma letters_differ m t : length t = 2 * m -> 0 < m -> NoDup t -> ~ Permutation (rdme_letters t) (rdme_letters (rev t)).
Proof.
  intros H Hm ND P. destruct t as [|x t]; [cbn in H; lia|].
  assert (I : In (Cre, x) (rdme_letters (x :: t))) by (rewrite (letters_firstn m _ H); destruct m; [lia|]; now left).
  assert (J : In (Ann, x) (rdme_letters (rev (x :: t)))).
  { rewrite (letters_rev m _ H). apply -> in_rev. apply in_map_iff. exists (Cre, x). now split. }
  apply (Permutation_in _ (Permutation_sym P)) in J. rewrite <- (letters_snd m _ H) in ND.
  assert (F : forall (l : list (fop * nat)) a b, NoDup (map snd l) -> In a l -> In b l -> snd a = snd b -> a = b).
  { clear. induction l as [|e l IH]; intros a b ND Ha Hb E; [destruct Ha|]. cbn in ND. inversion ND; subst. destruct Ha as [<-|Ha], Hb as [<-|Hb]; auto.
    - exfalso. match goal with H : ~ In _ _ |- _ => apply H end. rewrite E. now apply in_map.
    - exfalso. match goal with H : ~ In _ _ |- _ => apply H end. rewrite <- E. now apply in_map. }
  specialize (F _ _ _ ND I J eq_refl). discriminate.
Qed.

Section Gen.
  Variable K : CoefRing.
  Add Ring KRing : (c_ring K).
  Local Open Scope coef_scope.
  Notation pop := (list (list pauli * K)).

  Lemma nodup_inds_true l : NoDup (map snd l) -> nodup_inds l = true.
  Proof.
    induction l as [|[o i] l IH]; intro H; [reflexivity|]. cbn in *. inversion H; subst. rewrite IH by assumption. rewrite andb_true_r, negb_true_iff.
    destruct (existsb (fun e => i =? snd e) l) eqn:E; [|reflexivity]. apply existsb_exists in E. destruct E as [e [He E]]. apply Nat.eqb_eq in E.
    exfalso. match goal with H : ~ In _ _ |- _ => apply H end. rewrite E. now apply in_map.
  Qed.
  Lemma fermi_new_distinct (c : K) l N : l <> [] -> NoDup (map snd l) -> (forall e, In e l -> (snd e < N)%nat) -> c <> 0 ->
    exists s c', fermi_new true c l N = Some (s, c') /\ length s = N /\ Permutation l (flat 0 s) /\ (c' = c \/ c' = - c) /\
      forall r q, c' * fstr_mat s r q = c * fock_mat l r q.
  Proof.
    intros Hne ND H Hc. destruct (fermi_new_spec K c l N H) as [s0 [c0' [E0 [L0 [M0 _]]]]].
    assert (EG : fermi_new true c l N = generate true c l N) by (destruct l; [congruence|reflexivity]).
    pose proof E0 as E1. rewrite EG in E1. unfold generate in E1.
    destruct (sort_loop_spec K true (S (length l * length l)%nat) c l) as [s [l1 [E [R [P S]]]]].
    { pose proof (inversions_le l). lia. }
    rewrite E in E1. cbn [andb] in E1.
    assert (ND1 : NoDup (map snd l1)) by (apply (Permutation_NoDup (Permutation_map snd P)); exact ND).
    unfold merge_stage in E1. rewrite (nodup_inds_true l1 ND1) in E1. cbn beta iota zeta in E1.
    destruct (ceqb (c * sgn s) 0) eqn:Ec.
    { exfalso. apply ceqb_spec in Ec. apply Hc. transitivity (c * sgn s * sgn s); [|rewrite Ec; ring].
      transitivity (c * (sgn s * sgn s)); [rewrite sgn_sq; ring|ring]. }
    destruct l1 as [|e1 l1]; [discriminate|]. assert (SI : forall (x y : fstr * K), Some x = Some y -> x = y) by congruence. apply SI in E1.
    assert (S1 : s0 = assemble (e1 :: l1) N) by congruence. assert (C1 : c0' = c * sgn s) by congruence.
    destruct (assemble_spec (e1 :: l1) N) as [F L]; [discriminate|apply nodup_inds_ssorted; [exact S|now apply nodup_inds_true]| |].
    { intros e He. apply H. apply (Permutation_in _ (Permutation_sym P)). exact He. }
    exists s0, c0'. split; [exact E0|]. split; [exact L0|]. split; [rewrite S1, F; exact P|]. split; [|exact M0].
    rewrite C1. destruct s; cbn [sgn]; [right|left]; ring.
  Qed.

  (** Adding two Jordan-Wigner images that are minus each other's adjoint. *)
  Variable keq : forall a b : list pauli, {a = b} + {a <> b}.
  Lemma conj_half_pow k : cconj (cpow chalf k : K) = cpow chalf k.
  Proof. induction k as [|k IH]; cbn [cpow]; [apply cconj_1|]. now rewrite cconj_mul, cconj_half, IH. Qed.
  Lemma ipow_cases z : (@ipow K z = 1 \/ @ipow K z = - (1)) \/ (@ipow K z = ci \/ @ipow K z = - ci).
  Proof. unfold ipow. destruct (z mod 4)%Z as [|p|p]; [left; left; reflexivity| |right; right; reflexivity]. destruct p as [p|p|]; [right; right; reflexivity| |right; left; reflexivity].
    destruct p as [p|p|]; [right; right; reflexivity|right; right; reflexivity|left; right; reflexivity]. Qed.
  Lemma anti_small (x u : K) : cconj x = x -> small x = false -> (u = 0 \/ exists z, u = ipow z * x) -> small (u - cconj u) = true -> u - cconj u = 0.
  Proof.
    intros Hx Hs [-> | [z ->]] H; [rewrite cconj_0; ring|]. rewrite cconj_mul, Hx in *.
    destruct (ipow_cases z) as [[E|E]|[E|E]]; rewrite E in *.
    - rewrite cconj_1. ring.
    - rewrite cconj_opp, cconj_1. ring.
    - exfalso. rewrite cconj_i in H. apply small_half_mul in H.
      replace (chalf * (ci * x - - ci * x)) with ((chalf + chalf) * (ci * x)) in H by ring. rewrite chalf_dbl in H.
      replace (1 * (ci * x)) with (ci * x) in H by ring. rewrite small_i in H. congruence.
    - exfalso. rewrite cconj_opp, cconj_i in H. apply small_half_mul in H.
      replace (chalf * (- ci * x - - - ci * x)) with (- ((chalf + chalf) * (ci * x))) in H by ring. rewrite chalf_dbl in H.
      replace (1 * (ci * x)) with (ci * x) in H by ring. rewrite small_opp, small_i in H. congruence.
  Qed.
  Lemma add_images N (x : K) (J1 J2 : pop) : cconj x = x -> small x = false ->
    NoDup (keys J1) -> NoDup (keys J2) -> (forall e, In e J1 -> length (fst e) = N) -> (forall e, In e J2 -> length (fst e) = N) ->
    (forall e, In e J1 -> exists z, snd e = ipow z * x) ->
    meq N (omat J2) (fun r c => - madj (omat J1) r c) ->
    NoDup (keys (op_add pauli_list_eqb J1 J2)) /\
    meq N (omat (op_add pauli_list_eqb J1 J2)) (fun r c => omat J1 r c - madj (omat J1) r c) /\
    forall e, In e (op_add pauli_list_eqb J1 J2) -> length (fst e) = N /\ cconj (snd e) = - snd e /\ small (snd e) = false.
  Proof.
    intros Hx Hs N1 N2 L1 L2 HZ HM.
    assert (T2 : forall k, total keq k J2 = - cconj (total keq k J1)).
    { intro k. rewrite <- total_map_conj, <- (total_map_neg K). apply (pauli_unique K keq N); [exact L2| |].
      - intros e He. apply in_map_iff in He. destruct He as [e1 [<- He]]. apply in_map_iff in He. destruct He as [e2 [<- He]]. cbn [fst]. now apply L1.
      - intros r c Hr Hc. rewrite (HM r c Hr Hc), omat_map_neg. f_equal. symmetry. now apply (omat_map_conj K N). }
    assert (U : forall k, total keq k J1 = 0 \/ exists z, total keq k J1 = ipow z * x).
    { intro k. destruct (in_dec keq k (keys J1)) as [I|I].
      - right. apply In_keys in I. destruct I as [y I]. rewrite (total_In K _ pauli_list_eqb pauli_list_eqb_spec keq k y J1 N1 I). now apply (HZ (k, y)).
      - left. now apply total_notin. }
    destruct (op_add_spec K _ pauli_list_eqb pauli_list_eqb_spec keq J1 J2 N1 N2) as [ND HI].
    split; [exact ND|]. split.
    - intros r c Hr Hc. unfold op_add. set (F := fold_left (op_add_string pauli_list_eqb) J2 J1).
      rewrite omat_is_lin. set (f := fun k => pmat k r c).
      assert (NF : NoDup (keys F)) by (apply (fold_add_NoDup _ _ _ pauli_list_eqb_spec); exact N1).
      assert (DZ : lin f (dropped F) = 0).
      { assert (Z : forall e, In e (dropped F) -> snd e = 0).
        { intros [k y] He. unfold dropped in He. apply filter_In in He. destruct He as [He Hsm]. cbn [snd] in *.
          pose proof (total_In K _ pauli_list_eqb pauli_list_eqb_spec keq k y F NF He) as TY.
          rewrite (total_lin K _ keq k F) in TY. unfold F in TY. rewrite (lin_fold_add _ _ _ pauli_list_eqb_spec) in TY.
          rewrite <- !(total_lin K _ keq) in TY. rewrite T2 in TY. rewrite <- TY in Hsm |- *.
          transitivity (total keq k J1 - cconj (total keq k J1)); [ring|]. apply (anti_small x); [exact Hx|exact Hs|apply U|].
          replace (total keq k J1 - cconj (total keq k J1)) with (total keq k J1 + - cconj (total keq k J1)) by ring. exact Hsm. }
        clear - Z. induction (dropped F) as [|[k y] D IH]; [reflexivity|]. cbn [lin].
        assert (y = 0) as -> by apply (Z (k, y) (or_introl eq_refl)). rewrite IH by (intros e He; apply Z; now right). ring. }
      pose proof (lin_clean K _ f F) as LC. rewrite DZ in LC. transitivity (lin f F); [rewrite <- LC; ring|].
      unfold F. rewrite (lin_fold_add _ _ _ pauli_list_eqb_spec). unfold f. rewrite <- !omat_is_lin, (HM r c Hr Hc). ring.
    - intros [k y] He. pose proof He as He'. apply HI in He. destruct He as [Hk [Hy Hsm]]. cbn [fst snd]. split; [|split; [|exact Hsm]].
      + destruct Hk as [Hk|Hk]; apply In_keys in Hk; destruct Hk as [v Hk]; [apply (L1 (k, v) Hk)|apply (L2 (k, v) Hk)].
      + rewrite Hy, T2, cconj_add, cconj_opp, cconj_inv. ring.
  Qed.

  Lemma excite_letters m t : length t = (2 * m)%nat -> @fock_mat K (rdme_letters t) = excite m t.
  Proof. intro H. unfold excite. now rewrite (letters_firstn m t H). Qed.
  Lemma assign_op_spec N m t (p : K) : length t = (2 * m)%nat -> (0 < m)%nat -> NoDup t -> (forall i, In i t -> (i < N)%nat) ->
    cconj p = p -> small (cpow chalf (2 * m) * p) = false ->
    exists o, assign_op N t p = Some o /\ NoDup (keys (jw_operator o)) /\
      meq N (omat (jw_operator o)) (generator m t p) /\
      forall e, In e (jw_operator o) -> length (fst e) = N /\ cconj (snd e) = - snd e.
  Proof.
    intros HL Hm ND HN Hp Hs.
    assert (Hp0 : p <> 0) by (intros ->; apply small_neq0 in Hs; apply Hs; ring).
    assert (HLr : length (rev t) = (2 * m)%nat) by (rewrite rev_length; exact HL).
    assert (NE : forall u, length u = (2 * m)%nat -> rdme_letters u <> []) by (intros u Hu E; apply letters_length in Hu; rewrite E in Hu; cbn in Hu; lia).
    destruct (fermi_new_distinct p (rdme_letters t) N) as [s1 [c1 [E1 [S1 [P1 [C1 M1]]]]]];
      [now apply NE|rewrite (letters_snd m t HL); exact ND|now apply (letters_lt m)|exact Hp0|].
    destruct (fermi_new_distinct p (rdme_letters (rev t)) N) as [s2 [c2 [E2 [S2 [P2 [C2 M2]]]]]];
      [now apply NE|rewrite (letters_snd m _ HLr); now apply NoDup_rev|apply (letters_lt m); [exact HLr|intros i Hi; apply HN; now apply in_rev]|exact Hp0|].
    assert (D : s1 <> s2) by (intros ->; apply (letters_differ m t HL Hm ND); eapply Permutation_trans; [exact P1|now apply Permutation_sym]).
    assert (EQ : fstr_eqb s2 s1 = false) by (destruct (fstr_eqb s2 s1) eqn:E; [apply fstr_eqb_spec' in E; congruence|reflexivity]).
    assert (EO : assign_op N t p = Some [(s1, c1); (s2, c2 * - (1))]).
    { unfold assign_op. rewrite E1, (proj2 (RdmProofs.shortens_spec t) (or_intror ND)), E2. unfold op_add_string. cbn [op_get op_set fst snd]. rewrite ?EQ. cbn [op_get op_set]. rewrite ?EQ. reflexivity. }
    exists [(s1, c1); (s2, c2 * - (1))]. split; [exact EO|].
    assert (K1 : length (flat 0 s1) = (2 * m)%nat) by (rewrite <- (Permutation_length P1); now apply letters_length).
    assert (K2 : length (flat 0 s2) = (2 * m)%nat) by (rewrite <- (Permutation_length P2); now apply letters_length).
    assert (SC : forall c, c = p \/ c = - p -> small (cpow chalf (2 * m) * c) = false).
    { intros c [-> | ->]; [exact Hs|]. replace (cpow chalf (2 * m) * - p) with (- (cpow chalf (2 * m) * p)) by ring. now rewrite small_opp. }
    assert (SC2 : c2 * - (1) = p \/ c2 * - (1) = - p) by (destruct C2 as [-> | ->]; [right|left]; ring).
    destruct (jw_string_spec K s1 c1) as [JM1 [JI1 _]]; [unfold count_ops; rewrite K1; now apply SC|].
    destruct (jw_string_spec K s2 (c2 * - (1))) as [JM2 [JI2 _]]; [unfold count_ops; rewrite K2; now apply SC|].
    unfold count_ops in JI1, JI2. rewrite K1, S1 in JI1. rewrite K2, S2 in JI2. rewrite S1 in JM1. rewrite S2 in JM2.
    destruct JI1 as [ND1 [W1 [_ Z1]]]. destruct JI2 as [ND2 [W2 [_ Z2]]].
    set (J1 := jw_string (s1, c1)) in *. set (J2 := jw_string (s2, c2 * - (1))) in *.
    assert (EJ : jw_operator [(s1, c1); (s2, c2 * - (1))] = op_add pauli_list_eqb J1 J2).
    { unfold jw_operator, op_transform. cbn [map fold_left]. fold J1 J2. f_equal. unfold op_add.
      rewrite (fold_add_fresh _ _ _ pauli_list_eqb_spec) by exact ND1. cbn [app]. apply clean_id.
      intros e He. destruct (Z1 e He) as [z ->]. rewrite small_ipow. now apply SC. }
    set (x := cpow chalf (2 * m) * p).
    assert (Hx : cconj x = x) by (unfold x; rewrite cconj_mul, conj_half_pow, Hp; reflexivity).
    assert (Q1 : meq N (omat J1) (mscal p (excite m t))).
    { intros r c Hr Hc. rewrite (JM1 r c Hr Hc). unfold mscal. rewrite M1, (excite_letters m t HL). reflexivity. }
    assert (Q2 : meq N (omat J2) (fun r c => - madj (omat J1) r c)).
    { intros r c Hr Hc. rewrite (JM2 r c Hr Hc). unfold mscal, madj. rewrite (Q1 c r Hc Hr). unfold mscal.
      replace (c2 * - (1) * fstr_mat s2 r c) with (- (c2 * fstr_mat s2 r c)) by ring. rewrite M2, (letters_rev m t HL), (fock_mat_adj K _ N r c Hr Hc).
      unfold madj. rewrite (excite_letters m t HL), cconj_mul, Hp. ring. }
    rewrite EJ. destruct (add_images N x J1 J2) as [A [B C]]; [exact Hx|exact Hs|exact ND1|exact ND2|exact W1|exact W2| |exact Q2|].
    - intros e He. destruct (Z1 e He) as [z E]. unfold x. destruct C1 as [-> | ->]; [now exists z|]. exists (z + 2)%Z. rewrite E, ipow_add.
      replace (@ipow K 2) with (- (1) : K) by reflexivity. ring.
    - split; [exact A|]. split.
      + intros r c Hr Hc. rewrite (B r c Hr Hc). unfold generator, madj. rewrite (Q1 r c Hr Hc), (Q1 c r Hc Hr). unfold mscal. rewrite cconj_mul, Hp. ring.
      + intros e He. destruct (C e He) as [C0 [C3 _]]. now split.
  Qed.
  Lemma assign_spec tiny N (l : list (list nat * K)) :
    (forall t p, In (t, p) l -> tiny p = false -> (exists m, length t = (2 * m)%nat /\ (0 < m)%nat /\ small (cpow chalf (2 * m) * p) = false) /\
       NoDup t /\ (forall i, In i t -> (i < N)%nat) /\ cconj p = p) ->
    exists bs, assign tiny N l = Some (concat bs) /\
      Forall2 (fun tp b => meq N (omat b) (generator (Nat.div2 (length (fst tp))) (fst tp) (snd tp)) /\ NoDup (keys b) /\
                           forall e, In e b -> length (fst e) = N /\ cconj (snd e) = - snd e)
        (filter (fun e => negb (tiny (snd e))) l) bs.
  Proof.
    induction l as [|[t p] l IH]; intro H; [exists []; split; [reflexivity|constructor]|].
    destruct IH as [bs [E F]]; [intros t' p' Hi; apply H; now right|]. cbn [assign filter snd]. destruct (tiny p) eqn:T; cbn [negb].
    - exists bs. now split.
    - destruct (H t p (or_introl eq_refl) T) as [[m [HL [Hm Hs]]] [ND [HN Hp]]].
      destruct (assign_op_spec N m t p HL Hm ND HN Hp Hs) as [o [EO [NK [M C]]]].
      exists (jw_operator o :: bs). rewrite EO, E. split; [reflexivity|]. constructor; [|exact F]. cbn [fst snd].
      replace (Nat.div2 (length t)) with m by (rewrite HL; now rewrite Nat.div2_double). split; [exact M|]. split; [exact NK|exact C].
  Qed.

  (** Conservation of the number of occupied modes of a kind. *)
  Lemma count_pcnt P x : count_in P x = pcnt P 0 x.
  Proof.
    unfold count_in. assert (X : forall y i, length (filter (fun k => P k && nth (k - i) y false) (seq i (length y))) = pcnt P i y).
    { intro y. induction y as [|b y IH]; intro i; [reflexivity|]. cbn [length seq filter pcnt]. rewrite Nat.sub_diag. change (nth 0 (b :: y) false) with b.
      assert (Y : length (filter (fun k => P k && nth (k - i) (b :: y) false) (seq (S i) (length y))) = pcnt P (S i) y).
      { rewrite <- IH. f_equal. apply filter_ext_in. intros k Hk. apply in_seq in Hk. replace (k - i)%nat with (S (k - S i)) by lia. reflexivity. }
      rewrite (andb_comm b). destruct (P i && b); cbn [length]; rewrite Y; reflexivity. }
    rewrite <- X. f_equal. apply filter_ext. intro k. now rewrite Nat.sub_0_r.
  Qed.
  Lemma excite_conserves P m t r c : length t = (2 * m)%nat -> cnt P (firstn m t) = cnt P (skipn m t) -> @excite K m t r c <> 0 -> count_in P r = count_in P c.
  Proof.
    intros HL HC H. unfold excite, fock_mat, pmap_mat in H. destruct (fock _ c) as [[s q]|] eqn:E; [|congruence].
    destruct (bits_eqb q r) eqn:B; [|congruence]. apply bits_eqb_spec in B. subst q. rewrite !count_pcnt.
    pose proof (fock_count P _ _ _ _ E) as G. rewrite !ocnt_app in G.
    change (map (fun i => (Cre, i)) (firstn m t)) with (cres (firstn m t)) in G. change (map (fun i => (Ann, i)) (skipn m t)) with (anns (skipn m t)) in G.
    rewrite ocnt_cres, ocnt_cres', ocnt_anns, ocnt_anns' in G.
    assert (LL : forall e, In e (cres (firstn m t) ++ anns (skipn m t)) -> ladder (fst e) = true).
    { intros e He. apply in_app_iff in He. destruct He as [He|He]; apply in_map_iff in He; destruct He as [i [<- _]]; reflexivity. }
    specialize (G LL). lia.
  Qed.
  Lemma generator_conserves P m t (p : K) r c : length t = (2 * m)%nat -> cnt P (firstn m t) = cnt P (skipn m t) -> generator m t p r c <> 0 -> count_in P r = count_in P c.
  Proof.
    intros HL HC H. unfold generator, madj in H. destruct (ceqb (@excite K m t r c) 0) eqn:A.
    - apply ceqb_spec in A. destruct (ceqb (@excite K m t c r) 0) eqn:B.
      + apply ceqb_spec in B. exfalso. apply H. rewrite A, B, cconj_0. ring.
      + symmetry. apply (excite_conserves P m t c r HL HC). intro Z. apply (ceqb_spec K) in Z. congruence.
    - apply (excite_conserves P m t r c HL HC). intro Z. apply (ceqb_spec K) in Z. congruence.
  Qed.
End Gen.
