(** Products of sigma+ and sigma-, particle-qubit RDM elements, tomography operators and reconstruction. *)
From Coq Require Import Bool List Arith Permutation Sorted ListDec Lia Ring.
From Verif Require Import Coeff MatSpec MatLemmas KronLemmas OpSpec FockSpec CircuitSpec FermiModel FermiProofs OperatorModel OperatorProofs
  AdjProofs TransformModel QubitProofs RdmModel RdmSpec RdmEnum RdmPerm RdmFock RdmBuild RdmProofs TraceProofs HamModel HamSpec QRdmModel QRdmSpec.
Import ListNotations.

Lemma qubits_cons o j l n : qubits ((o, j) :: l) n = match qubits l n with None => None | Some m => qubit1 o j m end.
Proof. reflexivity. Qed.
Lemma fock_dup_none o y l n : (o = Cre \/ o = Ann) -> fock ((o, y) :: (o, y) :: l) n = None.
Proof.
  intro Ho. rewrite !fock_cons. destruct (fock l n) as [[s m]|]; [|reflexivity]. cbn [bindo].
  pose proof (fock1_same o o y m) as E. replace (merge_table o o) with (@None fop) in E by (destruct Ho; subst; reflexivity).
  destruct (fock1 o y m) as [[s1 m1]|]; [|reflexivity]. cbn [bindo] in *.
  destruct (fock1 o y m1) as [[s2 m2]|]; [discriminate|reflexivity].
Qed.

Section QRdm1.
  Variable K : CoefRing.
  Add Ring KRing : (c_ring K).
  Local Open Scope coef_scope.
  Notation qm := (@qubits_mat K).

  Lemma qm_nil n : meq n (qm []) mone.
  Proof. intros r c Hr Hc. unfold qubits_mat, pmap_mat, mone. cbn [qubits sgn]. rewrite (bits_eqb_sym c r). reflexivity. Qed.
  Lemma sproduct_word N l : meq N (sproduct N (map (fun e => qm [e]) l)) (qm l).
  Proof.
    induction l as [|x l IH]; cbn [map sproduct fold_right]; [apply meq_sym, qm_nil|].
    eapply meq_trans; [apply mmul_meq; [apply meq_refl|exact IH]|]. apply meq_sym. exact (qubits_mat_app K N [x] l).
  Qed.
  Lemma qrdm_word R (psi : bits -> K) c a : qrdm_of R psi c a = expect R (qm (rdm_letters c a)) psi.
  Proof.
    apply expect_ext. unfold rdm_letters. replace (map splus c ++ map sminus (rev a)) with (map (fun e => qm [e]) (map (fun i => (Cre, i)) c ++ map (fun i => (Ann, i)) (rev a))).
    - apply sproduct_word.
    - rewrite map_app, !map_map. reflexivity.
  Qed.
  Lemma qword2 N x y : meq N (mmul N (qm [x]) (qm [y])) (qm [x; y]).
  Proof. apply meq_sym. exact (qubits_mat_app K N [x] [y]). Qed.
  Lemma qword4 N x y z t : meq N (mmul N (qm [x]) (mmul N (qm [y]) (mmul N (qm [z]) (qm [t])))) (qm [x; y; z; t]).
  Proof.
    assert (A := qubits_mat_app K N [x] [y; z; t]). assert (B := qubits_mat_app K N [y] [z; t]).
    eapply meq_trans; [|apply meq_sym; exact A]. apply mmul_meq; [apply meq_refl|].
    eapply meq_trans; [|apply meq_sym; exact B]. apply mmul_meq; [apply meq_refl|]. apply qword2.
  Qed.

  (** The adjoint of a word. *)
  Lemma qm1_adj o q n : meq n (qm [(fadj o, q)]) (madj (qm [(o, q)])).
  Proof.
    revert q. induction n as [|n IH]; intros q r c Hr Hc.
    - apply length_zero_iff_nil in Hr, Hc. subst. unfold madj, qubits_mat, pmap_mat, qubits, qubit1. destruct q; cbn; rewrite cconj_0; reflexivity.
    - destruct r as [|a r]; [discriminate|]. destruct c as [|b c]; [discriminate|]. cbn in Hr, Hc. injection Hr as Hr. injection Hc as Hc.
      destruct q as [|q].
      + unfold madj, qubits_mat, pmap_mat. cbn [qubits]. rewrite !qubit1_fock1, !fock1_0.
        destruct o, a, b; cbn; rewrite ?cconj_0; try reflexivity; rewrite (bits_eqb_sym c r); destruct (bits_eqb r c); rewrite ?cconj_0, ?cconj_1; reflexivity.
      + specialize (IH q r c Hr Hc). unfold madj, qubits_mat, pmap_mat in *. cbn [qubits] in *. rewrite !qubit1_S.
        destruct (qubit1 (fadj o) q c) as [m|], (qubit1 o q r) as [m'|]; cbn [option_map bits_eqb sgn] in *;
          destruct a, b; cbn [Bool.eqb andb] in *; rewrite ?cconj_0 in *; auto.
  Qed.
  Lemma qm_adj l n : meq n (qm (rev (map cadj l))) (madj (qm l)).
  Proof.
    induction l as [|[o q] l IH].
    - cbn [map rev]. eapply meq_trans; [apply qm_nil|]. eapply meq_trans; [apply meq_sym, mone_adj|].
      apply madj_meq, meq_sym, qm_nil.
    - cbn [map rev]. eapply meq_trans; [apply qubits_mat_app|].
      eapply meq_trans; [apply mmul_meq; [exact IH|apply qm1_adj]|].
      eapply meq_trans; [apply meq_sym, madj_mul|]. apply madj_meq.
      apply meq_sym. apply (qubits_mat_app K n [(o, q)] l).
  Qed.

  Lemma qrdm_herm R (psi : bits -> K) c a : qrdm_of R psi a c = cconj (qrdm_of R psi c a).
  Proof.
    rewrite !qrdm_word, <- expect_adj. apply expect_ext.
    replace (rdm_letters a c) with (rev (map cadj (rdm_letters c a))); [apply qm_adj|].
    unfold rdm_letters. rewrite map_app, rev_app_distr, !map_map. unfold cadj. cbn [fst snd fadj].
    rewrite <- !map_rev, rev_involutive. reflexivity.
  Qed.
  Lemma qrdm_sym_cre R (psi : bits -> K) l x y l' a :
    qrdm_of R psi (l ++ x :: y :: l') a = qrdm_of R psi (l ++ y :: x :: l') a.
  Proof.
    rewrite !qrdm_word. apply expect_ext. intros r q _ _. apply (qubits_mat_rel K true).
    rewrite !letters_eq. unfold cres. rewrite !map_app. cbn [map]. apply fock_rel_app_r, fock_rel_app, fock_swap_same. auto.
  Qed.
  Lemma qrdm_sym_ann R (psi : bits -> K) l x y l' c :
    qrdm_of R psi c (l ++ x :: y :: l') = qrdm_of R psi c (l ++ y :: x :: l').
  Proof. rewrite (qrdm_herm R psi (l ++ x :: y :: l') c), qrdm_sym_cre, <- qrdm_herm. reflexivity. Qed.
  Lemma expect_none R (A : mat K) psi : (forall r c, length r = R -> length c = R -> A r c = 0) -> expect R A psi = 0.
  Proof.
    intro H. rewrite (expect_ext K R A (mscal 0 A)); [rewrite expect_scal; ring|]. intros r c Hr Hc. unfold mscal. rewrite H by assumption. ring.
  Qed.
  Lemma qm_zero l r c : (forall n, fock l n = None) -> qm l r c = 0.
  Proof. intro H. unfold qubits_mat, pmap_mat. rewrite qubits_fock, H. reflexivity. Qed.
  Lemma qrdm_dup_cre R (psi : bits -> K) x a : qrdm_of R psi [x; x] a = 0.
  Proof.
    rewrite qrdm_word. apply expect_none. intros r c _ _. apply qm_zero. intro n. unfold rdm_letters. cbn [map app]. apply fock_dup_none. auto.
  Qed.
  Lemma qrdm_dup_ann R (psi : bits -> K) x c : qrdm_of R psi c [x; x] = 0.
  Proof. rewrite (qrdm_herm R psi [x; x] c), qrdm_dup_cre. apply cconj_0. Qed.
  Lemma qrdm_selection R (psi : bits -> K) P k c a :
    (forall x, length x = R -> pcnt P 0 x <> k -> psi x = 0) -> cnt P c <> cnt P a -> qrdm_of R psi c a = 0.
  Proof.
    intros H D. rewrite qrdm_word. unfold expect, mvec.
    transitivity (sumbits R (fun _ => (0:K))); [|apply sumbits_0]. apply sumbits_ext. intros r Hr.
    rewrite <- sumbits_scal. transitivity (sumbits R (fun _ => (0:K))); [|apply sumbits_0].
    apply sumbits_ext. intros q Hq. unfold qubits_mat, pmap_mat. rewrite qubits_fock.
    destruct (fock (rdm_letters c a) q) as [[s m]|] eqn:E; cbn [option_map snd]; [|ring].
    destruct (bits_eqb m r) eqn:Em; [|ring]. apply bits_eqb_spec in Em. subst m.
    pose proof (rdm_letters_count P c a q s r E) as G.
    destruct (Nat.eq_dec (pcnt P 0 q) k) as [Eq|Nq].
    - rewrite (H r Hr) by lia. rewrite cconj_0. ring.
    - rewrite (H q Hq Nq). ring.
  Qed.
  Lemma qubits_pair_par x A c : qubits ((Cre, x) :: (Ann, x) :: A) c = match qubits A c with Some m => if nth x m false then Some m else None | None => None end.
  Proof.
    rewrite !qubits_fock, fock_pair_par. destruct (fock A c) as [[s m]|]; cbn [bindo option_map snd]; [|reflexivity].
    rewrite fock1_par. destruct (nth x m false); reflexivity.
  Qed.
  Lemma qrdm_contract R Ne (psi : bits -> K) c a : has_particles R Ne psi ->
    lsum (seq 0 R) (fun x => qrdm_of R psi (c ++ [x]) (a ++ [x])) = ofnat (Ne - length a) * qrdm_of R psi c a.
  Proof.
    intro H. rewrite qrdm_word. rewrite (lsum_ext K _ _ (fun x => expect R (qm (rdm_letters (c ++ [x]) (a ++ [x]))) psi)) by (intros; apply qrdm_word).
    rewrite lsum_expect, <- expect_scal. unfold expect, mvec. apply sumbits_ext. intros r Hr.
    f_equal. apply sumbits_ext. intros q Hq. unfold mscal.
    destruct (Nat.eq_dec (popcount q) Ne) as [Eq|Nq]; [|rewrite (H q Hq Nq); ring].
    f_equal. rewrite <- Eq, letters_eq.
    rewrite (lsum_ext K _ _ (fun x => qm (cres c ++ (Cre, x) :: (Ann, x) :: anns (rev a)) r q)).
    2:{ intros x _. rewrite letters_eq. unfold cres, anns. rewrite rev_app_distr, map_app. cbn [rev app map]. rewrite <- app_assoc. reflexivity. }
    unfold qubits_mat, pmap_mat. rewrite qubits_app.
    destruct (fock (anns (rev a)) q) as [[s m]|] eqn:E.
    2:{ rewrite (qubits_fock (anns (rev a))), E. cbn [option_map]. rewrite (lsum_ext K _ _ (fun _ => 0)); [rewrite lsum_0; ring|].
        intros x _. rewrite qubits_app, qubits_pair_par, (qubits_fock (anns (rev a))), E. reflexivity. }
    pose proof (anns_count (fun _ => true) (rev a) q s m E) as G. rewrite cnt_all, rev_length, <- !popcount_pcnt in G.
    replace (popcount q - length a)%nat with (popcount m) by lia.
    pose proof (fock_length _ _ _ _ E) as Lm.
    assert (Q : qubits (anns (rev a)) q = Some m) by (rewrite qubits_fock, E; reflexivity). rewrite Q.
    rewrite <- (lsum_occ K m 0). rewrite Lm, Hq. apply lsum_ext. intros x Hx. rewrite Nat.sub_0_r.
    rewrite qubits_app, qubits_pair_par, Q. destruct (nth x m false); reflexivity.
  Qed.

  (** * Element operators *)
  Lemma qop_mat_lin (o : list (fstr * K)) r c : qop_mat o r c = lin (fun k => qstr_mat k r c) o.
  Proof. unfold qop_mat. induction o as [|[s x] o IH]; [reflexivity|]. cbn [map sumK fold_right lin fst snd] in *. rewrite <- IH. reflexivity. Qed.

  Lemma generate_qrdme_kept ind real imag N op : @generate_qrdme K ind real imag N = Some op -> shortens ind = false.
  Proof. unfold generate_qrdme. destruct (real || imag); [|discriminate]. destruct (qubit_new _ _ _); [|discriminate]. destruct (shortens ind); [discriminate|reflexivity]. Qed.
  Lemma generate_qrdme_raises ind real imag N : Sorted le ind -> ~ NoDup ind -> @generate_qrdme K ind real imag N = None.
  Proof.
    intros S D. destruct (generate_qrdme ind real imag N) as [op|] eqn:E; [|reflexivity]. apply generate_qrdme_kept in E. rewrite (shortens_true ind S D) in E. discriminate.
  Qed.
  Theorem generate_qrdme_spec c a real imag N (psi : bits -> K) : length c = length a -> c <> [] ->
    Forall (fun x => x < N)%nat c -> Forall (fun x => x < N)%nat a -> real || imag = true -> intact (listed c a) ->
    exists op, generate_qrdme (listed c a) real imag N = Some op
      /\ (forall e, In e op -> length (fst e) = N)
      /\ expect N (qop_mat op) psi = part real imag (qrdm_of N psi c a).
  Proof.
    intros L Ne Fc Fa RI Sh. apply shortens_spec in Sh. unfold generate_qrdme. rewrite RI, Sh, listed_rev, !rdme_letters_listed by auto.
    assert (Na : a <> []) by (intros ->; destruct c; [contradiction|discriminate]).
    destruct (qubit_new_spec K (half_of real + half_of imag) (rdm_letters c a) N) as [s1 [x1 [E1 [L1 [M1 _]]]]].
    { destruct c; [contradiction|discriminate]. }
    { intros e. apply letters_bound; assumption. }
    destruct (qubit_new_spec K (half_of real - half_of imag) (rdm_letters a c) N) as [s2 [x2 [E2 [L2 [M2 _]]]]].
    { destruct a; [contradiction|discriminate]. }
    { intros e. apply letters_bound; assumption. }
    rewrite E1, E2. eexists. split; [reflexivity|]. split.
    - intros [k x] H.
      assert (Hk : In k (map fst (op_add_string fstr_eqb (op_add_string fstr_eqb [] (s1, x1)) (s2, x2)))).
      { change k with (fst (k, x)). apply in_map. exact H. }
      unfold op_add_string in Hk. cbn [op_get op_set fst snd] in Hk. cbn [fst].
      destruct (fstr_eqb s2 s1) eqn:E; cbn [op_set map fst] in Hk; try rewrite E in Hk; cbn [map fst] in Hk;
        repeat (destruct Hk as [<-|Hk]; [assumption|]); destruct Hk.
    - transitivity (expect N (madd (mscal (half_of real + half_of imag) (qm (rdm_letters c a)))
         (mscal (half_of real - half_of imag) (qm (rdm_letters a c)))) psi).
      { apply expect_ext. intros r q _ _. rewrite qop_mat_lin, !(lin_add_string _ _ _ fstr_eqb_spec'). cbn [lin fst snd]. rewrite M1, M2. unfold madd, mscal. ring. }
      rewrite expect_madd, !expect_scal, <- !qrdm_word, (qrdm_herm N psi c a).
      unfold half_of, part. destruct real, imag; try discriminate.
      + transitivity ((chalf + chalf) * qrdm_of N psi c a); [ring|]. rewrite chalf_dbl. ring.
      + ring.
      + ring.
  Qed.

  (** * Reconstruction *)
  Definition pu (l q : list nat) : K := lsum (unordered_permute l) (fun e => @del K q (fst e)).
  Lemma pu_perm l q : NoDup l -> l <> [] -> Permutation l q -> pu l q = 1.
  Proof.
    intros N Ne P. destruct (perm_listed l q Ne P) as [s H].
    assert (U : NoDup (map fst (unordered_permute l))) by (apply unordered_permute_NoDup; exact N).
    unfold pu. revert H U. induction (unordered_permute l) as [|[t b] T IH]; intros H U; [destruct H|].
    cbn [map] in U. inversion_clear U as [|? ? Nt NT]. cbn [lsum fold_right fst]. fold (lsum T (fun e => @del K q (fst e))).
    destruct H as [E|H].
    - injection E as -> ->. unfold del at 1. rewrite ind_eqb_refl.
      rewrite (lsum_ext K T _ (fun _ => 0)); [rewrite lsum_0; ring|]. intros [t' b'] H'. cbn [fst]. unfold del.
      destruct (ind_eqb q t') eqn:E'; [|reflexivity]. apply ind_eqb_spec in E'. subst t'. exfalso. apply Nt. apply in_map_iff. exists (q, b'). auto.
    - rewrite (IH H NT). unfold del. destruct (ind_eqb q t) eqn:E'; [|ring].
      apply ind_eqb_spec in E'. subst t. exfalso. apply Nt. apply in_map_iff. exists (q, s). auto.
  Qed.
  Lemma pu_zero l q : ~ Permutation l q -> pu l q = 0.
  Proof.
    intro H. unfold pu. rewrite (lsum_ext K _ _ (fun _ => 0)); [apply lsum_0|].
    intros [t b] Hin. cbn [fst]. unfold del. destruct (ind_eqb q t) eqn:E; [|reflexivity]. exfalso. apply ind_eqb_spec in E. subst t.
    apply H. exact (uperm_Perm l q b Hin).
  Qed.
  Definition qcontrib (c0 a0 : list nat) (temp : K) (c a : list nat) : K :=
    temp * (pu c0 c * pu a0 a) + (if ind_eqb a0 c0 then 0 else cconj temp * (pu a0 c * pu c0 a)).
  Lemma add_qelement_2_spec c0 a0 temp (t : tensor K) c a :
    length c0 = 2%nat -> length a0 = 2%nat -> length c = 2%nat -> length a = 2%nat -> StronglySorted lt c0 -> StronglySorted lt a0 ->
    add_qelement_2 (listed c0 a0) temp t (c ++ a) = t (c ++ a) + qcontrib c0 a0 temp c a.
  Proof.
    intros L1 L2 L3 L4 S1 S2. unfold add_qelement_2, listed. cbv zeta.
    rewrite (firstn_app_l c0 _ 2 L1), (skipn_app_l c0 _ 2 L1), rev_involutive.
    set (dis := if ind_eqb a0 c0 then 0 else 1 : K).
    assert (SS : forall i j, In i (unordered_permute a0) -> In j (unordered_permute c0) ->
       same_set (fst i) (fst j) = ind_eqb a0 c0 /\ length (fst i) = 2%nat /\ length (fst j) = 2%nat).
    { intros [i si] [j sj] Hi Hj. cbn [fst]. apply uperm_Perm in Hi, Hj.
      split.
      - apply eq_true_iff_eq. rewrite same_set_spec, ind_eqb_spec. split.
        + intros [I1 I2]. apply sorted_incl_eq; auto; intros z Hz.
          * apply (Permutation_in z (Permutation_sym Hj)). apply I1. apply (Permutation_in z Hi). exact Hz.
          * apply (Permutation_in z (Permutation_sym Hi)). apply I2. apply (Permutation_in z Hj). exact Hz.
        + intros ->. split; intros z Hz.
          * apply (Permutation_in z Hj). apply (Permutation_in z (Permutation_sym Hi)). exact Hz.
          * apply (Permutation_in z Hi). apply (Permutation_in z (Permutation_sym Hj)). exact Hz.
      - rewrite <- (Permutation_length Hi), <- (Permutation_length Hj). auto. }
    rewrite (fold_acc K (fun i t => fold_left (fun t0 j =>
        if same_set (fst i) (fst j) then tadd (fst j ++ fst i) temp t0
        else tadd (fst i ++ fst j) (cconj temp) (tadd (fst j ++ fst i) temp t0)) (unordered_permute c0) t)
      (fun i => temp * @del K a (fst i) * pu c0 c + dis * cconj temp * @del K c (fst i) * pu c0 a) (c ++ a)).
    - f_equal. rewrite lsum_add. unfold qcontrib.
      transitivity (temp * pu c0 c * pu a0 a + dis * cconj temp * pu c0 a * pu a0 c).
      + f_equal; unfold pu at 3; rewrite <- lsum_scal; apply lsum_ext; intros; ring.
      + unfold dis. destruct (ind_eqb a0 c0); ring.
    - intros i t0 Hi. rewrite (fold_acc K (fun j t0 =>
        if same_set (fst i) (fst j) then tadd (fst j ++ fst i) temp t0
        else tadd (fst i ++ fst j) (cconj temp) (tadd (fst j ++ fst i) temp t0))
       (fun j => temp * @del K a (fst i) * @del K c (fst j) + dis * cconj temp * @del K c (fst i) * @del K a (fst j))).
      + f_equal. rewrite lsum_add. unfold pu. rewrite <- !lsum_scal. reflexivity.
      + intros j t1 Hj. destruct (SS i j Hi Hj) as [E [Li Lj]]. rewrite E.
        assert (D1 : @del K (c ++ a) (fst j ++ fst i) = del K c (fst j) * del K a (fst i)).
        { unfold del. rewrite ind_eqb_app by lia. destruct (ind_eqb c (fst j)), (ind_eqb a (fst i)); cbn; ring. }
        assert (D2 : @del K (c ++ a) (fst i ++ fst j) = del K c (fst i) * del K a (fst j)).
        { unfold del. rewrite ind_eqb_app by lia. destruct (ind_eqb c (fst i)), (ind_eqb a (fst j)); cbn; ring. }
        unfold dis. destruct (ind_eqb a0 c0); rewrite !tadd_del, ?D1, ?D2; ring.
  Qed.
  Lemma pu1 i q : pu [i] q = del K q [i].
  Proof. unfold pu. rewrite uperm1. cbn. ring. Qed.
  Lemma add_qelement_spec p c0 a0 temp (t : tensor K) c a : (1 <= p <= 2)%nat ->
    length c0 = p -> length a0 = p -> length c = p -> length a = p -> StronglySorted lt c0 -> StronglySorted lt a0 ->
    add_qelement p (listed c0 a0) temp t (c ++ a) = t (c ++ a) + qcontrib c0 a0 temp c a.
  Proof.
    intros Hp L1 L2 L3 L4 S1 S2. destruct p as [|[|[|p]]]; try lia.
    - destruct c0 as [|i [|? ?]]; try discriminate. destruct a0 as [|j [|? ?]]; try discriminate.
      destruct c as [|k [|? ?]]; try discriminate. destruct a as [|l [|? ?]]; try discriminate.
      unfold add_qelement, add_element_1, qcontrib, listed. cbn [rev app].
      rewrite !pu1. unfold nodupb, del. cbn [existsb]. cbn [ind_eqb].
      rewrite !orb_false_r, !andb_true_r, (Nat.eqb_sym j i).
      destruct (i =? j) eqn:E; cbn [negb andb]; rewrite !tadd_del; unfold del; cbn [ind_eqb]; rewrite ?andb_true_r;
        destruct (k =? i), (l =? j), (k =? j), (l =? i); cbn [andb]; ring.
    - cbn [add_qelement]. apply add_qelement_2_spec; assumption.
  Qed.

  Lemma sym_perm (f : list nat -> K) l q : (forall l x y l', f (l ++ x :: y :: l') = f (l ++ y :: x :: l')) -> Permutation l q -> f l = f q.
  Proof.
    intros S P. assert (G : forall pre, f (pre ++ l) = f (pre ++ q)); [|exact (G [])].
    induction P as [|x l q P IH|x y l|l m q P1 IH1 P2 IH2]; intro pre.
    - reflexivity.
    - specialize (IH (pre ++ [x])). rewrite <- !app_assoc in IH. exact IH.
    - apply S.
    - rewrite IH1. apply IH2.
  Qed.
  Lemma dup_cases (f : list nat -> K) p l : (1 <= p <= 2)%nat -> length l = p -> (forall x, f [x; x] = 0) -> ~ NoDup l -> f l = 0.
  Proof.
    intros Hp L D N. destruct l as [|x [|y [|z l]]]; cbn in L; try lia.
    - exfalso. apply N. repeat constructor. auto.
    - destruct (Nat.eq_dec x y) as [-> |H]; [apply D|]. exfalso. apply N. repeat constructor; simpl; intuition.
  Qed.

  Theorem build_qrdm_spec p N L value (D : list nat -> list nat -> K) : (1 <= p <= 2)%nat -> good_list K p N L D ->
    (forall a l x y l', D (l ++ x :: y :: l') a = D (l ++ y :: x :: l') a) -> (forall c l x y l', D c (l ++ x :: y :: l') = D c (l ++ y :: x :: l')) ->
    (forall x a, D [x; x] a = 0) -> (forall x c, D c [x; x] = 0) -> (forall c a, D a c = cconj (D c a)) ->
    (forall c a, length c = p -> length a = p -> up_count N c <> up_count N a -> D c a = 0) ->
    (forall c a, element p N c a -> In (listed c a) L -> value (listed c a) = D c a) ->
    forall c a, length c = p -> length a = p -> Forall (fun x => x < 2 * N)%nat c -> Forall (fun x => x < 2 * N)%nat a ->
      build_qrdm p L value (c ++ a) = D c a.
  Proof.
    intros Hp [G1 [G2 [G3 G4]]] Ac Aa Zc Za Hm Sel Val c a Lc La Fc Fa.
    set (g := fun r => qcontrib (firstn p r) (rev (skipn p r)) (value r) c a).
    assert (B : build_qrdm p L value (c ++ a) = lsum L g).
    { unfold build_qrdm. rewrite (fold_acc K (fun r t => add_qelement p r (value r) t) g (c ++ a)); [unfold tzero; ring|].
      intros r t Hr. destruct (G1 r Hr) as [c0 [a0 [[S1 [S2 [L1 [L2 _]]]] ->]]]. unfold g, listed.
      rewrite (firstn_app_l c0 _ p L1), (skipn_app_l c0 _ p L1), rev_involutive. apply add_qelement_spec; auto; lia. }
    rewrite B.
    assert (Gv : forall c0 a0, length c0 = p -> g (listed c0 a0) = qcontrib c0 a0 (value (listed c0 a0)) c a).
    { intros c0 a0 L1. unfold g, listed. rewrite (firstn_app_l c0 _ p L1), (skipn_app_l c0 _ p L1), rev_involutive. reflexivity. }
    assert (Ne : forall l : list nat, length l = p -> l <> []) by (intros [|? ?] Hl; [simpl in Hl; lia|discriminate]).
    destruct (NoDup_dec Nat.eq_dec c) as [Nc|Nc].
    2:{ rewrite (dup_cases (fun c => D c a) p c Hp Lc (fun x => Zc x a) Nc). apply lsum_none. intros r Hr.
        destruct (G1 r Hr) as [c0 [a0 [[S1 [S2 [L1 [L2 _]]]] ->]]]. rewrite (Gv c0 a0 L1). unfold qcontrib.
        rewrite (pu_zero c0 c), (pu_zero a0 c).
        - destruct (ind_eqb a0 c0); ring.
        - intro P. apply Nc. apply (Permutation_NoDup P). apply sorted_NoDup, S2.
        - intro P. apply Nc. apply (Permutation_NoDup P). apply sorted_NoDup, S1. }
    destruct (NoDup_dec Nat.eq_dec a) as [Na|Na].
    2:{ rewrite (dup_cases (D c) p a Hp La (fun x => Za x c) Na). apply lsum_none. intros r Hr.
        destruct (G1 r Hr) as [c0 [a0 [[S1 [S2 [L1 [L2 _]]]] ->]]]. rewrite (Gv c0 a0 L1). unfold qcontrib.
        rewrite (pu_zero c0 a), (pu_zero a0 a).
        - destruct (ind_eqb a0 c0); ring.
        - intro P. apply Na. apply (Permutation_NoDup P). apply sorted_NoDup, S2.
        - intro P. apply Na. apply (Permutation_NoDup P). apply sorted_NoDup, S1. }
    destruct (sort_exists c Nc) as [c1 [Sc Pc]]. destruct (sort_exists a Na) as [a1 [Sa Pa]].
    assert (Lc1 : length c1 = p) by (rewrite (Permutation_length Pc); exact Lc).
    assert (La1 : length a1 = p) by (rewrite (Permutation_length Pa); exact La).
    assert (P1 : pu c1 c = 1) by (apply pu_perm; [apply sorted_NoDup; exact Sc|auto|exact Pc]).
    assert (P2 : pu a1 a = 1) by (apply pu_perm; [apply sorted_NoDup; exact Sa|auto|exact Pa]).
    assert (DD : D c a = D c1 a1).
    { rewrite <- (sym_perm (fun c => D c a) c1 c (Ac a) Pc), <- (sym_perm (D c1) a1 a (Aa c1) Pa). reflexivity. }
    assert (Zr : forall c0 a0, element p N c0 a0 -> (c0 = c1 /\ a0 = a1) \/ (c0 = a1 /\ a0 = c1) \/ g (listed c0 a0) = 0).
    { intros c0 a0 [S1 [S2 [L1 [L2 _]]]].
      assert (Z : forall l l1 q, StronglySorted lt l -> StronglySorted lt l1 -> Permutation l1 q -> l <> l1 -> pu l q = 0).
      { intros l l1 q Sl Sl1 Pl Dl. apply pu_zero. intro P. apply Dl. apply sorted_perm_eq; auto. rewrite P. symmetry. exact Pl. }
      destruct (list_eq_dec Nat.eq_dec c0 c1) as [E1|E1], (list_eq_dec Nat.eq_dec a0 a1) as [E2|E2],
        (list_eq_dec Nat.eq_dec c0 a1) as [E3|E3], (list_eq_dec Nat.eq_dec a0 c1) as [E4|E4];
        try (left; split; assumption); try (right; left; split; assumption); right; right; rewrite (Gv c0 a0 L1); unfold qcontrib;
        rewrite ?(Z c0 c1 c S1 Sc Pc E1), ?(Z a0 a1 a S2 Sa Pa E2), ?(Z c0 a1 a S1 Sa Pa E3), ?(Z a0 c1 c S2 Sc Pc E4);
        destruct (ind_eqb a0 c0); ring. }
    destruct (Nat.eq_dec (up_count N c) (up_count N a)) as [U|U].
    2:{ rewrite (Sel c a Lc La U). apply lsum_none. intros r Hr. destruct (G1 r Hr) as [c0 [a0 [El ->]]].
        destruct (Zr c0 a0 El) as [[-> ->]|[[-> ->]|Z]]; [| |exact Z]; exfalso; apply U;
          rewrite <- (perm_up_count N _ _ Pc), <- (perm_up_count N _ _ Pa); destruct El as [_ [_ [_ [_ [_ [_ E]]]]]]; congruence. }
    assert (El : element p N c1 a1).
    { do 4 (split; [assumption|]). split; [|split].
      - rewrite Forall_forall in *. intros x Hx. apply Fc. apply (Permutation_in x Pc). exact Hx.
      - rewrite Forall_forall in *. intros x Hx. apply Fa. apply (Permutation_in x Pa). exact Hx.
      - rewrite (perm_up_count N _ _ Pc), (perm_up_count N _ _ Pa). exact U. }
    assert (Only : forall r0, In r0 L -> (r0 = listed c1 a1 \/ r0 = listed a1 c1) -> lsum L g = g r0).
    { intros r0 H0 E0. apply lsum_single; [exact G2|exact H0|]. intros r Hr Dr. destruct (G1 r Hr) as [c0 [a0 [E ->]]].
      destruct (Zr c0 a0 E) as [[-> ->]|[[-> ->]|Z]]; [| |exact Z]; exfalso.
      - destruct E0 as [->| ->]; [apply Dr; reflexivity|]. pose proof (G3 c1 a1 El Hr H0). subst a1. apply Dr. reflexivity.
      - destruct E0 as [->| ->]; [|apply Dr; reflexivity]. pose proof (G3 c1 a1 El H0 Hr). subst a1. apply Dr. reflexivity. }
    assert (X : c1 <> a1 -> pu a1 c = 0).
    { intro Dl. apply pu_zero. intro P. apply Dl. apply sorted_perm_eq; auto. rewrite P. exact Pc. }
    assert (V0 : D c1 a1 = 0 -> forall r, In r L -> g r = 0).
    { intros Z r Hr. destruct (G1 r Hr) as [c0 [a0 [E ->]]].
      destruct (Zr c0 a0 E) as [[-> ->]|[[-> ->]|Z0]]; [| |exact Z0].
      - rewrite (Gv c1 a1 Lc1). unfold qcontrib. rewrite (Val c1 a1 El Hr), Z, cconj_0. destruct (ind_eqb a1 c1); ring.
      - rewrite (Gv a1 c1 La1). unfold qcontrib. rewrite (Val a1 c1 E Hr), (Hm c1 a1), Z, cconj_0, cconj_0. destruct (ind_eqb c1 a1); ring. }
    destruct (G4 c1 a1 El) as [Hin|[Hin|Z]].
    - rewrite (Only _ Hin (or_introl eq_refl)), (Gv c1 a1 Lc1), (Val c1 a1 El Hin), DD. unfold qcontrib. rewrite P1, P2.
      destruct (ind_eqb a1 c1) eqn:E; [ring|]. rewrite X; [ring|]. intros ->. rewrite ind_eqb_refl in E. discriminate.
    - rewrite (Only _ Hin (or_intror eq_refl)), (Gv a1 c1 La1), (Val a1 c1 (element_sym _ _ _ _ El) Hin), DD. unfold qcontrib.
      rewrite P1, P2, (Hm c1 a1), cconj_inv. destruct (ind_eqb c1 a1) eqn:E.
      + apply ind_eqb_spec in E. subst a1. rewrite <- (Hm c1 c1), P1, P2. ring.
      + rewrite X; [ring|]. intros ->. rewrite ind_eqb_refl in E. discriminate.
    - rewrite (lsum_none K L g (V0 Z)), DD, Z. ring.
  Qed.

  Theorem qreconstruction p N nu (psi : bits -> K) real imag value : (1 <= p <= 2)%nat -> real || imag = true ->
    has_up (2 * N) N nu psi ->
    (forall r, In r (rdm_elements p real imag (seq 0 N) (seq N N)) ->
       exists op, generate_qrdme r real imag (2 * N) = Some op /\ value r = expect (2 * N) (qop_mat op) psi) ->
    forall c a, length c = p -> length a = p -> Forall (fun x => x < 2 * N)%nat c -> Forall (fun x => x < 2 * N)%nat a ->
      build_qrdm p (rdm_elements p real imag (seq 0 N) (seq N N)) value (c ++ a)
      = part real imag (qrdm_of (2 * N) psi c a).
  Proof.
    intros Hp RI Up Val. destruct (enumeration p N real imag) as [En1 En2]; [lia|].
    apply (build_qrdm_spec p N _ value (fun c a => part real imag (qrdm_of (2 * N) psi c a))); auto.
    - destruct real eqn:Er.
      + destruct (En1 (or_introl eq_refl)) as [H1 [H2 [H3 H4]]]. split; [exact H2|]. split; [exact H3|]. split; [exact H4|].
        intros c a E. destruct (H1 c a E); auto.
      + destruct imag; [|discriminate]. destruct (En2 eq_refl eq_refl) as [H1 [H2 [H3 H4]]].
        split; [intros x Hx; destruct (H2 x Hx) as [c [a [A [_ B]]]]; exists c, a; auto|]. split; [exact H3|].
        split; [intros c a E X Y; exfalso; apply (H4 c a E X Y)|].
        intros c a E. destruct (list_eq_dec Nat.eq_dec c a) as [->|D]; [|destruct (H1 c a E D); auto].
        right. right. unfold part. rewrite <- (qrdm_herm (2 * N) psi a a). ring.
    - intros a l x y l'. rewrite qrdm_sym_cre. reflexivity.
    - intros c l x y l'. rewrite qrdm_sym_ann. reflexivity.
    - intros x a. rewrite qrdm_dup_cre. apply part_0.
    - intros x c. rewrite qrdm_dup_ann. apply part_0.
    - intros c a. rewrite (qrdm_herm (2 * N) psi c a). apply part_conj.
    - intros c a _ _ D. rewrite (qrdm_selection (2 * N) psi (fun x => x <? N) nu c a); [apply part_0| |exact D].
      intros x Hx Hc. apply Up; [exact Hx|]. rewrite (popcount_firstn N x 0). exact Hc.
    - intros c a [S1 [S2 [L1 [L2 [F1 [F2 _]]]]]] Hin. destruct (Val _ Hin) as [op [E ->]].
      destruct (generate_qrdme_spec c a real imag (2 * N) psi) as [op' [E' [_ X]]]; auto; [congruence|destruct c; [cbn in L1; lia|discriminate]|apply shortens_spec; exact (generate_qrdme_kept _ _ _ _ _ E)|].
      rewrite E in E'. injection E' as <-. exact X.
  Qed.
End QRdm1.
