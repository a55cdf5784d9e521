(** Element operators, reconstruction from measured values, Hartree-Fock RDM, order reduction. *)
From Coq Require Import Bool List Arith Permutation Sorted ListDec Lia Ring Factorial.
From Verif Require Import Coeff MatSpec MatLemmas OpSpec FockSpec CircuitSpec FermiModel FermiProofs OperatorModel OperatorProofs
  AdjProofs TraceProofs Sqrt2 RdmModel RdmSpec RdmEnum RdmPerm RdmFock RdmBuild.
Import ListNotations.

Section RdmProofs.
  Variable K : CoefRing.
  Add Ring KRing : (c_ring K).
  Local Open Scope coef_scope.

  (** * Element operators *)
  Lemma fop_mat_lin (o : list (fstr * K)) r c : fop_mat o r c = lin (fun k => fstr_mat k r c) o.
  Proof. unfold fop_mat. induction o as [|[s x] o IH]; [reflexivity|]. cbn [map sumK fold_right lin fst snd] in *. rewrite <- IH. reflexivity. Qed.

  Lemma combine_map_const {A B} (x : A) (l : list B) n : length l = n -> combine (repeat x n) l = map (fun i => (x, i)) l.
  Proof. intros <-. induction l as [|y l IH]; simpl; [reflexivity|]. rewrite IH. reflexivity. Qed.
  Lemma combine_app' {A B} (l1 l2 : list A) (m1 m2 : list B) : length l1 = length m1 ->
    combine (l1 ++ l2) (m1 ++ m2) = combine l1 m1 ++ combine l2 m2.
  Proof.
    revert m1. induction l1 as [|x l1 IH]; intros [|y m1] H; try discriminate; [reflexivity|]. simpl. rewrite IH; auto.
  Qed.
  Lemma rdme_letters_listed c a : length c = length a -> rdme_letters (listed c a) = rdm_letters c a.
  Proof.
    intro L. unfold rdme_letters, listed, rdm_letters. cbv zeta. rewrite app_length, rev_length.
    replace (Nat.div2 (length c + length a)) with (length c).
    2:{ rewrite <- L. replace (length c + length c)%nat with (2 * length c)%nat by lia. symmetry. apply Nat.div2_double. }
    rewrite combine_app' by (rewrite repeat_length; reflexivity).
    rewrite (combine_map_const Cre c) by reflexivity. rewrite (combine_map_const Ann (rev a)); [reflexivity|].
    rewrite rev_length. auto.
  Qed.
  Lemma listed_rev c a : rev (listed c a) = listed a c.
  Proof. unfold listed. rewrite rev_app_distr, rev_involutive. reflexivity. Qed.

  Lemma letters_bound N c a e : Forall (fun x => x < N)%nat c -> Forall (fun x => x < N)%nat a ->
    In e (rdm_letters c a) -> (snd e < N)%nat.
  Proof.
    intros Fc Fa. unfold rdm_letters. rewrite in_app_iff, !in_map_iff. rewrite Forall_forall in *.
    intros [[i [<- H]]|[i [<- H]]]; cbn [snd]; [apply Fc; exact H|]. apply Fa. apply in_rev in H. exact H.
  Qed.

  (** ** Lists that survive the call *)
  Lemma has_descent_spec l : has_descent l = false <-> Sorted le l.
  Proof.
    induction l as [|x l IH]; [split; [constructor|reflexivity]|]. destruct l as [|y l].
    - split; [intros _; repeat constructor|reflexivity].
    - change (has_descent (x :: y :: l)) with ((y <? x)%nat || has_descent (y :: l)). rewrite orb_false_iff, IH, Nat.ltb_ge. split.
      + intros [H S]. constructor; [exact S|constructor; exact H].
      + intro S. inversion S as [|? ? S' H]; subst. inversion H; subst. split; assumption.
  Qed.
  Lemma nodupb_spec l : nodupb l = true <-> NoDup l.
  Proof.
    induction l as [|x l IH]; cbn [nodupb]; [split; [constructor|reflexivity]|]. rewrite andb_true_iff, negb_true_iff, IH. split.
    - intros [H N]. constructor; [|exact N]. intro I. assert (existsb (Nat.eqb x) l = true) by (apply existsb_exists; exists x; split; [exact I|apply Nat.eqb_refl]). congruence.
    - intro N. inversion N as [|? ? H N']; subst. split; [|exact N']. destruct (existsb (Nat.eqb x) l) eqn:E; [|reflexivity]. apply existsb_exists in E. destruct E as [y [I E]].
      apply Nat.eqb_eq in E. subst y. contradiction.
  Qed.
  Lemma shortens_spec t : shortens t = false <-> intact t.
  Proof.
    unfold shortens, intact. rewrite <- nodupb_spec, <- has_descent_spec. destruct (has_descent t), (nodupb t); cbn; split; intro H; auto; try discriminate; [left; discriminate|].
    destruct H as [H|H]; [exfalso; apply H; reflexivity|discriminate].
  Qed.
  Lemma shortens_true t : Sorted le t -> ~ NoDup t -> shortens t = true.
  Proof. intros S N. destruct (shortens t) eqn:E; [reflexivity|]. apply shortens_spec in E. destruct E as [E|E]; contradiction. Qed.
  Lemma generate_rdme_kept ind real imag N op : @generate_rdme K ind real imag N = Some op -> shortens ind = false.
  Proof. unfold generate_rdme. destruct (real || imag); [|discriminate]. destruct (fermi_new _ _ _ _); [|discriminate]. destruct (shortens ind); [discriminate|reflexivity]. Qed.
  Lemma generate_rdme_raises ind real imag N : Sorted le ind -> ~ NoDup ind -> @generate_rdme K ind real imag N = None.
  Proof.
    intros S D. destruct (generate_rdme ind real imag N) as [op|] eqn:E; [|reflexivity]. apply generate_rdme_kept in E. rewrite (shortens_true ind S D) in E. discriminate.
  Qed.
  Lemma has_descent_app l l' : has_descent l' = true -> has_descent (l ++ l') = true.
  Proof.
    intro H. induction l as [|x l IH]; [exact H|]. cbn [app has_descent]. destruct (l ++ l') as [|y t]; [discriminate IH|]. rewrite IH. apply orb_true_r.
  Qed.
  Lemma rev_descent a : StronglySorted lt a -> (2 <= length a)%nat -> has_descent (rev a) = true.
  Proof.
    intros S L. destruct a as [|x [|y a]]; cbn [length] in L; try lia. inversion S as [|? ? _ H]; subst. inversion H; subst.
    cbn [rev]. rewrite <- app_assoc. apply has_descent_app. cbn [app has_descent]. rewrite (proj2 (Nat.ltb_lt x y)) by assumption. reflexivity.
  Qed.
  Lemma element_intact p N c a : element p N c a -> (2 <= p)%nat \/ (p = 1%nat /\ c <> a) -> shortens (listed c a) = false.
  Proof.
    intros [Sc [Sa [Lc [La _]]]] [P|[-> D]]; unfold shortens, listed.
    - rewrite has_descent_app; [reflexivity|]. apply rev_descent; [exact Sa|lia].
    - destruct c as [|x [|? ?]]; try discriminate. destruct a as [|y [|? ?]]; try discriminate. cbn [app rev nodupb existsb]. rewrite (proj2 (Nat.eqb_neq x y)) by congruence.
      cbn. apply andb_false_r.
  Qed.

  Lemma generate_rdme_mat c a real imag N : length c = length a ->
    Forall (fun x => x < N)%nat c -> Forall (fun x => x < N)%nat a -> real || imag = true -> shortens (listed c a) = false ->
    exists op, generate_rdme (listed c a) real imag N = Some op
      /\ (forall e, In e op -> length (fst e) = N)
      /\ forall r q, fop_mat op r q = (half_of real + half_of imag) * fock_mat (rdm_letters c a) r q
           + (half_of real - half_of imag) * @fock_mat K (rdm_letters a c) r q.
  Proof.
    intros L Fc Fa RI Sh. unfold generate_rdme. rewrite RI, Sh, listed_rev, !rdme_letters_listed by auto.
    destruct (fermi_new_spec K (half_of real + half_of imag) (rdm_letters c a) N) as [s1 [x1 [E1 [L1 [M1 _]]]]].
    { intros e. apply letters_bound; assumption. }
    destruct (fermi_new_spec K (half_of real - half_of imag) (rdm_letters a c) N) as [s2 [x2 [E2 [L2 [M2 _]]]]].
    { intros e. apply letters_bound; assumption. }
    rewrite E1, E2. eexists. split; [reflexivity|]. split.
    - intros [k x] H.
      assert (Hk : In k (map fst (op_add_string fstr_eqb (op_add_string fstr_eqb [] (s1, x1)) (s2, x2)))).
      { change k with (fst (k, x)). apply in_map. exact H. }
      unfold op_add_string in Hk. cbn [op_get op_set fst snd] in Hk. cbn [fst].
      destruct (fstr_eqb s2 s1) eqn:E; cbn [op_set map fst] in Hk; try rewrite E in Hk; cbn [map fst] in Hk;
        repeat (destruct Hk as [<-|Hk]; [assumption|]); destruct Hk.
    - intros r q. rewrite fop_mat_lin, !(lin_add_string _ _ _ fstr_eqb_spec'). cbn [lin fst snd]. rewrite M1, M2. ring.
  Qed.

  Theorem generate_rdme_spec c a real imag N (psi : bits -> K) : length c = length a ->
    Forall (fun x => x < N)%nat c -> Forall (fun x => x < N)%nat a -> real || imag = true -> intact (listed c a) ->
    exists op, generate_rdme (listed c a) real imag N = Some op
      /\ expect N (fop_mat op) psi = part real imag (rdm_of N psi c a).
  Proof.
    intros L Fc Fa RI Sh. apply shortens_spec in Sh. destruct (generate_rdme_mat c a real imag N L Fc Fa RI Sh) as [op [E [_ M]]].
    exists op. split; [exact E|].
    transitivity (expect N (madd (mscal (half_of real + half_of imag) (fock_mat (rdm_letters c a)))
       (mscal (half_of real - half_of imag) (fock_mat (rdm_letters a c)))) psi).
    { apply expect_ext. intros r q _ _. rewrite M. reflexivity. }
    rewrite expect_madd, !expect_scal. fold (rdm_of N psi c a). fold (rdm_of N psi a c). rewrite (rdm_herm K N psi c a).
    unfold half_of, part. destruct real, imag; try discriminate.
    - transitivity ((chalf + chalf) * rdm_of N psi c a); [ring|]. rewrite chalf_dbl. ring.
    - ring.
    - ring.
  Qed.

  (** * Reconstruction *)
  Lemma part_opp real imag (x : K) : part real imag (- x) = - part real imag x.
  Proof. unfold part. destruct real, imag; rewrite ?cconj_opp; ring. Qed.
  Lemma part_conj real imag (x : K) : part real imag (cconj x) = cconj (part real imag x).
  Proof.
    unfold part. destruct real, imag; rewrite ?cconj_0; try reflexivity.
    - rewrite cconj_mul, cconj_half, cconj_add, cconj_inv. ring.
    - rewrite cconj_mul, cconj_half, cconj_inv. replace (x - cconj x) with (x + - cconj x) by ring.
      rewrite cconj_add, cconj_opp, cconj_inv. ring.
  Qed.
  Lemma part_0 real imag : @part K real imag 0 = 0.
  Proof. unfold part. destruct real, imag; rewrite ?cconj_0; ring. Qed.

  Lemma up_count_cnt N l : up_count N l = cnt (fun x => x <? N) l. Proof. reflexivity. Qed.

  Theorem reconstruction p N nu (psi : bits -> K) real imag value : (1 <= p <= 3)%nat -> real || imag = true ->
    has_up (2 * N) N nu psi ->
    (forall r, In r (rdm_elements p real imag (seq 0 N) (seq N N)) ->
       exists op, generate_rdme r real imag (2 * N) = Some op /\ value r = expect (2 * N) (fop_mat op) psi) ->
    forall c a, length c = p -> length a = p -> Forall (fun x => x < 2 * N)%nat c -> Forall (fun x => x < 2 * N)%nat a ->
      build_rdm p (rdm_elements p real imag (seq 0 N) (seq N N)) value (c ++ a)
      = part real imag (rdm_of (2 * N) psi c a).
  Proof.
    intros Hp RI Up Val. destruct (enumeration p N real imag Hp) as [En1 En2].
    apply (build_rdm_spec K p N _ value (fun c a => part real imag (rdm_of (2 * N) psi c a))); auto.
    - destruct real eqn:Er.
      + destruct (En1 (or_introl eq_refl)) as [H1 [H2 [H3 H4]]]. split; [exact H2|]. split; [exact H3|]. split; [exact H4|].
        intros c a E. destruct (H1 c a E); auto.
      + destruct imag; [|discriminate]. destruct (En2 eq_refl eq_refl) as [H1 [H2 [H3 H4]]].
        split; [intros x Hx; destruct (H2 x Hx) as [c [a [A [_ B]]]]; exists c, a; auto|]. split; [exact H3|].
        split; [intros c a E X Y; exfalso; apply (H4 c a E X Y)|].
        intros c a E. destruct (list_eq_dec Nat.eq_dec c a) as [->|D]; [|destruct (H1 c a E D); auto].
        right. right. unfold part. rewrite <- (rdm_herm K (2 * N) psi a a). ring.
    - intros a l x y l'. rewrite (rdm_antisym_cre K). apply part_opp.
    - intros c l x y l'. rewrite (rdm_antisym_ann K). apply part_opp.
    - intros c a. rewrite (rdm_herm K (2 * N) psi c a). apply part_conj.
    - intros c a _ _ D. rewrite (rdm_selection K (2 * N) psi (fun x => x <? N) nu c a); [apply part_0| |exact D].
      intros x Hx Hc. apply Up; [exact Hx|]. rewrite (popcount_firstn N x 0). exact Hc.
    - intros c a [S1 [S2 [L1 [L2 [F1 [F2 _]]]]]] Hin. destruct (Val _ Hin) as [op [E ->]].
      destruct (generate_rdme_spec c a real imag (2 * N) psi) as [op' [E' X]]; auto; [congruence|apply shortens_spec; exact (generate_rdme_kept _ _ _ _ _ E)|].
      rewrite E in E'. injection E' as <-. exact X.
  Qed.

  (** * Determinants *)
  Lemma basis_expect R (A : mat K) x : length x = R -> expect R A (basis_vec x) = A x x.
  Proof.
    intro L. unfold expect, mvec, basis_vec.
    transitivity (sumbits R (fun r => if bits_eqb r x then A r x else 0)); [|apply (sumbits_pick K R x (fun r => A r x) L)].
    apply sumbits_ext. intros r Hr. rewrite (bits_eqb_sym x r). destruct (bits_eqb r x); [|rewrite cconj_0; ring].
    rewrite cconj_1. transitivity (sumbits R (fun c => if bits_eqb c x then A r c else 0)).
    - transitivity (sumbits R (fun c => A r c * (if bits_eqb x c then 1 else 0))); [ring|].
      apply sumbits_ext. intros c Hc. rewrite (bits_eqb_sym x c). destruct (bits_eqb c x); ring.
    - apply (sumbits_pick K R x (fun c => A r c) L).
  Qed.
  Lemma pcnt_single z : forall x i, pcnt (fun k => z =? k) i x = if (i <=? z) && nth (z - i) x false then 1%nat else 0%nat.
  Proof.
    induction x as [|b x IH]; intro i; simpl.
    - rewrite andb_comm. destruct (z - i)%nat; reflexivity.
    - rewrite IH. destruct (Nat.eq_dec z i) as [->|D].
      + rewrite Nat.leb_refl, Nat.sub_diag, Nat.eqb_refl. replace (S i <=? i) with false by (symmetry; apply Nat.leb_gt; lia).
        destruct b; reflexivity.
      + replace (z =? i) with false by (symmetry; apply Nat.eqb_neq; auto). rewrite andb_false_r. cbn [plus].
        destruct (i <=? z) eqn:E; ltb_all.
        * replace (S i <=? z) with true by (symmetry; apply Nat.leb_le; lia). replace (z - i)%nat with (S (z - S i))%nat by lia. reflexivity.
        * replace (S i <=? z) with false by (symmetry; apply Nat.leb_gt; lia). reflexivity.
  Qed.
  Lemma cnt_count_occ z l : cnt (fun k => z =? k) l = count_occ Nat.eq_dec l z.
  Proof.
    unfold cnt. induction l as [|y l IH]; simpl; [reflexivity|]. destruct (Nat.eq_dec y z) as [->|D].
    - rewrite Nat.eqb_refl. simpl. rewrite IH. reflexivity.
    - replace (z =? y) with false by (symmetry; apply Nat.eqb_neq; auto). exact IH.
  Qed.
  Lemma fock_diag_cond c a x s : fock (rdm_letters c a) x = Some (s, x) ->
    NoDup a /\ Permutation c a /\ forall z, In z a -> nth z x false = true.
  Proof.
    intro H.
    assert (P : Permutation c a).
    { apply (Permutation_count_occ Nat.eq_dec). intro z. pose proof (rdm_letters_count (fun k => z =? k) c a x s x H) as G.
      rewrite !cnt_count_occ in G. lia. }
    rewrite letters_eq, fock_app in H. destruct (fock (anns (rev a)) x) as [[s1 m]|] eqn:E; [|discriminate].
    assert (B : forall z, (count_occ Nat.eq_dec a z <= if nth z x false then 1 else 0)%nat).
    { intro z. pose proof (anns_count (fun k => z =? k) (rev a) x s1 m E) as G. rewrite cnt_rev, cnt_count_occ, !pcnt_single in G.
      cbn [Nat.leb andb] in G. rewrite !Nat.sub_0_r in G. lia. }
    split; [|split; [exact P|]].
    - apply (NoDup_count_occ Nat.eq_dec). intro z. specialize (B z). destruct (nth z x false); lia.
    - intros z Hz. apply (count_occ_In Nat.eq_dec) in Hz. specialize (B z). destruct (nth z x false); [reflexivity|lia].
  Qed.
  Lemma fock_diag x l : NoDup l -> (forall z, In z l -> nth z x false = true) ->
    fock (rdm_letters l l) x = Some (false, x).
  Proof.
    induction l as [|y l IH] using rev_ind; intros N O; [reflexivity|].
    apply NoDup_remove in N as N2. destruct N2 as [N1 N2]. rewrite app_nil_r in N1, N2.
    specialize (IH N1 (fun z Hz => O z (in_or_app _ _ _ (or_introl Hz)))).
    rewrite letters_eq in IH |- *. rewrite rev_app_distr. unfold cres, anns in *. rewrite map_app. cbn [rev app map].
    rewrite <- app_assoc. cbn [app]. rewrite fock_app in IH |- *. rewrite fock_pair_par.
    destruct (fock (map (fun i => (Ann, i)) (rev l)) x) as [[s m]|] eqn:E; [|discriminate]. cbn [bindo].
    rewrite fock1_par.
    pose proof (anns_count (fun k => y =? k) (rev l) x s m E) as G. rewrite cnt_rev, cnt_count_occ, !pcnt_single in G.
    cbn [Nat.leb andb] in G. rewrite !Nat.sub_0_r in G.
    rewrite (O y) in G by (apply in_or_app; right; left; reflexivity).
    replace (count_occ Nat.eq_dec l y) with 0%nat in G by (symmetry; apply count_occ_not_In; exact N2).
    destruct (nth y m false); [|discriminate]. cbn [bindo]. rewrite xorb_false_r. exact IH.
  Qed.
  Lemma det_state_length R occ : length (det_state R occ) = R.
  Proof. unfold det_state. rewrite map_length. apply seq_length. Qed.
  Lemma det_state_nth R occ z : nth z (det_state R occ) false = (z <? R) && existsb (Nat.eqb z) occ.
  Proof.
    unfold det_state. destruct (z <? R) eqn:E; ltb_all.
    - rewrite (nth_indep _ false (existsb (Nat.eqb 0) occ)) by (rewrite map_length, seq_length; exact E).
      rewrite (map_nth (fun i => existsb (Nat.eqb i) occ)), seq_nth by exact E. reflexivity.
    - rewrite nth_overflow; [reflexivity|]. rewrite map_length, seq_length. exact E.
  Qed.
  Lemma existsb_eqb_In z occ : existsb (Nat.eqb z) occ = true <-> In z occ.
  Proof.
    rewrite existsb_exists. split; [intros [y [H E]]; apply Nat.eqb_eq in E; subst; exact H|].
    intro H. exists z. split; [exact H|apply Nat.eqb_refl].
  Qed.

  (** * Writes *)
  Lemma fold_keep {A} (f : A -> tensor K -> tensor K) x (l : list A) :
    (forall a t, In a l -> f a t x = t x) -> forall t, fold_left (fun t a => f a t) l t x = t x.
  Proof.
    induction l as [|a l IH]; intros H t; cbn [fold_left]; [reflexivity|].
    rewrite IH by (intros; apply H; right; assumption). apply H. left. reflexivity.
  Qed.
  Lemma fold_stay {A} (f : A -> tensor K -> tensor K) x v (l : list A) :
    (forall a t, In a l -> t x = v -> f a t x = v) -> forall t, t x = v -> fold_left (fun t a => f a t) l t x = v.
  Proof.
    induction l as [|a l IH]; intros H t Ht; cbn [fold_left]; [exact Ht|].
    apply IH; [intros; apply H; [right; assumption|assumption]|]. apply H; [left; reflexivity|exact Ht].
  Qed.
  Lemma fold_hit {A} (f : A -> tensor K -> tensor K) x v (l : list A) a0 :
    (forall a t, In a l -> t x = v -> f a t x = v) -> In a0 l -> (forall t, f a0 t x = v) ->
    forall t, fold_left (fun t a => f a t) l t x = v.
  Proof.
    induction l as [|a l IH]; intros H Hin Hit t; [destruct Hin|]. cbn [fold_left]. destruct Hin as [->|Hin].
    - apply fold_stay; [intros; apply H; [right; assumption|assumption]|apply Hit].
    - apply IH; auto. intros; apply H; [right; assumption|assumption].
  Qed.
  Lemma tset_hit ind v (t : tensor K) : tset ind v t ind = v.
  Proof. unfold tset. rewrite ind_eqb_refl. reflexivity. Qed.
  Lemma tset_miss ind v (t : tensor K) x : x <> ind -> tset ind v t x = t x.
  Proof. intro D. unfold tset. destruct (ind_eqb x ind) eqn:E; [|reflexivity]. apply ind_eqb_spec in E. contradiction. Qed.

  Lemma app_inj_len {A} (a b c d : list A) : length a = length c -> a ++ b = c ++ d -> a = c /\ b = d.
  Proof.
    revert c. induction a as [|x a IH]; intros [|y c] L E; try discriminate; [auto|].
    injection E as -> E. destruct (IH c) as [-> ->]; auto.
  Qed.
  Lemma uperm_fun (l q : list nat) s s' : NoDup l -> In (q, s) (unordered_permute l) -> In (q, s') (unordered_permute l) -> s = s'.
  Proof.
    intros N H H'. pose proof (ps_perm K l q s N H) as E. rewrite (ps_perm K l q s' N H') in E.
    assert (D : (1 : K) <> - (1)).
    { intro X. apply (c1_neq0 K). apply self_opp. exact X. }
    destruct s, s'; try reflexivity; unfold sgn in E; exfalso; apply D; first [exact E|symmetry; exact E].
  Qed.
  Lemma uperm_Perm (l q : list nat) s : In (q, s) (unordered_permute l) -> Permutation l q.
  Proof.
    intro H. destruct l; [destruct H|]. apply unordered_permute_perm; [discriminate|]. apply in_map_iff. exists (q, s). auto.
  Qed.

  Theorem hf_is_determinant p na nb alp bet R c a : (1 <= p <= 3)%nat ->
    (forall z, In z (firstn na alp ++ firstn nb bet) -> (z < R)%nat) ->
    length c = p -> length a = p ->
    build_hf p na nb alp bet (c ++ a)
    = rdm_of R (@basis_vec K (det_state R (firstn na alp ++ firstn nb bet))) c a.
  Proof.
    intros Hp HR Lc La. unfold build_hf. set (occ := firstn na alp ++ firstn nb bet) in *.
    assert (DL := det_state_length R occ).
    assert (Ne : forall l : list nat, length l = p -> l <> []) by (intros [|? ?] Hl; [simpl in Hl; lia|discriminate]).
    (* what a matching write implies *)
    assert (M : forall ind cc aa, In ind (permute p occ) -> In cc (unordered_permute ind) -> In aa (unordered_permute ind) ->
       fst cc ++ fst aa = c ++ a -> StronglySorted lt ind /\ incl ind occ /\ fst cc = c /\ fst aa = a /\ Permutation ind c /\ Permutation ind a).
    { intros ind [c' s1] [a' s2] Hi H1 H2 E. cbn [fst] in *. apply permute_spec in Hi as [S [L I]].
      apply uperm_Perm in H1 as P1. apply uperm_Perm in H2 as P2.
      apply app_inj_len in E; [|rewrite <- (Permutation_length P1); lia]. destruct E as [-> ->]. repeat (split; auto). }
    destruct (NoDup_dec Nat.eq_dec c) as [Nc|Nc]; [destruct (incl_dec Nat.eq_dec c occ) as [Ic|Ic];
      [assert (Pd : {Permutation c a} + {~ Permutation c a});
       [destruct (in_dec (list_eq_dec Nat.eq_dec) a (map fst (unordered_permute c))) as [Pi|Pi]; rewrite (unordered_permute_perm c a (Ne c Lc)) in Pi; [left|right]; exact Pi|destruct Pd as [Pa|Pa]]|]|].
    - (* written *)
      destruct (sort_exists c Nc) as [s [Ss Ps]].
      assert (Ls : length s = p) by (rewrite (Permutation_length Ps); exact Lc).
      assert (Is : incl s occ) by (intros z Hz; apply Ic; apply (Permutation_in z Ps Hz)).
      destruct (perm_listed s c (Ne s Ls) Ps) as [sc Hc].
      destruct (perm_listed s a (Ne s Ls)) as [sa Ha]; [rewrite Ps; exact Pa|].
      assert (NDs := sorted_NoDup s Ss).
      transitivity (@sgn K (xorb sc sa)).
      + assert (U : forall ind cc aa t, In ind (permute p occ) -> In cc (unordered_permute ind) -> In aa (unordered_permute ind) ->
           t (c ++ a) = sgn (xorb sc sa) -> @tset K (fst cc ++ fst aa) (sgn (xorb (snd cc) (snd aa))) t (c ++ a) = sgn (xorb sc sa)).
        { intros ind [c' s1] [a' s2] t Hi H1 H2 Ht. cbn [fst snd].
          destruct (list_eq_dec Nat.eq_dec (c' ++ a') (c ++ a)) as [E|D]; [|rewrite tset_miss by congruence; exact Ht].
          destruct (M ind (c', s1) (a', s2) Hi H1 H2 E) as [S [I [E1 [E2 [P1 P2]]]]]. cbn [fst] in E1, E2. subst c' a'.
          assert (ind = s) by (apply sorted_perm_eq; auto; rewrite P1; symmetry; exact Ps). subst ind.
          rewrite tset_hit, (uperm_fun s c s1 sc NDs H1 Hc), (uperm_fun s a s2 sa NDs H2 Ha). reflexivity. }
        apply (fold_hit (fun ind t => fold_left (fun t c => fold_left (fun t a => tset (fst c ++ fst a) (sgn (xorb (snd c) (snd a))) t)
                  (unordered_permute ind) t) (unordered_permute ind) t) (c ++ a) _ _ s).
        * intros ind t Hi Ht. apply (fold_stay (fun c t => fold_left (fun t a => tset (fst c ++ fst a) (sgn (xorb (snd c) (snd a))) t) (unordered_permute ind) t)); [|exact Ht].
          intros cc t1 Hcc Ht1. apply (fold_stay (fun a t => tset (fst cc ++ fst a) (sgn (xorb (snd cc) (snd a))) t)); [|exact Ht1].
          intros aa t2 Haa Ht2. apply (U ind); assumption.
        * apply permute_spec. auto.
        * intro t. apply (fold_hit (fun c t => fold_left (fun t a => tset (fst c ++ fst a) (sgn (xorb (snd c) (snd a))) t) (unordered_permute s) t) (c ++ a) _ _ (c, sc)); [|exact Hc|].
          -- intros cc t1 Hcc Ht1. apply (fold_stay (fun a t => tset (fst cc ++ fst a) (sgn (xorb (snd cc) (snd a))) t)); [|exact Ht1].
             intros aa t2 Haa Ht2. apply (U s); auto. apply permute_spec. auto.
          -- intro t1. apply (fold_hit (fun a t => tset (fst (c, sc) ++ fst a) (sgn (xorb (snd (c, sc)) (snd a))) t) (c ++ a) _ _ (a, sa)); [|exact Ha|].
             ++ intros aa t2 Haa Ht2. apply (U s (c, sc) aa); auto. apply permute_spec. auto.
             ++ intro t2. cbn [fst snd]. apply tset_hit.
      + set (D := rdm_of R (basis_vec (det_state R occ))).
        rewrite (anti_uperm K (fun c => D c a) s c sc); [|intros l x y l'; apply rdm_antisym_cre|lia|exact Hc].
        rewrite (anti_uperm K (D s) s a sa); [|intros l x y l'; apply rdm_antisym_ann|lia|exact Ha].
        assert (D1 : D s s = 1).
        { unfold D, rdm_of. rewrite basis_expect by exact DL. unfold fock_mat, pmap_mat.
          rewrite fock_diag; [rewrite bits_eqb_refl; reflexivity|exact NDs|].
          intros z Hz. rewrite det_state_nth. apply andb_true_iff. split; [apply Nat.ltb_lt, HR, Is; exact Hz|].
          apply existsb_eqb_In, Is. exact Hz. }
        rewrite D1, sgn_xorb. ring.
    - (* not written *)
      transitivity (0 : K).
      + apply (fold_keep (fun ind t => fold_left (fun t c => fold_left (fun t a => tset (fst c ++ fst a) (sgn (xorb (snd c) (snd a))) t)
                  (unordered_permute ind) t) (unordered_permute ind) t) (c ++ a)).
        intros ind t Hi. apply (fold_keep (fun c t => fold_left (fun t a => tset (fst c ++ fst a) (sgn (xorb (snd c) (snd a))) t) (unordered_permute ind) t)).
        intros cc t1 Hcc. apply (fold_keep (fun a t => tset (fst cc ++ fst a) (sgn (xorb (snd cc) (snd a))) t)).
        intros aa t2 Haa. apply tset_miss. intro E. symmetry in E. destruct (M ind cc aa Hi Hcc Haa E) as [_ [_ [_ [_ [P1 P2]]]]].
        apply Pa. rewrite <- P1. exact P2.
      + symmetry. unfold rdm_of. rewrite basis_expect by exact DL. unfold fock_mat, pmap_mat.
        destruct (fock _ _) as [[s m]|] eqn:E; [|reflexivity]. destruct (bits_eqb m _) eqn:Em; [|reflexivity].
        apply bits_eqb_spec in Em. subst m. apply fock_diag_cond in E as [_ [P _]]. contradiction.
    - transitivity (0 : K).
      + apply (fold_keep (fun ind t => fold_left (fun t c => fold_left (fun t a => tset (fst c ++ fst a) (sgn (xorb (snd c) (snd a))) t)
                  (unordered_permute ind) t) (unordered_permute ind) t) (c ++ a)).
        intros ind t Hi. apply (fold_keep (fun c t => fold_left (fun t a => tset (fst c ++ fst a) (sgn (xorb (snd c) (snd a))) t) (unordered_permute ind) t)).
        intros cc t1 Hcc. apply (fold_keep (fun a t => tset (fst cc ++ fst a) (sgn (xorb (snd cc) (snd a))) t)).
        intros aa t2 Haa. apply tset_miss. intro E. symmetry in E. destruct (M ind cc aa Hi Hcc Haa E) as [_ [I [_ [_ [P1 P2]]]]].
        apply Ic. intros z Hz. apply I. apply (Permutation_in z (Permutation_sym P1) Hz).
      + symmetry. unfold rdm_of. rewrite basis_expect by exact DL. unfold fock_mat, pmap_mat.
        destruct (fock _ _) as [[s m]|] eqn:E; [|reflexivity]. destruct (bits_eqb m _) eqn:Em; [|reflexivity].
        apply bits_eqb_spec in Em. subst m. apply fock_diag_cond in E as [_ [P O]]. exfalso. apply Ic. intros z Hz.
        specialize (O z (Permutation_in z P Hz)). rewrite det_state_nth in O. apply andb_true_iff in O as [_ O].
        apply existsb_eqb_In. exact O.
    - transitivity (0 : K).
      + apply (fold_keep (fun ind t => fold_left (fun t c => fold_left (fun t a => tset (fst c ++ fst a) (sgn (xorb (snd c) (snd a))) t)
                  (unordered_permute ind) t) (unordered_permute ind) t) (c ++ a)).
        intros ind t Hi. apply (fold_keep (fun c t => fold_left (fun t a => tset (fst c ++ fst a) (sgn (xorb (snd c) (snd a))) t) (unordered_permute ind) t)).
        intros cc t1 Hcc. apply (fold_keep (fun a t => tset (fst cc ++ fst a) (sgn (xorb (snd cc) (snd a))) t)).
        intros aa t2 Haa. apply tset_miss. intro E. symmetry in E. destruct (M ind cc aa Hi Hcc Haa E) as [S [_ [_ [_ [P1 P2]]]]].
        apply Nc. apply (Permutation_NoDup P1). apply sorted_NoDup. exact S.
      + symmetry. unfold rdm_of. rewrite basis_expect by exact DL. unfold fock_mat, pmap_mat.
        destruct (fock _ _) as [[s m]|] eqn:E; [|reflexivity]. destruct (bits_eqb m _) eqn:Em; [|reflexivity].
        apply bits_eqb_spec in Em. subst m. apply fock_diag_cond in E as [N [P O]]. exfalso. apply Nc.
        apply (Permutation_NoDup (Permutation_sym P)). exact N.
  Qed.

  (** * Trace *)
  Lemma lsum_flat_map {A B} (f : A -> list B) (g : B -> K) l : lsum (flat_map f l) g = lsum l (fun x => lsum (f x) g).
  Proof. induction l as [|x l IH]; simpl; [reflexivity|]. rewrite lsum_app, IH. reflexivity. Qed.
  Lemma lsum_map {A B} (f : A -> B) (g : B -> K) l : lsum (map f l) g = lsum l (fun x => g (f x)).
  Proof. induction l as [|x l IH]; simpl; [reflexivity|]. rewrite IH. reflexivity. Qed.
  Lemma all_inds_snoc r n : forall f : list nat -> K,
    lsum (all_inds r (S n)) f = lsum (all_inds r n) (fun l => lsum (seq 0 r) (fun x => f (l ++ [x]))).
  Proof.
    induction n as [|n IH]; intro f.
    - cbn [all_inds]. rewrite lsum_flat_map. cbn [map]. unfold lsum at 3. cbn [fold_right app].
      transitivity (lsum (seq 0 r) (fun x => f [x])); [apply lsum_ext; intros; unfold lsum; simpl; ring|ring].
    - change (all_inds r (S (S n))) with (flat_map (fun x => map (cons x) (all_inds r (S n))) (seq 0 r)).
      rewrite lsum_flat_map.
      change (all_inds r (S n)) with (flat_map (fun x => map (cons x) (all_inds r n)) (seq 0 r)) at 2.
      rewrite lsum_flat_map. apply lsum_ext. intros x _. rewrite !lsum_map. rewrite (IH (fun l => f (x :: l))). reflexivity.
  Qed.
  Theorem rdm_trace R Ne p (psi : bits -> K) : has_particles R Ne psi -> (p <= Ne)%nat ->
    ofnat (fact (Ne - p)) * lsum (all_inds R p) (fun l => rdm_of R psi l l) = ofnat (fact Ne) * rdm_of R psi [] [].
  Proof.
    intros H. induction p as [|p IH]; intro L.
    - rewrite Nat.sub_0_r. cbn [all_inds lsum fold_right]. ring.
    - rewrite <- IH by lia. rewrite all_inds_snoc.
      assert (Ll : forall l, In l (all_inds R p) -> length l = p).
      { clear. induction p as [|p IH]; intros l Hl; [destruct Hl as [<-|[]]; reflexivity|].
        cbn [all_inds] in Hl. apply in_flat_map in Hl as [x [_ Hl]]. apply in_map_iff in Hl as [l' [<- Hl]]. simpl. rewrite IH; auto. }
      rewrite (lsum_ext K _ _ (fun l => ofnat (Ne - p) * rdm_of R psi l l)).
      + rewrite lsum_scal. replace (Ne - p)%nat with (S (Ne - S p)) by lia.
        change (fact (S (Ne - S p))) with (S (Ne - S p) * fact (Ne - S p))%nat. rewrite ofnat_mul. ring.
      + intros l Hl. rewrite (rdm_contract K R Ne psi l l H), (Ll l Hl). reflexivity.
  Qed.
  (** The determinant: *)
  Lemma basis_particles R x : length x = R -> has_particles R (popcount x) (@basis_vec K x).
  Proof.
    intros L y Ly D. unfold basis_vec. destruct (bits_eqb x y) eqn:E; [|reflexivity]. apply bits_eqb_spec in E. subst y. contradiction.
  Qed.
  Lemma basis_norm R x : length x = R -> rdm_of R (@basis_vec K x) [] [] = 1.
  Proof.
    intro L. unfold rdm_of. rewrite basis_expect by exact L. unfold fock_mat, pmap_mat. cbn. rewrite bits_eqb_refl. reflexivity.
  Qed.
  Lemma popcount_det R occ : NoDup occ -> (forall z, In z occ -> (z < R)%nat) -> popcount (det_state R occ) = length occ.
  Proof.
    intros N H. unfold popcount, det_state.
    transitivity (length (filter (fun i => existsb (Nat.eqb i) occ) (seq 0 R))).
    { generalize (seq 0 R). intro l. induction l as [|x l IH]; simpl; [reflexivity|]. destruct (existsb (Nat.eqb x) occ); simpl; rewrite IH; reflexivity. }
    apply Permutation_length. apply NoDup_Permutation; [apply NoDup_filter, seq_NoDup|exact N|].
    intro x. rewrite filter_In, in_seq, existsb_eqb_In. split; [tauto|]. intro Hx. specialize (H x Hx). split; [lia|exact Hx].
  Qed.
  Theorem hf_trace p na nb alp bet R : (1 <= p <= 3)%nat -> let occ := firstn na alp ++ firstn nb bet in
    NoDup occ -> (forall z, In z occ -> (z < R)%nat) -> (p <= length occ)%nat ->
    ofnat (fact (length occ - p)) * lsum (all_inds R p) (fun l => build_hf p na nb alp bet (l ++ l)) = @ofnat K (fact (length occ)).
  Proof.
    intros Hp occ N H L.
    assert (Ll : forall q l, In l (all_inds R q) -> length l = q).
    { clear. induction q as [|q IH]; intros l Hl; [destruct Hl as [<-|[]]; reflexivity|].
      cbn [all_inds] in Hl. apply in_flat_map in Hl as [x [_ Hl]]. apply in_map_iff in Hl as [l' [<- Hl]]. simpl. rewrite IH; auto. }
    rewrite (lsum_ext K _ _ (fun l => rdm_of R (@basis_vec K (det_state R occ)) l l)).
    - pose proof (rdm_trace R (length occ) p (basis_vec (det_state R occ))) as T.
      rewrite T; [rewrite basis_norm by apply det_state_length; ring| |exact L].
      rewrite <- (popcount_det R occ N H). apply basis_particles, det_state_length.
    - intros l Hl. apply hf_is_determinant; auto; apply Ll; exact Hl.
  Qed.

  (** * reduce_order *)
  Lemma sum_range_lsum r (f : nat -> K) : sum_range r f = lsum (seq 0 r) f.
  Proof.
    unfold sum_range. assert (G : forall l s, fold_left (fun s x => s + f x) l s = s + lsum l f).
    { induction l as [|x l IH]; intro s; simpl; [ring|]. rewrite IH. ring. }
    rewrite G. ring.
  Qed.
  Theorem reduce_order_spec p R Ne (w : K) (t : tensor K) psi : p = 2%nat \/ p = 3%nat -> (p <= Ne)%nat ->
    has_particles R Ne psi -> ofnat (Ne - p + 1) * w = 1 ->
    (forall c a, length c = p -> length a = p -> t (c ++ a) = rdm_of R psi c a) ->
    forall c a, length c = (p - 1)%nat -> length a = (p - 1)%nat -> reduce_order p R w t (c ++ a) = rdm_of R psi c a.
  Proof.
    intros Hp L H W T c a Lc La.
    assert (E : lsum (seq 0 R) (fun x => t ((c ++ [x]) ++ (a ++ [x]))) * w = rdm_of R psi c a).
    { rewrite (lsum_ext K _ _ (fun x => rdm_of R psi (c ++ [x]) (a ++ [x]))).
      - rewrite (rdm_contract K R Ne psi c a H), La. replace (Ne - (p - 1))%nat with (Ne - p + 1)%nat by lia.
        transitivity (ofnat (Ne - p + 1) * w * rdm_of R psi c a); [ring|]. rewrite W. ring.
      - intros x _. apply T; rewrite app_length; simpl; lia. }
    rewrite <- E. destruct Hp as [->| ->].
    - destruct c as [|i [|? ?]]; try discriminate. destruct a as [|j [|? ?]]; try discriminate.
      unfold reduce_order. cbn [app]. rewrite sum_range_lsum. reflexivity.
    - destruct c as [|i [|j [|? ?]]]; try discriminate. destruct a as [|k [|l [|? ?]]]; try discriminate.
      unfold reduce_order. cbn [app]. rewrite sum_range_lsum. reflexivity.
  Qed.
  (** For an arbitrary array. *)
  Theorem reduce_order_contract p R (w : K) (t : tensor K) c a : p = 2%nat \/ p = 3%nat ->
    length c = (p - 1)%nat -> length a = (p - 1)%nat ->
    reduce_order p R w t (c ++ a) = w * sumK (map (fun x => t ((c ++ [x]) ++ (a ++ [x]))) (seq 0 R)).
  Proof.
    intros Hp Lc La.
    assert (E : forall l (f : nat -> K), lsum l f = sumK (map f l)) by (induction l as [|x l IH]; intro f; simpl; [reflexivity|rewrite IH; reflexivity]).
    rewrite <- E. destruct Hp as [->| ->].
    - destruct c as [|i [|? ?]]; try discriminate. destruct a as [|j [|? ?]]; try discriminate.
      unfold reduce_order. cbn [app]. rewrite sum_range_lsum. ring.
    - destruct c as [|i [|j [|? ?]]]; try discriminate. destruct a as [|k [|l [|? ?]]]; try discriminate.
      unfold reduce_order. cbn [app]. rewrite sum_range_lsum. ring.
  Qed.
End RdmProofs.
