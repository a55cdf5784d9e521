(** Adjoint (FermiString.H), canonical anticommutation relations, linearity of transforms. *)
From Coq Require Import Bool List Arith ZArith Lia Ring Permutation.
From Verif Require Import Coeff MatSpec MatLemmas PauliModel PauliProofs OperatorModel
  OperatorProofs FockSpec FermiModel FermiProofs TransformModel TwoTerm JWProofs.
Import ListNotations.

Definition cadj (e : fop * nat) : fop * nat := (fadj (fst e), snd e).

Lemma ladder_fadj o : ladder (fadj o) = ladder o.
Proof. destruct o; reflexivity. Qed.
Lemma fadj_fadj o : fadj (fadj o) = o.
Proof. destruct o; reflexivity. Qed.

(** * Sorted permutations are unique when the indices are distinct *)
Lemma ssorted_lt l o i : ssorted ((o, i) :: l) -> forall e, In e l -> i < snd e.
Proof.
  revert o i. induction l as [|[b j] l IH]; intros o i S e He; [destruct He|].
  destruct S as [S1 S2]. destruct He as [<-|He]; [exact S1|]. specialize (IH b j S2 e He). lia.
Qed.
Lemma ssorted_tail x l : ssorted (x :: l) -> ssorted l.
Proof. destruct x as [o i], l as [|[b j] l]; cbn; tauto. Qed.

Lemma sorted_le l o i : sorted ((o, i) :: l) -> forall e, In e l -> i <= snd e.
Proof.
  revert o i. induction l as [|[b j] l IH]; intros o i S e He; [destruct He|].
  destruct S as [S1 S2]. destruct He as [<-|He]; [exact S1|]. specialize (IH b j S2 e He). lia.
Qed.
Lemma sorted_tail x l : sorted (x :: l) -> sorted l.
Proof. destruct x as [o i], l as [|[b j] l]; cbn; tauto. Qed.

Lemma sorted_unique l l' : ssorted l -> sorted l' -> Permutation l l' -> l = l'.
Proof.
  revert l'. induction l as [|[o i] l IH]; intros l' S S' P.
  - apply Permutation_nil in P. subst. reflexivity.
  - destruct l' as [|[o' i'] l']; [apply Permutation_sym, Permutation_nil in P; discriminate|].
    assert (E : (o, i) = (o', i')).
    { assert (H1 : In (o', i') ((o, i) :: l)) by (eapply Permutation_in; [apply Permutation_sym; exact P|left; reflexivity]).
      assert (H2 : In (o, i) ((o', i') :: l')) by (eapply Permutation_in; [exact P|left; reflexivity]).
      destruct H1 as [H1|H1]; [exact H1|]. destruct H2 as [H2|H2]; [symmetry; exact H2|].
      pose proof (ssorted_lt l o i S _ H1). pose proof (sorted_le l' o' i' S' _ H2). cbn in *. lia. }
    injection E as <- <-. f_equal. apply IH.
    + eapply ssorted_tail; exact S.
    + eapply sorted_tail; exact S'.
    + eapply Permutation_cons_inv. exact P.
Qed.

Lemma ssorted_flat i s : ssorted (flat i s) /\ forall e, In e (flat i s) -> i <= snd e.
Proof.
  revert i. induction s as [|[o|] s IH]; intro i; cbn [flat].
  - split; [exact Logic.I|]. intros e [].
  - destruct (IH (S i)) as [S1 S2]. split.
    + destruct (flat (S i) s) as [|[b j] l] eqn:E; [exact Logic.I|]. split; [|exact S1].
      specialize (S2 (b, j) (or_introl eq_refl)). cbn in S2. lia.
    + intros e [<-|He]; [cbn; lia|]. specialize (S2 e He). lia.
  - destruct (IH (S i)) as [S1 S2]. split; [exact S1|]. intros e He. specialize (S2 e He). lia.
Qed.

Lemma bubble_pass_cadj l : bubble_pass (map cadj l) =
  match bubble_pass l with Some (s, l') => Some (s, map cadj l') | None => None end.
Proof.
  induction l as [|[a i] t IH]; [reflexivity|]. destruct t as [|[b j] t']; [reflexivity|].
  change (map cadj ((a, i) :: (b, j) :: t')) with ((fadj a, i) :: (fadj b, j) :: map cadj t').
  change (map cadj ((b, j) :: t')) with ((fadj b, j) :: map cadj t') in IH.
  assert (U : forall a i b j t, bubble_pass ((a, i) :: (b, j) :: t) =
    if j <? i then Some (ladder a && ladder b, (b, j) :: (a, i) :: t)
    else match bubble_pass ((b, j) :: t) with Some (s, l') => Some (s, (a, i) :: l') | None => None end)
    by reflexivity.
  rewrite !U, IH. destruct (j <? i); [rewrite !ladder_fadj; reflexivity|].
  destruct (bubble_pass ((b, j) :: t')) as [[s l']|]; reflexivity.
Qed.

Lemma flat_map_fadj i s : flat i (map (option_map fadj) s) = map cadj (flat i s).
Proof.
  revert i. induction s as [|[o|] s IH]; intro i; cbn; [reflexivity| |apply IH].
  rewrite IH. reflexivity.
Qed.

Lemma nodup_inds_ss l : ssorted l -> nodup_inds l = true.
Proof.
  induction l as [|[o i] l IH]; intro S; [reflexivity|]. cbn [nodup_inds].
  apply andb_true_iff. split; [|apply IH; eapply ssorted_tail; exact S].
  apply negb_true_iff. destruct (existsb (fun e => Nat.eqb i (snd e)) l) eqn:E; [|reflexivity].
  apply existsb_exists in E. destruct E as [e [He E]]. apply Nat.eqb_eq in E.
  pose proof (ssorted_lt l o i S e He). lia.
Qed.

Lemma ssorted_cadj l : ssorted l -> ssorted (map cadj l).
Proof.
  induction l as [|[o i] l IH]; intro S; [exact Logic.I|]. destruct l as [|[b j] l]; [exact Logic.I|].
  destruct S as [S1 S2]. split; [exact S1|]. apply (IH S2).
Qed.

(** A string is determined by its length and its list of letters. *)
Lemma flat_inj i s t : length s = length t -> flat i s = flat i t -> s = t.
Proof.
  revert i t. induction s as [|x s IH]; intros i [|y t] L E; try discriminate; [reflexivity|].
  cbn in L. injection L as L.
  destruct x as [o|], y as [o'|]; cbn in E.
  - injection E as <- E. f_equal. eapply IH; eassumption.
  - exfalso. destruct (ssorted_flat (S i) t) as [_ G].
    specialize (G (o, i)). rewrite <- E in G. specialize (G (or_introl eq_refl)). cbn in G. lia.
  - exfalso. destruct (ssorted_flat (S i) s) as [_ G].
    specialize (G (o', i)). rewrite E in G. specialize (G (or_introl eq_refl)). cbn in G. lia.
  - f_equal. eapply IH; eassumption.
Qed.

Section Adj.
  Variable K : CoefRing.
  Add Ring KRing : (c_ring K).
  Local Open Scope coef_scope.

  Lemma sort_loop_cadj anti f (c : K) l :
    sort_loop anti f c (map cadj l) =
    match sort_loop anti f c l with Some (c', l') => Some (c', map cadj l') | None => None end.
  Proof.
    revert c l. induction f as [|f IH]; intros c l; [reflexivity|]. cbn [sort_loop].
    rewrite bubble_pass_cadj. destruct (bubble_pass l) as [[s l']|]; [apply IH|reflexivity].
  Qed.

  (** The sign found by sorting does not depend on the coefficient. *)
  Lemma sort_loop_lin anti f l : inversions l < f ->
    exists s l', (forall c : K, sort_loop anti f c l = Some (c * sgn (anti && s), l'))
      /\ Permutation l l' /\ sorted l'.
  Proof.
    revert l. induction f as [|f IH]; intros l Hf; [lia|]. cbn [sort_loop].
    destruct (bubble_pass l) as [[s1 l1]|] eqn:B.
    - pose proof (bubble_pass_inv _ _ _ B) as HI.
      destruct (IH l1 ltac:(lia)) as [s [l' [E [P S]]]].
      exists (xorb s1 s), l'. split; [|split].
      + intro c. rewrite E. f_equal. f_equal. destruct anti, s1, s; cbn; ring.
      + eapply perm_trans; [eapply bubble_pass_perm; exact B|exact P].
      + exact S.
    - exists false, l. split; [|split].
      + intro c. rewrite andb_false_r. cbn. f_equal. f_equal. ring.
      + apply Permutation_refl.
      + apply bubble_pass_None. exact B.
  Qed.

  Lemma rev_cadj l : rev (map cadj l) = map cadj (rev l).
  Proof. rewrite map_rev. reflexivity. Qed.

  (** H in closed form. *)
  Lemma fermi_H_eq s (c : K) : c <> 0 ->
    exists g, fermi_H (s, c) = Some (map (option_map fadj) s, cconj c * sgn g)
      /\ fermi_H (map (option_map fadj) s, cconj c * sgn g) = Some (s, c).
  Proof.
    intro Hc. unfold fermi_H. cbn [fst snd]. unfold conj_letters.
    change (fun e : fop * nat => (fadj (fst e), snd e)) with cadj.
    rewrite flat_map_fadj, map_length.
    replace (map cadj (map cadj (flat 0 s))) with (flat 0 s).
    2:{ rewrite map_map. rewrite <- (map_id (flat 0 s)) at 1. apply map_ext. intros [o i].
        unfold cadj. cbn. rewrite fadj_fadj. reflexivity. }
    rewrite rev_cadj.
    destruct (ssorted_flat 0 s) as [SS _].
    destruct (flat 0 s) as [|e0 l0] eqn:El.
    { exists false. cbn. assert (Es : s = repeat None (length s)).
      { apply (flat_inj 0); [rewrite repeat_length; reflexivity|]. rewrite El.
        symmetry. generalize 0%nat. generalize (length s). induction n; intro k; cbn; [reflexivity|apply IHn]. }
      split; f_equal; f_equal.
      - rewrite Es at 2. clear. induction (length s); cbn; congruence.
      - ring.
      - symmetry. exact Es.
      - replace (cconj c * 1) with (cconj c) by ring. apply cconj_inv. }
    rewrite <- El in *. set (l := flat 0 s) in *.
    assert (Hne : l <> []) by (rewrite El; discriminate).
    destruct (sort_loop_lin true (S (length (rev l) * length (rev l))) (rev l)) as [g [l1 [E [P S]]]].
    { pose proof (inversions_le (rev l)). lia. }
    assert (El1 : l1 = l).
    { symmetry. apply sorted_unique; [exact SS|exact S|].
      eapply perm_trans; [apply Permutation_rev|exact P]. }
    subst l1. cbn [andb] in E.
    assert (Hrev : rev l <> []).
    { intro H. apply Hne. rewrite <- (rev_involutive l), H. reflexivity. }
    assert (Hlt : forall e, In e l -> snd e < length s).
    { intros e He. apply In_flat in He. lia. }
    assert (ASM : forall m, ssorted m -> m <> [] -> (forall e, In e m -> snd e < length s) ->
                  merge_stage m = Some (Some m) /\ flat 0 (assemble m (length s)) = m /\ length (assemble m (length s)) = length s).
    { intros m Sm Nm Hm. split; [unfold merge_stage; rewrite nodup_inds_ss by exact Sm; reflexivity|].
      apply assemble_spec; assumption. }
    destruct (ASM l SS Hne Hlt) as [M1 [A1 L1]].
    destruct (ASM (map cadj l) (ssorted_cadj l SS)) as [M2 [A2 L2]].
    { intro H. apply Hne. apply map_eq_nil in H. exact H. }
    { intros e He. apply in_map_iff in He. destruct He as [x [<- Hx]]. exact (Hlt x Hx). }
    assert (NZ : forall a : K, a <> 0 -> a * sgn g <> 0).
    { intros a Ha H. apply Ha. replace a with (a * sgn g * sgn g) by (destruct g; cbn; ring). rewrite H. ring. }
    assert (Hcc : cconj c <> 0).
    { intro H. apply Hc. rewrite <- (cconj_inv K c), H. apply cconj_0. }
    exists g. split.
    - unfold fermi_new. destruct (map cadj (rev l)) as [|x m] eqn:Em.
      { apply map_eq_nil in Em. contradiction. }
      rewrite <- Em. unfold generate. rewrite map_length, sort_loop_cadj, E. rewrite M2.
      cbn beta iota zeta. rewrite (proj2 (ceqb_false K _ _) (NZ _ Hcc)).
      destruct (map cadj l) as [|y m2] eqn:Em2; [apply map_eq_nil in Em2; contradiction|].
      f_equal. f_equal. rewrite <- Em2 in *. apply (flat_inj 0); [rewrite L2, map_length; reflexivity|].
      rewrite A2, flat_map_fadj. reflexivity.
    - unfold fermi_new. destruct (rev l) as [|x m] eqn:Em; [contradiction|].
      rewrite <- Em in *. unfold generate. rewrite E, M1. cbn beta iota zeta.
      assert (EC : cconj (cconj c * sgn g) * sgn g = c).
      { rewrite cconj_mul, cconj_inv.
        replace (cconj (@sgn K g)) with (@sgn K g) by (destruct g; cbn; rewrite ?cconj_opp, ?cconj_1; reflexivity).
        destruct g; cbn; ring. }
      rewrite EC. rewrite (proj2 (ceqb_false K _ _) Hc). rewrite El at 1. f_equal. f_equal.
      apply (flat_inj 0); [exact L1|exact A1].
  Qed.

  (** * Adjoint matrices *)
  Lemma madj_mul n (A B : mat K) : meq n (madj (mmul n A B)) (mmul n (madj B) (madj A)).
  Proof.
    intros r c Hr Hc. unfold madj, mmul. rewrite sumbits_conj. apply sumbits_ext. intros b _.
    rewrite cconj_mul. ring.
  Qed.
  Lemma madj_meq n (A B : mat K) : meq n A B -> meq n (madj A) (madj B).
  Proof. intros H r c Hr Hc. unfold madj. rewrite H by assumption. reflexivity. Qed.

  Lemma fock_mat_one_nil o q : @fock_mat K [(o, q)] [] [] = 0.
  Proof. unfold fock_mat, pmap_mat. rewrite fock_cons. cbn. rewrite fock1_nil. reflexivity. Qed.

  Lemma fock_mat1_adj o q n : meq n (@fock_mat K [(fadj o, q)]) (madj (fock_mat [(o, q)])).
  Proof.
    revert q. induction n as [|n IH]; intros q [|a r] [|b c] Hr Hc; try discriminate; unfold madj.
    - rewrite !fock_mat_one_nil, cconj_0. reflexivity.
    - cbn in Hr, Hc. destruct q as [|q].
      + rewrite !fock_mat_0. rewrite cconj_mul. f_equal.
        * destruct o, a, b; cbn; rewrite ?cconj_0, ?cconj_1; reflexivity.
        * unfold mone. rewrite (bits_eqb_sym c r). destruct (bits_eqb r c); rewrite ?cconj_0, ?cconj_1; reflexivity.
      + rewrite !fock_mat_S. rewrite (IH q r c) by lia. unfold madj. rewrite cconj_mul, ladder_fadj. f_equal.
        destruct (ladder o), a, b; cbn; rewrite ?cconj_opp, ?cconj_0, ?cconj_1; reflexivity.
  Qed.

  Lemma mone_adj n : meq n (madj (@mone K)) mone.
  Proof.
    intros r c _ _. unfold madj, mone. rewrite (bits_eqb_sym c r).
    destruct (bits_eqb r c); [apply cconj_1|apply cconj_0].
  Qed.

  Lemma fock_mat_adj l n : meq n (@fock_mat K (rev (map cadj l))) (madj (fock_mat l)).
  Proof.
    induction l as [|[o q] l IH].
    - cbn [map rev]. eapply meq_trans; [apply fock_mat_nil|]. eapply meq_trans; [apply meq_sym, mone_adj|].
      apply madj_meq, meq_sym, fock_mat_nil.
    - cbn [map rev]. eapply meq_trans; [apply fock_mat_app|].
      eapply meq_trans; [apply mmul_meq; [exact IH|apply fock_mat1_adj]|].
      eapply meq_trans; [apply meq_sym, madj_mul|]. apply madj_meq.
      apply meq_sym. apply (fock_mat_app K n [(o, q)] l).
  Qed.

  Lemma fermi_H_adjoint s (c : K) :
    exists s' c', fermi_H (s, c) = Some (s', c') /\ length s' = length s
      /\ meq (length s) (mscal c' (fstr_mat s')) (madj (mscal c (fstr_mat s))).
  Proof.
    unfold fermi_H. cbn [fst snd].
    destruct (fermi_new_spec K (cconj c) (rev (conj_letters (flat 0 s))) (length s)) as [s' [c' [E [L [M _]]]]].
    { intros e He. apply in_rev in He. unfold conj_letters in He. apply in_map_iff in He.
      destruct He as [x [<- Hx]]. cbn. apply In_flat in Hx. lia. }
    exists s', c'. split; [exact E|]. split; [exact L|].
    intros r q Hr Hq. unfold mscal at 1. rewrite M.
    change (conj_letters (flat 0 s)) with (map cadj (flat 0 s)).
    rewrite (fock_mat_adj (flat 0 s) (length s) r q Hr Hq). unfold madj, mscal, fstr_mat.
    rewrite cconj_mul. reflexivity.
  Qed.

  (** * Canonical anticommutation relations on Fock space *)
  Lemma fock_mat_rel' s l l' n : fock_rel s l l' -> meq n (@fock_mat K l) (mscal (sgn s) (fock_mat l')).
  Proof.
    intros H r c Hr Hc. unfold fock_mat, pmap_mat, mscal. rewrite H.
    destruct (fock l' c) as [[t m]|]; cbn; [|ring]. destruct (bits_eqb m r); [|ring].
    rewrite sgn_xorb. ring.
  Qed.

  Lemma fock_mat_pair x y n : meq n (mmul n (@fock_mat K [x]) (fock_mat [y])) (fock_mat [x; y]).
  Proof. apply meq_sym. apply (fock_mat_app K n [x] [y]). Qed.

  Lemma fock_pair_same a b i n : fock [(a, i); (b, i)] n =
    match merge_table a b with None => None | Some o => fock [(o, i)] n end.
  Proof.
    pose proof (fock1_same a b i n) as H. cbn.
    destruct (fock1 b i n) as [[s m]|]; cbn in *.
    - destruct (fock1 a i m) as [[s' m']|] eqn:E; cbn in *;
        (destruct (merge_table a b) as [o|]; [rewrite <- H|try discriminate H]); destruct s; try reflexivity;
        destruct s'; reflexivity.
    - destruct (merge_table a b) as [o|]; [rewrite <- H|]; reflexivity.
  Qed.

  Lemma par_hol i n : i < n -> meq n (madd (@fock_mat K [(Hol, i)]) (fock_mat [(Par, i)])) mone.
  Proof.
    intros Hi r c Hr Hc. unfold madd.
    rewrite <- (number_mat K Hol i (n - i - 1) r c), <- (number_mat K Par i (n - i - 1) r c) by (auto; lia).
    rewrite <- (pmat_identity K n r c Hr Hc).
    replace (repeat PI i ++ PI :: repeat PI (n - i - 1)) with (repeat PI n).
    2:{ change (PI :: repeat PI (n - i - 1)) with (repeat PI (S (n - i - 1))).
        rewrite <- repeat_app. f_equal. lia. }
    cbn [number_c2]. rewrite (one_minus_half K).
    transitivity ((chalf + chalf) * pmat (repeat PI n) r c : K); [ring|rewrite chalf_dbl; ring].
  Qed.

  Lemma car_zero (a b : fop) i j n : ladder a = true -> ladder b = true -> (i <> j \/ a = b) ->
    meq n (madd (mmul n (@fock_mat K [(a, i)]) (fock_mat [(b, j)])) (mmul n (fock_mat [(b, j)]) (fock_mat [(a, i)]))) mzero.
  Proof.
    intros Ha Hb H r c Hr Hc. unfold madd, mzero. rewrite !fock_mat_pair by assumption.
    destruct (Nat.eq_dec i j) as [<-|Hij].
    - destruct H as [H|<-]; [congruence|]. unfold fock_mat, pmap_mat. rewrite fock_pair_same.
      destruct a; try discriminate; cbn; ring.
    - rewrite (fock_mat_rel' _ _ _ n (fock_swap a i b j [] Hij) r c Hr Hc), Ha, Hb. cbn. unfold mscal. ring.
  Qed.

  Lemma car_one i n : i < n ->
    meq n (madd (mmul n (@fock_mat K [(Ann, i)]) (fock_mat [(Cre, i)])) (mmul n (fock_mat [(Cre, i)]) (fock_mat [(Ann, i)]))) mone.
  Proof.
    intros Hi r c Hr Hc. rewrite <- (par_hol i n Hi r c Hr Hc). unfold madd. rewrite !fock_mat_pair by assumption.
    unfold fock_mat, pmap_mat. rewrite !fock_pair_same. cbn [merge_table]. reflexivity.
  Qed.

  Lemma single_flat N i o : flat 0 (single N i o) = [(o, i)].
  Proof.
    unfold single. rewrite flat_app, repeat_length, Nat.add_0_r. cbn [flat].
    assert (G : forall k m, flat m (repeat None k) = []) by (induction k; intro m; cbn; auto).
    rewrite !G. reflexivity.
  Qed.
  Lemma single_length N i o : i < N -> length (single N i o) = N.
  Proof. intro H. unfold single. rewrite app_length. cbn. rewrite !repeat_length. lia. Qed.

  Definition jw1 (N i : nat) (o : fop) : mat K := omat (jw_string (single N i o, 1)).

  Lemma jw1_mat N i o : i < N -> meq N (jw1 N i o) (fock_mat [(o, i)]).
  Proof.
    intros H r c Hr Hc. unfold jw1. destruct (jw_string_spec K (single N i o) 1) as [M _].
    { unfold count_ops. rewrite single_flat. cbn. replace (chalf * 1 * 1 : K) with (chalf : K) by ring. apply small_half. }
    rewrite single_length in M by exact H. rewrite M by assumption. unfold mscal, fstr_mat. rewrite single_flat. ring.
  Qed.

  Lemma madd_meq n (A A' B B' : mat K) : meq n A A' -> meq n B B' -> meq n (madd A B) (madd A' B').
  Proof. intros H G r c Hr Hc. unfold madd. rewrite H, G by assumption. reflexivity. Qed.

  Lemma anticomm_meq n (A A' B B' : mat K) : meq n A A' -> meq n B B' -> meq n (anticomm n A B) (anticomm n A' B').
  Proof. intros H G. apply madd_meq; apply mmul_meq; assumption. Qed.

  Lemma jw_car N i j : i < N -> j < N ->
    meq N (anticomm N (jw1 N i Ann) (jw1 N j Ann)) mzero /\
    meq N (anticomm N (jw1 N i Cre) (jw1 N j Cre)) mzero /\
    meq N (anticomm N (jw1 N i Ann) (jw1 N j Cre)) (if Nat.eqb i j then mone else mzero) /\
    meq N (madj (jw1 N i Ann)) (jw1 N i Cre).
  Proof.
    intros Hi Hj. split; [|split; [|split]].
    - eapply meq_trans; [apply anticomm_meq; apply jw1_mat; assumption|]. apply car_zero; auto.
    - eapply meq_trans; [apply anticomm_meq; apply jw1_mat; assumption|]. apply car_zero; auto.
    - eapply meq_trans; [apply anticomm_meq; apply jw1_mat; assumption|].
      destruct (Nat.eqb_spec i j) as [<-|H]; [apply car_one; exact Hi|apply car_zero; auto].
    - eapply meq_trans; [apply madj_meq, jw1_mat; exact Hi|].
      eapply meq_trans; [apply meq_sym; apply (fock_mat1_adj Ann)|]. apply meq_sym, jw1_mat. exact Hi.
  Qed.
End Adj.
