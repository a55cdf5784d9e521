(** Proofs about generate_rdme, _build_fermionic_RDM, _build_hf_spin and reduce_order. *)
From Coq Require Import Bool List Arith Permutation Sorted ListDec Lia Ring.
From Verif Require Import Coeff MatSpec MatLemmas OpSpec FockSpec CircuitSpec FermiModel FermiProofs OperatorModel OperatorProofs
  TransformLin RdmModel RdmSpec RdmEnum RdmPerm RdmFock.
Import ListNotations.

Lemma ind_eqb_spec a : forall b, ind_eqb a b = true <-> a = b.
Proof.
  induction a as [|x a IH]; intros [|y b]; simpl; try (split; [discriminate|discriminate]); [tauto|].
  rewrite andb_true_iff, Nat.eqb_eq, IH. split; [intros [-> ->]; reflexivity|]. intro E. injection E as -> ->. auto.
Qed.
Lemma ind_eqb_refl a : ind_eqb a a = true. Proof. apply ind_eqb_spec. reflexivity. Qed.
Lemma ind_eqb_app c a j i : length c = length j -> ind_eqb (c ++ a) (j ++ i) = ind_eqb c j && ind_eqb a i.
Proof.
  revert j. induction c as [|x c IH]; intros [|y j] L; simpl in *; try discriminate; [reflexivity|].
  rewrite IH by lia. rewrite andb_assoc. reflexivity.
Qed.
Lemma same_set_spec a b : same_set a b = true <-> incl a b /\ incl b a.
Proof.
  unfold same_set. rewrite andb_true_iff, !forallb_forall. unfold incl.
  assert (E : forall x l, existsb (Nat.eqb x) l = true <-> In x l).
  { intros x l. rewrite existsb_exists. split; [intros [y [H E]]; apply Nat.eqb_eq in E; subst; exact H|].
    intro H. exists x. split; [exact H|apply Nat.eqb_refl]. }
  split; intros [H1 H2]; split; intros x Hx; apply E; auto.
Qed.
Lemma sorted_incl_eq a : forall b, StronglySorted lt a -> StronglySorted lt b -> incl a b -> incl b a -> a = b.
Proof.
  induction a as [|x a IH]; intros [|y b] Sa Sb I1 I2; [reflexivity| | |].
  - destruct (I2 y (or_introl eq_refl)).
  - destruct (I1 x (or_introl eq_refl)).
  - inversion_clear Sa as [|? ? Sa' Fa]. inversion_clear Sb as [|? ? Sb' Fb]. rewrite Forall_forall in Fa, Fb.
    assert (x = y).
    { destruct (I1 x (or_introl eq_refl)) as [E|H1]; [auto|]. destruct (I2 y (or_introl eq_refl)) as [E|H2]; [auto|].
      specialize (Fa y H2). specialize (Fb x H1). lia. }
    subst y. f_equal. apply IH; auto.
    + intros z Hz. destruct (I1 z (or_intror Hz)) as [E|H]; [|exact H]. subst z. specialize (Fa x Hz). lia.
    + intros z Hz. destruct (I2 z (or_intror Hz)) as [E|H]; [|exact H]. subst z. specialize (Fb x Hz). lia.
Qed.
Lemma sorted_NoDup a : StronglySorted lt a -> NoDup a.
Proof.
  induction 1 as [|x a S IH F]; constructor; [|exact IH]. rewrite Forall_forall in F. intro H. specialize (F x H). lia.
Qed.
Lemma sorted_perm_eq a b : StronglySorted lt a -> StronglySorted lt b -> Permutation a b -> a = b.
Proof.
  intros Sa Sb P. apply sorted_incl_eq; auto; intros x; apply Permutation_in; [exact P|apply Permutation_sym; exact P].
Qed.
(** Every list without repetition can be sorted. *)
Lemma sort_exists l : NoDup l -> exists s, StronglySorted lt s /\ Permutation s l.
Proof.
  induction l as [|x l IH]; intro N; [exists []; repeat constructor|]. inversion_clear N as [|? ? Nx Nl].
  destruct (IH Nl) as [s [S P]].
  assert (G : forall s, StronglySorted lt s -> ~ In x s -> exists s', StronglySorted lt s' /\ Permutation s' (x :: s)).
  { clear. induction s as [|y s IHs]; intros S Nx; [exists [x]; repeat constructor|].
    inversion_clear S as [|? ? S' F]. assert (Hxy : x <> y) by (intros ->; apply Nx; left; reflexivity).
    destruct (lt_dec x y) as [L|L].
    - exists (x :: y :: s). split; [|reflexivity]. repeat constructor; auto. revert F. apply Forall_impl. intros; lia.
    - destruct (IHs S') as [s' [S1 P1]]; [intro H; apply Nx; right; exact H|].
      exists (y :: s'). split.
      + constructor; [exact S1|]. rewrite Forall_forall in *. intros z Hz. apply (Permutation_in z P1) in Hz.
        destruct Hz as [<-|Hz]; [lia|apply F; exact Hz].
      + rewrite P1. apply perm_swap. }
  destruct (G s S) as [s' [S' P']]; [intro H; apply Nx; apply (Permutation_in x P H)|].
  exists s'. split; [exact S'|]. rewrite P', P. reflexivity.
Qed.

Lemma firstn_app_l {A} (l m : list A) p : length l = p -> firstn p (l ++ m) = l.
Proof. intros <-. rewrite firstn_app, Nat.sub_diag, firstn_O, app_nil_r. apply firstn_all. Qed.
Lemma skipn_app_l {A} (l m : list A) p : length l = p -> skipn p (l ++ m) = m.
Proof. intros <-. rewrite skipn_app, Nat.sub_diag, skipn_all. reflexivity. Qed.

Section Build.
  Variable K : CoefRing.
  Add Ring KRing : (c_ring K).
  Local Open Scope coef_scope.

  (** * Antisymmetric functions *)
  Definition antisym (f : list nat -> K) : Prop :=
    forall l x y l', f (l ++ x :: y :: l') = - f (l ++ y :: x :: l').
  Lemma anti_uperm f l q s : antisym f -> (length l <= 3)%nat -> In (q, s) (unordered_permute l) -> f q = sgn s * f l.
  Proof.
    intros A L H. destruct l as [|a [|b [|c [|d l]]]]; [destruct H| | | |simpl in L; lia].
    - rewrite uperm1 in H. destruct H as [E|[]]. injection E as <- <-. cbn [sgn]. ring.
    - rewrite uperm2 in H. destruct H as [E|[E|[]]]; injection E as <- <-; cbn [sgn]; [ring|].
      pose proof (A [] b a []) as A1. cbn [app] in A1. rewrite A1. ring.
    - pose proof (fun u v w => A [] u v [w]) as A1. pose proof (fun u v w => A [u] v w []) as A2. cbn [app] in A1, A2.
      rewrite uperm3 in H. destruct H as [E|[E|[E|[E|[E|[E|[]]]]]]]; injection E as <- <-; cbn [sgn].
      + ring.
      + rewrite (A2 a c b). ring.
      + rewrite (A1 b a c). ring.
      + rewrite (A2 b c a), (A1 b a c). ring.
      + rewrite (A1 c a b), (A2 a c b). ring.
      + rewrite (A1 c b a), (A2 b c a), (A1 b a c). ring.
  Qed.
  Lemma self_opp (x : K) : x = - x -> x = 0.
  Proof. intro H. apply dbl_cancel. rewrite H at 1. ring. Qed.
  Lemma anti_dup f l : antisym f -> (length l <= 3)%nat -> ~ NoDup l -> f l = 0.
  Proof.
    intros A L H. destruct l as [|a [|b [|c [|d l]]]]; [| | | |simpl in L; lia].
    - exfalso. apply H. constructor.
    - exfalso. apply H. repeat constructor; auto.
    - destruct (Nat.eq_dec a b) as [->|D]; [apply self_opp, (A [] b b [])|].
      exfalso. apply H. repeat constructor; simpl; intuition.
    - destruct (Nat.eq_dec a b) as [->|D1]; [apply self_opp, (A [] b b [c])|].
      destruct (Nat.eq_dec b c) as [->|D2]; [apply self_opp, (A [a] c c [])|].
      destruct (Nat.eq_dec a c) as [->|D3].
      { pose proof (A [c] b c []) as A1. cbn [app] in A1. rewrite A1.
        pose proof (self_opp _ (A [] c c [b])) as A2. cbn [app] in A2. rewrite A2. ring. }
      exfalso. apply H. repeat constructor; simpl; intuition.
  Qed.

  (** * Signed permutation coefficient *)
  Definition del (x y : list nat) : K := if ind_eqb x y then 1 else 0.
  Definition ps (l q : list nat) : K := lsum (unordered_permute l) (fun e => del q (fst e) * sgn (snd e)).
  Lemma lsum_del (U : list (list nat * bool)) q s : NoDup (map fst U) -> In (q, s) U ->
    lsum U (fun e => del q (fst e) * sgn (snd e)) = sgn s.
  Proof.
    induction U as [|[t b] U IH]; intros N H; [destruct H|]. simpl in N. inversion_clear N as [|? ? Nt NU].
    cbn [lsum fold_right fst snd]. fold (lsum U (fun e => del q (fst e) * sgn (snd e))).
    destruct H as [E|H].
    - injection E as -> ->. unfold del at 1. rewrite ind_eqb_refl.
      transitivity (1 * sgn s + lsum U (fun _ : list nat * bool => (0:K))); [|rewrite lsum_0; ring]. f_equal.
      apply lsum_ext. intros [t' b'] H'. cbn [fst snd]. unfold del. destruct (ind_eqb q t') eqn:E'; [|ring].
      apply ind_eqb_spec in E'. subst t'. exfalso. apply Nt. apply in_map_iff. exists (q, b'). auto.
    - rewrite (IH NU H). unfold del. destruct (ind_eqb q t) eqn:E'; [|ring].
      apply ind_eqb_spec in E'. subst t. exfalso. apply Nt. apply in_map_iff. exists (q, s). auto.
  Qed.
  Lemma ps_perm l q s : NoDup l -> In (q, s) (unordered_permute l) -> ps l q = sgn s.
  Proof. intros N H. apply lsum_del; [apply unordered_permute_NoDup; exact N|exact H]. Qed.
  Lemma ps_zero l q : ~ Permutation l q -> ps l q = 0.
  Proof.
    intro H. unfold ps. rewrite (lsum_ext K _ _ (fun _ => 0)); [apply lsum_0|].
    intros [t b] Hin. cbn [fst snd]. unfold del. destruct (ind_eqb q t) eqn:E; [|ring]. exfalso. apply ind_eqb_spec in E. subst t.
    apply H. destruct l as [|x l]; [destruct Hin|]. apply unordered_permute_perm; [discriminate|]. apply in_map_iff. exists (q, b). auto.
  Qed.
  Lemma perm_listed (l q : list nat) : l <> [] -> Permutation l q -> exists s, In (q, s) (unordered_permute l).
  Proof.
    intros Hn P. apply (unordered_permute_perm l q Hn) in P. apply in_map_iff in P as [[t b] [E H]]. simpl in E. subst. exists b. exact H.
  Qed.

  (** * Accumulation *)
  Lemma fold_acc {A} (f : A -> tensor K -> tensor K) (g : A -> K) x (l : list A) :
    (forall a t, In a l -> f a t x = t x + g a) -> forall t, fold_left (fun t a => f a t) l t x = t x + lsum l g.
  Proof.
    induction l as [|a l IH]; intros H t; cbn [fold_left]; [simpl; ring|].
    rewrite IH by (intros; apply H; right; assumption). rewrite H by (left; reflexivity). simpl. ring.
  Qed.
  Lemma tadd_del ind v (t : tensor K) x : tadd ind v t x = t x + del x ind * v.
  Proof. unfold tadd, del. destruct (ind_eqb x ind); ring. Qed.

  Lemma add_element_p_spec p c0 a0 temp (t : tensor K) c a :
    length c0 = p -> length a0 = p -> length c = p -> length a = p -> StronglySorted lt c0 -> StronglySorted lt a0 ->
    add_element_p p (listed c0 a0) temp t (c ++ a)
    = t (c ++ a) + (temp * (ps c0 c * ps a0 a) + (if ind_eqb a0 c0 then 0 else cconj temp * (ps a0 c * ps c0 a))).
  Proof.
    intros L1 L2 L3 L4 S1 S2. unfold add_element_p, listed. cbv zeta.
    rewrite (firstn_app_l c0 _ p L1), (skipn_app_l c0 _ p L1), rev_involutive.
    set (dis := if ind_eqb a0 c0 then 0 else 1 : K).
    assert (SS : forall i j, In i (unordered_permute a0) -> In j (unordered_permute c0) ->
       same_set (fst i) (fst j) = ind_eqb a0 c0 /\ length (fst i) = p /\ length (fst j) = p).
    { intros [i si] [j sj] Hi Hj. cbn [fst].
      assert (Pi : Permutation a0 i).
      { destruct a0; [destruct Hi|]. apply unordered_permute_perm; [discriminate|]. apply in_map_iff. exists (i, si). auto. }
      assert (Pj : Permutation c0 j).
      { destruct c0; [destruct Hj|]. apply unordered_permute_perm; [discriminate|]. apply in_map_iff. exists (j, sj). auto. }
      split.
      - apply eq_true_iff_eq. rewrite same_set_spec, ind_eqb_spec. split.
        + intros [I1 I2]. apply sorted_incl_eq; auto; intros z Hz.
          * apply (Permutation_in z (Permutation_sym Pj)). apply I1. apply (Permutation_in z Pi). exact Hz.
          * apply (Permutation_in z (Permutation_sym Pi)). apply I2. apply (Permutation_in z Pj). exact Hz.
        + intros ->. split; intros z Hz.
          * apply (Permutation_in z Pj). apply (Permutation_in z (Permutation_sym Pi)). exact Hz.
          * apply (Permutation_in z Pi). apply (Permutation_in z (Permutation_sym Pj)). exact Hz.
      - rewrite <- (Permutation_length Pi), <- (Permutation_length Pj). auto. }
    rewrite (fold_acc (fun i t => fold_left (fun t0 j =>
        if same_set (fst i) (fst j) then tadd (fst j ++ fst i) (temp * sgn (xorb (snd i) (snd j))) t0
        else tadd (fst i ++ fst j) (cconj temp * sgn (xorb (snd i) (snd j)))
               (tadd (fst j ++ fst i) (temp * sgn (xorb (snd i) (snd j))) t0)) (unordered_permute c0) t)
      (fun i => temp * (del a (fst i) * sgn (snd i)) * ps c0 c + dis * cconj temp * (del c (fst i) * sgn (snd i)) * ps c0 a) (c ++ a)).
    - f_equal. rewrite lsum_add.
      transitivity (temp * ps c0 c * ps a0 a + dis * cconj temp * ps c0 a * ps a0 c).
      + f_equal; unfold ps at 3; rewrite <- lsum_scal; apply lsum_ext; intros; ring.
      + unfold dis. destruct (ind_eqb a0 c0); ring.
    - intros i t0 Hi. rewrite (fold_acc (fun j t0 =>
        if same_set (fst i) (fst j) then tadd (fst j ++ fst i) (temp * sgn (xorb (snd i) (snd j))) t0
        else tadd (fst i ++ fst j) (cconj temp * sgn (xorb (snd i) (snd j)))
               (tadd (fst j ++ fst i) (temp * sgn (xorb (snd i) (snd j))) t0))
       (fun j => temp * (del a (fst i) * sgn (snd i)) * (del c (fst j) * sgn (snd j))
                 + dis * cconj temp * (del c (fst i) * sgn (snd i)) * (del a (fst j) * sgn (snd j)))).
      + f_equal. rewrite lsum_add. unfold ps. rewrite <- !lsum_scal. reflexivity.
      + intros j t1 Hj. destruct (SS i j Hi Hj) as [E [Li Lj]]. rewrite E, sgn_xorb.
        assert (D1 : del (c ++ a) (fst j ++ fst i) = del c (fst j) * del a (fst i)).
        { unfold del. rewrite ind_eqb_app by lia. destruct (ind_eqb c (fst j)), (ind_eqb a (fst i)); cbn; ring. }
        assert (D2 : del (c ++ a) (fst i ++ fst j) = del c (fst i) * del a (fst j)).
        { unfold del. rewrite ind_eqb_app by lia. destruct (ind_eqb c (fst i)), (ind_eqb a (fst j)); cbn; ring. }
        unfold dis. destruct (ind_eqb a0 c0); rewrite !tadd_del, ?D1, ?D2; ring.
  Qed.

  Definition contrib (c0 a0 : list nat) (temp : K) (c a : list nat) : K :=
    temp * (ps c0 c * ps a0 a) + (if ind_eqb a0 c0 then 0 else cconj temp * (ps a0 c * ps c0 a)).
  Lemma ps1 i q : length q = 1%nat -> ps [i] q = del q [i].
  Proof. intros _. unfold ps. rewrite uperm1. cbn. ring. Qed.
  Lemma add_element_spec p c0 a0 temp (t : tensor K) c a : (1 <= p)%nat ->
    length c0 = p -> length a0 = p -> length c = p -> length a = p -> StronglySorted lt c0 -> StronglySorted lt a0 ->
    add_element p (listed c0 a0) temp t (c ++ a) = t (c ++ a) + contrib c0 a0 temp c a.
  Proof.
    intros Hp L1 L2 L3 L4 S1 S2. destruct p as [|[|p]]; [lia| |].
    - destruct c0 as [|i [|? ?]]; try discriminate. destruct a0 as [|j [|? ?]]; try discriminate.
      destruct c as [|k [|? ?]]; try discriminate. destruct a as [|l [|? ?]]; try discriminate.
      unfold add_element, add_element_1, contrib, listed. cbn [rev app].
      rewrite !ps1 by reflexivity. unfold nodupb, del. cbn [existsb]. cbn [ind_eqb].
      rewrite !orb_false_r, !andb_true_r, (Nat.eqb_sym j i).
      destruct (i =? j) eqn:E; cbn [negb andb]; rewrite !tadd_del; unfold del; cbn [ind_eqb]; rewrite ?andb_true_r;
        destruct (k =? i), (l =? j), (k =? j), (l =? i); cbn [andb]; ring.
    - cbn [add_element]. apply add_element_p_spec; assumption.
  Qed.

  Lemma lsum_none {A} (l : list A) (g : A -> K) : (forall r, In r l -> g r = 0) -> lsum l g = 0.
  Proof. intro H. rewrite (lsum_ext K _ _ (fun _ => 0)); [apply lsum_0|exact H]. Qed.
  Lemma lsum_single {A} (l : list A) (g : A -> K) r0 : NoDup l -> In r0 l ->
    (forall r, In r l -> r <> r0 -> g r = 0) -> lsum l g = g r0.
  Proof.
    induction l as [|x l IH]; intros N H Z; [destruct H|]. inversion_clear N as [|? ? Nx Nl]. cbn [lsum fold_right].
    change (fold_right (fun x s => g x + s) 0 l) with (lsum l g). destruct H as [->|H].
    - rewrite (lsum_none l g); [ring|]. intros r Hr. apply Z; [right; exact Hr|]. intros ->. contradiction.
    - rewrite IH; auto; [|intros; apply Z; [right; assumption|assumption]].
      rewrite (Z x); [ring|left; reflexivity|]. intros ->. contradiction.
  Qed.

  Definition good_list (p N : nat) (L : list (list nat)) (D : list nat -> list nat -> K) : Prop :=
    (forall x, In x L -> exists c a, element p N c a /\ x = listed c a) /\ NoDup L
    /\ (forall c a, element p N c a -> In (listed c a) L -> In (listed a c) L -> c = a)
    /\ (forall c a, element p N c a -> In (listed c a) L \/ In (listed a c) L \/ D c a = 0).

  Lemma perm_up_count N c c' : Permutation c c' -> up_count N c = up_count N c'.
  Proof.
    unfold up_count. induction 1; simpl; auto; try congruence.
    - destruct (x <? N); simpl; congruence.
    - destruct (x <? N), (y <? N); simpl; congruence.
  Qed.

  Theorem build_rdm_spec p N L value (D : list nat -> list nat -> K) : (1 <= p <= 3)%nat -> good_list p N L D ->
    (forall a, antisym (fun c => D c a)) -> (forall c, antisym (D c)) -> (forall c a, D a c = cconj (D c a)) ->
    (forall c a, length c = p -> length a = p -> up_count N c <> up_count N a -> D c a = 0) ->
    (forall c a, element p N c a -> In (listed c a) L -> value (listed c a) = D c a) ->
    forall c a, length c = p -> length a = p -> Forall (fun x => x < 2 * N)%nat c -> Forall (fun x => x < 2 * N)%nat a ->
      build_rdm p L value (c ++ a) = D c a.
  Proof.
    intros Hp [G1 [G2 [G3 G4]]] Ac Aa Hm Sel Val c a Lc La Fc Fa.
    set (g := fun r => contrib (firstn p r) (rev (skipn p r)) (value r) c a).
    assert (B : build_rdm p L value (c ++ a) = lsum L g).
    { unfold build_rdm. rewrite (fold_acc (fun r t => add_element p r (value r) t) g (c ++ a)); [unfold tzero; ring|].
      intros r t Hr. destruct (G1 r Hr) as [c0 [a0 [[S1 [S2 [L1 [L2 _]]]] ->]]]. unfold g, listed.
      rewrite (firstn_app_l c0 _ p L1), (skipn_app_l c0 _ p L1), rev_involutive. apply add_element_spec; auto; lia. }
    rewrite B.
    assert (Gv : forall c0 a0, length c0 = p -> g (listed c0 a0) = contrib c0 a0 (value (listed c0 a0)) c a).
    { intros c0 a0 L1. unfold g, listed. rewrite (firstn_app_l c0 _ p L1), (skipn_app_l c0 _ p L1), rev_involutive. reflexivity. }
    assert (Ne : forall l : list nat, length l = p -> l <> []) by (intros [|? ?] Hl; [simpl in Hl; lia|discriminate]).
    destruct (NoDup_dec Nat.eq_dec c) as [Nc|Nc].
    2:{ rewrite (anti_dup (fun c => D c a)); [|apply Ac|lia|exact Nc]. apply lsum_none. intros r Hr.
        destruct (G1 r Hr) as [c0 [a0 [[S1 [S2 [L1 [L2 _]]]] ->]]]. rewrite (Gv c0 a0 L1). unfold contrib.
        rewrite (ps_zero c0 c), (ps_zero a0 c).
        - destruct (ind_eqb a0 c0); ring.
        - intro P. apply Nc. apply (Permutation_NoDup P). apply sorted_NoDup, S2.
        - intro P. apply Nc. apply (Permutation_NoDup P). apply sorted_NoDup, S1. }
    destruct (NoDup_dec Nat.eq_dec a) as [Na|Na].
    2:{ rewrite (anti_dup (D c)); [|apply Aa|lia|exact Na]. apply lsum_none. intros r Hr.
        destruct (G1 r Hr) as [c0 [a0 [[S1 [S2 [L1 [L2 _]]]] ->]]]. rewrite (Gv c0 a0 L1). unfold contrib.
        rewrite (ps_zero c0 a), (ps_zero a0 a).
        - destruct (ind_eqb a0 c0); ring.
        - intro P. apply Na. apply (Permutation_NoDup P). apply sorted_NoDup, S2.
        - intro P. apply Na. apply (Permutation_NoDup P). apply sorted_NoDup, S1. }
    destruct (sort_exists c Nc) as [c1 [Sc Pc]]. destruct (sort_exists a Na) as [a1 [Sa Pa]].
    assert (Lc1 : length c1 = p) by (rewrite (Permutation_length Pc); exact Lc).
    assert (La1 : length a1 = p) by (rewrite (Permutation_length Pa); exact La).
    destruct (perm_listed c1 c (Ne c1 Lc1) Pc) as [sc Hsc]. destruct (perm_listed a1 a (Ne a1 La1) Pa) as [sa Hsa].
    assert (P1 : ps c1 c = sgn sc) by (apply ps_perm; [apply sorted_NoDup; exact Sc|exact Hsc]).
    assert (P2 : ps a1 a = sgn sa) by (apply ps_perm; [apply sorted_NoDup; exact Sa|exact Hsa]).
    assert (DD : D c a = ps c1 c * ps a1 a * D c1 a1).
    { rewrite P1, P2, (anti_uperm (fun c => D c a) c1 c sc), (anti_uperm (D c1) a1 a sa); auto; try lia. ring. }
    assert (Zr : forall c0 a0, element p N c0 a0 -> (c0 = c1 /\ a0 = a1) \/ (c0 = a1 /\ a0 = c1) \/ g (listed c0 a0) = 0).
    { intros c0 a0 [S1 [S2 [L1 [L2 _]]]].
      assert (Z : forall l l1 q, StronglySorted lt l -> StronglySorted lt l1 -> Permutation l1 q -> l <> l1 -> ps l q = 0).
      { intros l l1 q Sl Sl1 Pl Dl. apply ps_zero. intro P. apply Dl. apply sorted_perm_eq; auto. rewrite P. symmetry. exact Pl. }
      destruct (list_eq_dec Nat.eq_dec c0 c1) as [E1|E1], (list_eq_dec Nat.eq_dec a0 a1) as [E2|E2],
        (list_eq_dec Nat.eq_dec c0 a1) as [E3|E3], (list_eq_dec Nat.eq_dec a0 c1) as [E4|E4];
        try (left; split; assumption); try (right; left; split; assumption); right; right; rewrite (Gv c0 a0 L1); unfold contrib;
        rewrite ?(Z c0 c1 c S1 Sc Pc E1), ?(Z a0 a1 a S2 Sa Pa E2), ?(Z c0 a1 a S1 Sa Pa E3), ?(Z a0 c1 c S2 Sc Pc E4);
        destruct (ind_eqb a0 c0); ring. }
    destruct (Nat.eq_dec (up_count N c) (up_count N a)) as [U|U].
    2:{ rewrite (Sel c a Lc La U). apply lsum_none. intros r Hr. destruct (G1 r Hr) as [c0 [a0 [El ->]]].
        destruct (Zr c0 a0 El) as [[-> ->]|[[-> ->]|Z]]; [| |exact Z]; exfalso; apply U;
          rewrite <- (perm_up_count N _ _ Pc), <- (perm_up_count N _ _ Pa); destruct El as [_ [_ [_ [_ [_ [_ E]]]]]]; congruence. }
    assert (El : element p N c1 a1).
    { do 4 (split; [assumption|]). split; [|split].
      - rewrite Forall_forall in *. intros x Hx. apply Fc. apply (Permutation_in x Pc). exact Hx.
      - rewrite Forall_forall in *. intros x Hx. apply Fa. apply (Permutation_in x Pa). exact Hx.
      - rewrite (perm_up_count N _ _ Pc), (perm_up_count N _ _ Pa). exact U. }
    assert (Only : forall r0, In r0 L -> (r0 = listed c1 a1 \/ r0 = listed a1 c1) -> lsum L g = g r0).
    { intros r0 H0 E0. apply lsum_single; [exact G2|exact H0|]. intros r Hr Dr. destruct (G1 r Hr) as [c0 [a0 [E ->]]].
      destruct (Zr c0 a0 E) as [[-> ->]|[[-> ->]|Z]]; [| |exact Z]; exfalso.
      - destruct E0 as [->| ->]; [apply Dr; reflexivity|]. pose proof (G3 c1 a1 El Hr H0). subst a1. apply Dr. reflexivity.
      - destruct E0 as [->| ->]; [|apply Dr; reflexivity]. pose proof (G3 c1 a1 El H0 Hr). subst a1. apply Dr. reflexivity. }
    assert (X : c1 <> a1 -> ps a1 c = 0).
    { intro Dl. apply ps_zero. intro P. apply Dl. apply sorted_perm_eq; auto. rewrite P. exact Pc. }
    assert (V0 : D c1 a1 = 0 -> forall r, In r L -> g r = 0).
    { intros Z r Hr. destruct (G1 r Hr) as [c0 [a0 [E ->]]].
      destruct (Zr c0 a0 E) as [[-> ->]|[[-> ->]|Z0]]; [| |exact Z0].
      - rewrite (Gv c1 a1 Lc1). unfold contrib. rewrite (Val c1 a1 El Hr), Z, cconj_0. destruct (ind_eqb a1 c1); ring.
      - rewrite (Gv a1 c1 La1). unfold contrib. rewrite (Val a1 c1 E Hr), (Hm c1 a1), Z, cconj_0, cconj_0. destruct (ind_eqb c1 a1); ring. }
    destruct (G4 c1 a1 El) as [Hin|[Hin|Z]].
    - rewrite (Only _ Hin (or_introl eq_refl)), (Gv c1 a1 Lc1), (Val c1 a1 El Hin), DD. unfold contrib.
      destruct (ind_eqb a1 c1) eqn:E; [ring|]. rewrite X; [ring|]. intros ->. rewrite ind_eqb_refl in E. discriminate.
    - rewrite (Only _ Hin (or_intror eq_refl)), (Gv a1 c1 La1), (Val a1 c1 (element_sym _ _ _ _ El) Hin), DD. unfold contrib.
      rewrite (Hm c1 a1), cconj_inv. destruct (ind_eqb c1 a1) eqn:E.
      + apply ind_eqb_spec in E. subst a1. rewrite <- (Hm c1 c1). ring.
      + rewrite X; [ring|]. intros ->. rewrite ind_eqb_refl in E. discriminate.
    - rewrite (lsum_none L g (V0 Z)), DD, Z. ring.
  Qed.
End Build.
