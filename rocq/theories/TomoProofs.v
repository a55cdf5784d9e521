(** Commutation tests and measurement grouping. *)
From Coq Require Import Bool List Arith ZArith Lia Ring.
From Verif Require Import Coeff MatSpec MatLemmas FockSpec PauliModel PauliProofs TwoTerm InitProofs CircuitSpec TomoModel.
Import ListNotations.

Lemma pauli_eqb_spec a b : pauli_eqb a b = true <-> a = b.
Proof. destruct a, b; split; intro H; try reflexivity; discriminate. Qed.
Lemma pauli_eqb_refl a : pauli_eqb a a = true. Proof. destruct a; reflexivity. Qed.

Definition conflict (x y : pauli) : bool := negb (pauli_eqb x PI) && negb (pauli_eqb y PI) && negb (pauli_eqb x y).

Lemma qwc_spec a b : length a = length b ->
  exists r, qwc a b = Some r /\
    (r = true <-> forall i, nth i a PI = PI \/ nth i b PI = PI \/ nth i a PI = nth i b PI).
Proof.
  revert b. induction a as [|x a IH]; intros [|y b] H; try discriminate.
  - exists true. split; [reflexivity|]. split; [|reflexivity]. intros _ i. destruct i; auto.
  - destruct (IH b ltac:(cbn in H; lia)) as [r [Er Hr]]. cbn [qwc tl].
    assert (G : forall r', (conflict x y = true -> r' = false) -> (conflict x y = false -> r' = r) ->
        (r' = true <-> forall i, nth i (x :: a) PI = PI \/ nth i (y :: b) PI = PI \/ nth i (x :: a) PI = nth i (y :: b) PI)).
    { intros r' H1 H2. destruct (conflict x y) eqn:C.
      - rewrite (H1 eq_refl). split; [discriminate|]. intro Q. destruct (Q 0) as [Q0|[Q0|Q0]]; cbn in Q0; subst; unfold conflict in C;
          cbn in C; rewrite ?andb_false_r in C; try discriminate. rewrite pauli_eqb_refl in C. rewrite ?andb_false_r in C. discriminate.
      - rewrite (H2 eq_refl), Hr. split.
        + intros Q [|i]; [|apply Q]. cbn. unfold conflict in C. destruct x, y; cbn in C; try discriminate; auto.
        + intros Q i. apply (Q (S i)). }
    destruct (pauli_eqb x PI) eqn:E1; [exists r; split; [exact Er|apply G; auto; unfold conflict; rewrite E1; discriminate]|].
    destruct (pauli_eqb y PI) eqn:E2; [exists r; split; [exact Er|apply G; auto; unfold conflict; rewrite E2, andb_false_r; discriminate]|].
    destruct (pauli_eqb x y) eqn:E3; [exists r; split; [exact Er|apply G; auto; unfold conflict; rewrite E3, andb_false_r; discriminate]|].
    exists false. split; [reflexivity|]. apply G; auto. unfold conflict. rewrite E1, E2, E3. discriminate.
Qed.

Fixpoint nconf (a b : list pauli) : nat :=
  match a, b with x :: a', y :: b' => (if conflict x y then 1 else 0) + nconf a' b' | _, _ => 0 end.
Lemma differing_spec a b : length a = length b -> differing a b = Some (nconf a b).
Proof.
  revert b. induction a as [|x a IH]; intros [|y b] H; try discriminate; [reflexivity|].
  cbn [differing nconf tl]. rewrite IH by (cbn in H; lia). unfold conflict.
  destruct (pauli_eqb x PI); [reflexivity|]. destruct (pauli_eqb y PI); [reflexivity|]. destruct (pauli_eqb x y); reflexivity.
Qed.

Section Comm.
  Variable K : CoefRing.
  Add Ring KRing : (c_ring K).
  Local Open Scope coef_scope.

  Lemma pmuls_comm a b : length a = length b -> pmuls a b = pmuls b a.
  Proof. revert b. induction a as [|x a IH]; intros [|y b] H; try discriminate; [reflexivity|]. cbn in *. rewrite IH by lia. destruct x, y; reflexivity. Qed.
  Lemma pexps_comm a b : length a = length b -> @ipow K (pexps a b) = cpow (- (1)) (nconf a b) * ipow (pexps b a).
  Proof.
    revert b. induction a as [|x a IH]; intros [|y b] H; try discriminate; [cbn; unfold ipow; cbn; ring|].
    cbn [pexps nconf]. rewrite !ipow_add, IH by (cbn in H; lia).
    assert (E : @ipow K (pexp1 x y) = (if conflict x y then - (1) else 1) * ipow (pexp1 y x)).
    { destruct x, y; unfold ipow; cbn; ring. }
    rewrite E. destruct (conflict x y); cbn [Nat.add cpow]; ring.
  Qed.
  Lemma comm_phase a b n : length a = n -> length b = n ->
    meq n (mmul n (pmat a) (pmat b)) (mscal (cpow (- (1)) (nconf a b)) (mmul n (@pmat K b) (pmat a))).
  Proof.
    intros Ha Hb r c Hr Hc. rewrite <- (pmat_mul K a b n Ha Hb r c Hr Hc). unfold mscal at 2.
    rewrite <- (pmat_mul K b a n Hb Ha r c Hr Hc). unfold mscal. rewrite pexps_comm by lia. rewrite (pmuls_comm a b) by lia. ring.
  Qed.
  Lemma cpow_m1 k : cpow (- (1)) k = if Nat.even k then 1 else - (1) :> K.
  Proof.
    induction k as [|k IH]; [reflexivity|]. cbn [cpow]. rewrite IH, Nat.even_succ, <- Nat.negb_even. destruct (Nat.even k); cbn; ring.
  Qed.
  Lemma two_neq0 (x : K) : x = - x -> x = 0.
  Proof.
    intro H. transitivity ((chalf + chalf) * x); [rewrite chalf_dbl; ring|].
    transitivity (chalf * (x + x)); [ring|]. rewrite H at 2. ring.
  Qed.
  Lemma ipow_neq0 z : @ipow K z <> 0.
  Proof.
    intro H. apply (c1_neq0 K). transitivity (@ipow K (z + - z)).
    - replace (z + - z)%Z with 0%Z by lia. reflexivity.
    - rewrite ipow_add, H. ring.
  Qed.
  Lemma pmat_entry (s : list pauli) : exists r c z, length r = length s /\ length c = length s /\ @pmat K s r c = ipow z.
  Proof.
    induction s as [|p s [r [c [z [Hr [Hc E]]]]]]; [exists [], [], 0%Z; repeat split|].
    destruct p.
    - exists (false :: r), (false :: c), z. cbn. rewrite E, Hr, Hc. repeat split. ring.
    - exists (false :: r), (true :: c), z. cbn. rewrite E, Hr, Hc. repeat split. ring.
    - exists (true :: r), (false :: c), (1 + z)%Z. cbn [length pmat]. rewrite E, Hr, Hc, ipow_add. repeat split. 
    - exists (false :: r), (false :: c), z. cbn. rewrite E, Hr, Hc. repeat split. ring.
  Qed.
  Lemma commute_spec a b n : length a = n -> length b = n ->
    exists k, commute a b = Some k /\ (k = 1%nat \/ k = 0%nat) /\
      (k = 1%nat <-> meq n (mmul n (@pmat K a) (pmat b)) (mmul n (pmat b) (pmat a))).
  Proof.
    intros Ha Hb. unfold commute. rewrite differing_spec by lia. exists (Nat.modulo (nconf a b + 1) 2).
    assert (P : Nat.modulo (nconf a b + 1) 2 = if Nat.even (nconf a b) then 1%nat else 0%nat).
    { rewrite Nat.add_1_r. destruct (Nat.even (nconf a b)) eqn:E.
      - apply Nat.even_spec in E. destruct E as [m E]. rewrite E. replace (S (2 * m))%nat with (1 + m * 2)%nat by lia. rewrite Nat.mod_add by lia. reflexivity.
      - assert (O : Nat.odd (nconf a b) = true) by (rewrite <- Nat.negb_even, E; reflexivity). apply Nat.odd_spec in O. destruct O as [m O]. rewrite O.
        replace (S (2 * m + 1))%nat with (0 + (m + 1) * 2)%nat by lia. rewrite Nat.mod_add by lia. reflexivity. }
    rewrite P. split; [reflexivity|]. split; [destruct (Nat.even _); auto|].
    pose proof (comm_phase a b n Ha Hb) as C. rewrite cpow_m1 in C.
    destruct (Nat.even (nconf a b)).
    - split; [|reflexivity]. intros _. eapply meq_trans; [exact C|]. intros r c _ _. unfold mscal. ring.
    - split; [discriminate|]. intro H. exfalso.
      destruct (pmat_entry (pmuls a b)) as [r [c [z [Hr [Hc E]]]]]. rewrite pmuls_len in Hr, Hc by lia. rewrite Ha in Hr, Hc.
      pose proof (C r c Hr Hc) as C1. rewrite (H r c Hr Hc) in C1. unfold mscal in C1.
      assert (Z : mmul n (@pmat K b) (pmat a) r c = 0) by (apply two_neq0; rewrite C1 at 1; ring).
      rewrite <- (H r c Hr Hc) in Z. rewrite <- (pmat_mul K a b n Ha Hb r c Hr Hc) in Z. unfold mscal in Z. rewrite E, <- ipow_add in Z.
      exact (ipow_neq0 _ Z).
  Qed.
End Comm.

Lemma qwc_commute a b : length a = length b -> qwc a b = Some true -> commute a b = Some 1%nat.
Proof.
  intros L H. unfold commute. rewrite differing_spec by exact L.
  assert (E : nconf a b = 0%nat); [|rewrite E; reflexivity].
  revert b L H. induction a as [|x a IH]; intros [|y b] L H; try discriminate; [reflexivity|].
  cbn [qwc nconf tl] in *. unfold conflict.
  destruct (pauli_eqb x PI); [apply IH; [cbn in L; lia|exact H]|].
  destruct (pauli_eqb y PI); [apply IH; [cbn in L; lia|exact H]|].
  destruct (pauli_eqb x y); [apply IH; [cbn in L; lia|exact H]|discriminate].
Qed.

(** * Edges *)
Lemma nth_error_snoc {A} (l : list A) x i : nth_error (l ++ [x]) i = if Nat.ltb i (length l) then nth_error l i else if Nat.eqb i (length l) then Some x else None.
Proof.
  destruct (Nat.ltb_spec i (length l)); [apply nth_error_app1; assumption|].
  rewrite nth_error_app2 by assumption. destruct (Nat.eqb_spec i (length l)).
  - subst. rewrite Nat.sub_diag. reflexivity.
  - destruct (i - length l) as [|k] eqn:E; [lia|]. cbn. destruct k; reflexivity.
Qed.

Definition related (rel : relation) (a b : list pauli) : Prop := pauli_relation rel a b = Some true.
Lemma relation_defined rel a b : length a = length b -> exists r, pauli_relation rel a b = Some r.
Proof.
  intro L. destruct rel; cbn.
  - destruct (qwc_spec a b L) as [r [E _]]. rewrite E. eexists. reflexivity.
  - unfold commute. rewrite differing_spec by exact L. eexists. reflexivity.
Qed.
Lemma edges_to_spec rel N j x : length x = N -> forall pre i, (forall p, In p pre -> length p = N) ->
  exists es, edges_to rel j x i pre = Some es /\
    forall a b, In (a, b) es <-> b = j /\ i <= a /\ exists y, nth_error pre (a - i) = Some y /\ related rel y x.
Proof.
  intros Hx pre. induction pre as [|y pre IH]; intros i Hp.
  - exists []. split; [reflexivity|]. intros a b. split; [intros []|]. intros [_ [_ [y [H _]]]]. destruct (a - i); discriminate.
  - destruct (IH (S i) ltac:(intros; apply Hp; right; assumption)) as [es [E S]]. cbn [edges_to].
    destruct (relation_defined rel y x) as [r Er]; [rewrite Hx; apply Hp; left; reflexivity|]. rewrite Er, E.
    exists (if r then (i, j) :: es else es). split; [reflexivity|]. intros a b.
    assert (G : In (a, b) es <-> b = j /\ Datatypes.S i <= a /\ exists y', nth_error (y :: pre) (a - i) = Some y' /\ related rel y' x).
    { rewrite S. split; intros [-> [Ha [y' [H1 H2]]]]; repeat split; auto; exists y'; split; auto.
      - replace (a - i) with (Datatypes.S (a - Datatypes.S i)) by lia. exact H1.
      - replace (a - i) with (Datatypes.S (a - Datatypes.S i)) in H1 by lia. exact H1. }
    assert (Z : forall y', nth_error (y :: pre) (i - i) = Some y' -> y' = y).
    { intros y' H. rewrite Nat.sub_diag in H. cbn in H. congruence. }
    destruct r.
    + cbn [In]. rewrite G. split.
      * intros [H|[-> [Ha H]]]; [injection H as <- <-|split; [reflexivity|split; [lia|exact H]]].
        repeat split; [lia|]. exists y. rewrite Nat.sub_diag. split; [reflexivity|exact Er].
      * intros [-> [Ha H]]. destruct (Nat.eq_dec a i) as [->|]; [left; reflexivity|right; repeat split; [lia|exact H]].
    + rewrite G. split; [intros [-> [Ha H]]; repeat split; [lia|exact H]|].
      intros [-> [Ha [y' [H1 H2]]]]. destruct (Nat.eq_dec a i) as [->|]; [|repeat split; [lia|exists y'; auto]].
      exfalso. rewrite (Z y' H1) in H2. unfold related in H2. rewrite Er in H2. discriminate.
Qed.
Lemma edges_from_spec rel N : forall rest pre, (forall p, In p (pre ++ rest) -> length p = N) ->
  exists es, edges_from rel (length pre) pre rest = Some es /\
    forall a b, In (a, b) es <-> length pre <= b /\ a < b /\ exists x y, nth_error (pre ++ rest) a = Some x /\ nth_error (pre ++ rest) b = Some y /\ related rel x y.
Proof.
  intro rest. induction rest as [|x rest IH]; intros pre Hp.
  - exists []. split; [reflexivity|]. intros a b. split; [intros []|]. intros [Hb [_ [x [y [_ [H _]]]]]]. rewrite app_nil_r in H.
    assert (b < length pre) by (apply nth_error_Some; congruence). lia.
  - cbn [edges_from].
    destruct (edges_to_spec rel N (length pre) x) with (pre := pre) (i := 0) as [e [Ee Se]];
      [apply Hp; apply in_or_app; right; left; reflexivity|intros; apply Hp; apply in_or_app; left; assumption|].
    destruct (IH (pre ++ [x])) as [es [E S]]; [rewrite <- app_assoc; exact Hp|].
    rewrite app_length in E, S. cbn [length] in E, S. rewrite Nat.add_1_r in E, S. rewrite <- app_assoc in S. cbn [app] in S.
    rewrite Ee, E. exists (e ++ es). split; [reflexivity|]. intros a b. rewrite in_app_iff, Se, S.
    assert (X : nth_error (pre ++ x :: rest) (length pre) = Some x) by (rewrite nth_error_app2, Nat.sub_diag by lia; reflexivity).
    split.
    + intros [[-> [_ [y [H1 H2]]]]|[Hb H]]; [|split; [lia|exact H]].
      rewrite Nat.sub_0_r in H1. assert (a < length pre) by (apply nth_error_Some; congruence).
      split; [lia|]. split; [assumption|]. exists y, x. rewrite nth_error_app1 by assumption. auto.
    + intros [Hb [Hab [x' [y' [H1 [H2 H3]]]]]]. destruct (Nat.eq_dec b (length pre)) as [->|].
      * left. repeat split; [lia|]. rewrite X in H2. injection H2 as <-. exists x'. rewrite Nat.sub_0_r. rewrite nth_error_app1 in H1 by lia. auto.
      * right. repeat split; [lia|assumption|]. exists x', y'. auto.
Qed.
Lemma graph_edges_spec rel N items : (forall p, In p items -> length p = N) ->
  exists es, graph_edges rel items = Some es /\
    forall a b, In (a, b) es <-> a < b /\ exists x y, nth_error items a = Some x /\ nth_error items b = Some y /\ related rel x y.
Proof.
  intro H. destruct (edges_from_spec rel N items [] H) as [es [E S]]. exists es. split; [exact E|].
  intros a b. rewrite S. cbn. split; [intros [_ X]; exact X|intro X; split; [lia|exact X]].
Qed.

(** * Colours *)
Fixpoint pos (c n : nat) (alg : list nat) : list nat :=
  match alg with [] => [] | x :: alg' => if Nat.eqb c x then n :: pos c (S n) alg' else pos c (S n) alg' end.
Definition got (c : nat) (d : list (nat * list nat)) : list nat := match dget c d with Some v => v | None => [] end.
Lemma dget_add c c' n d : dget c' (color_add c n d) = if Nat.eqb c' c then Some (got c d ++ [n]) else dget c' d.
Proof.
  unfold got. induction d as [|[k v] d IH]; cbn [color_add dget].
  - destruct (Nat.eqb c' c); reflexivity.
  - destruct (Nat.eqb_spec c k) as [->|E]; cbn [dget].
    + destruct (Nat.eqb_spec c' k); reflexivity.
    + rewrite IH. destruct (Nat.eqb_spec c' k) as [->|]; [|reflexivity]. destruct (Nat.eqb_spec k c) as [->|]; [congruence|reflexivity].
Qed.
Lemma dget_dict alg : forall n d c, dget c (color_dict n alg d) = match pos c n alg with [] => dget c d | _ => Some (got c d ++ pos c n alg) end.
Proof.
  induction alg as [|x alg IH]; intros n d c; [reflexivity|]. cbn [color_dict pos]. rewrite IH. unfold got at 1. rewrite dget_add.
  destruct (Nat.eqb_spec c x) as [->|E].
  - rewrite <- app_assoc. cbn [app]. destruct (pos x (S n) alg); reflexivity.
  - reflexivity.
Qed.
Lemma keys_add c n d : map fst (color_add c n d) = if existsb (Nat.eqb c) (map fst d) then map fst d else map fst d ++ [c].
Proof.
  induction d as [|[k v] d IH]; [reflexivity|]. cbn [color_add map fst existsb]. destruct (Nat.eqb c k); [reflexivity|]. cbn [map fst orb]. rewrite IH.
  destruct (existsb (Nat.eqb c) (map fst d)); reflexivity.
Qed.
Lemma NoDup_snoc' {A} (l : list A) a : NoDup l -> ~ In a l -> NoDup (l ++ [a]).
Proof. intros H Ha. apply (NoDup_Add (a := a) (l := l)); [|split; assumption]. rewrite <- (app_nil_r l) at 1. apply Add_app. Qed.
Lemma keys_NoDup alg : forall n d, NoDup (map fst d) -> NoDup (map fst (color_dict n alg d)).
Proof.
  induction alg as [|x alg IH]; intros n d H; [exact H|]. cbn [color_dict]. apply IH. rewrite keys_add.
  destruct (existsb (Nat.eqb x) (map fst d)) eqn:E; [exact H|]. apply NoDup_snoc'; [exact H|]. intro C.
  assert (existsb (Nat.eqb x) (map fst d) = true) by (apply existsb_exists; exists x; split; [exact C|apply Nat.eqb_refl]). congruence.
Qed.
Lemma dget_key c d : In c (map fst d) <-> exists v, dget c d = Some v.
Proof.
  induction d as [|[k v] d IH]; [split; [intros []|intros [v H]; discriminate]|]. cbn [map fst In dget].
  destruct (Nat.eqb_spec c k) as [->|E]; [split; [intro; eexists; reflexivity|auto]|]. rewrite <- IH. split; [intros [H|H]; [congruence|exact H]|auto].
Qed.
Lemma dget_In c v d : NoDup (map fst d) -> (In (c, v) d <-> dget c d = Some v).
Proof.
  induction d as [|[k w] d IH]; intro ND; [split; [intros []|discriminate]|]. cbn [map fst In dget] in *. inversion ND as [|? ? Hn ND']; subst.
  destruct (Nat.eqb_spec c k) as [->|E].
  - split; [intros [H|H]; [congruence|]|intro H; left; congruence]. exfalso. apply Hn. apply in_map_iff. exists (k, v). auto.
  - rewrite <- (IH ND'). split; [intros [H|H]; [congruence|exact H]|auto].
Qed.
Lemma pos_spec c alg : forall n i, In i (pos c n alg) <-> n <= i /\ nth_error alg (i - n) = Some c.
Proof.
  induction alg as [|x alg IH]; intros n i; [split; [intros []|intros [_ H]; destruct (i - n); discriminate]|]. cbn [pos].
  assert (G : In i (pos c (S n) alg) <-> S n <= i /\ nth_error (x :: alg) (i - n) = Some c).
  { rewrite IH. split; intros [H1 H2]; (split; [exact H1|]).
    - replace (i - n) with (S (i - S n)) by lia. exact H2.
    - replace (i - n) with (S (i - S n)) in H2 by lia. exact H2. }
  destruct (Nat.eqb_spec c x) as [->|E].
  - cbn [In]. rewrite G. split.
    + intros [<-|[H1 H2]]; [split; [lia|rewrite Nat.sub_diag; reflexivity]|split; [lia|exact H2]].
    + intros [H1 H2]. destruct (Nat.eq_dec n i); [left; assumption|right; split; [lia|exact H2]].
  - rewrite G. split; [intros [H1 H2]; split; [lia|exact H2]|]. intros [H1 H2]. split; [|exact H2].
    destruct (Nat.eq_dec n i) as [->|]; [|lia]. rewrite Nat.sub_diag in H2. cbn in H2. congruence.
Qed.
Lemma dict_get alg c : dget c (color_dict 0 alg []) = match pos c 0 alg with [] => None | v => Some v end.
Proof. rewrite dget_dict. unfold got. cbn. destruct (pos c 0 alg); reflexivity. Qed.
Lemma dict_entry alg c v : dget c (color_dict 0 alg []) = Some v -> v <> [] /\ forall i, In i v <-> nth_error alg i = Some c.
Proof.
  rewrite dict_get. intro H. assert (E : v = pos c 0 alg) by (destruct (pos c 0 alg); congruence). subst v. split.
  - destruct (pos c 0 alg); [discriminate|discriminate].
  - intro i. rewrite pos_spec, Nat.sub_0_r. split; [intros [_ X]; exact X|intro; split; [lia|assumption]].
Qed.
Lemma dict_covers alg c : In c alg -> exists v, dget c (color_dict 0 alg []) = Some v.
Proof.
  intro H. apply In_nth_error in H. destruct H as [i H]. rewrite dict_get.
  assert (In i (pos c 0 alg)) as I by (apply pos_spec; rewrite Nat.sub_0_r; split; [lia|exact H]). destruct (pos c 0 alg); [destruct I|eexists; reflexivity].
Qed.
Lemma dict_keys alg c : In c (map fst (color_dict 0 alg [])) <-> In c alg.
Proof.
  rewrite dget_key. split; [|apply dict_covers]. intros [v H]. destruct (dict_entry alg c v H) as [Hne S].
  destruct v as [|i v]; [congruence|]. apply nth_error_In with (n := i). apply S. left. reflexivity.
Qed.
Lemma contiguous alg : (forall c, In c alg -> forall c', c' < c -> In c' alg) ->
  let k := length (color_dict 0 alg []) in forall c, In c alg <-> c < k.
Proof.
  intros H k c.
  assert (ND : NoDup (map fst (color_dict 0 alg []))) by (apply keys_NoDup; constructor).
  assert (Lk : length (map fst (color_dict 0 alg [])) = k) by apply map_length. split.
  - intro Hc. assert (I : incl (seq 0 (S c)) (map fst (color_dict 0 alg []))).
    { intros x Hx. apply in_seq in Hx. apply dict_keys. destruct (Nat.eq_dec x c) as [->|]; [exact Hc|]. apply (H c Hc). lia. }
    pose proof (NoDup_incl_length (seq_NoDup (S c) 0) I) as L. rewrite seq_length in L. lia.
  - intro Hc. destruct (in_dec Nat.eq_dec c alg) as [I|I]; [exact I|exfalso].
    assert (J : incl (map fst (color_dict 0 alg [])) (seq 0 c)).
    { intros x Hx. apply (proj1 (dict_keys alg x)) in Hx. apply in_seq. split; [lia|]. destruct (Nat.lt_ge_cases x c) as [|G]; [lia|]. exfalso.
      apply I. destruct (Nat.eq_dec x c) as [->|]; [exact Hx|]. apply (H x Hx). lia. }
    pose proof (NoDup_incl_length ND J) as L. rewrite seq_length in L. lia.
Qed.

(** * The measurement strings *)
Lemma option_seq_some {X} (l : list (option X)) r : option_seq l = Some r <-> l = map Some r.
Proof.
  revert r. induction l as [|[x|] l IH]; intro r; cbn.
  - split; [intro H; injection H as <-; reflexivity|]. destruct r; [reflexivity|discriminate].
  - destruct (option_seq l) as [q|]; split; intro H.
    + injection H as <-. cbn. f_equal. apply IH. reflexivity.
    + destruct r as [|y r]; [discriminate|]. injection H as -> E. apply IH in E. congruence.
    + discriminate.
    + destruct r as [|y r]; [discriminate|]. injection H as -> E. apply IH in E. congruence.
  - split; [discriminate|]. destruct r; discriminate.
Qed.
Lemma option_seq_all {X Y} (f : Y -> option X) l : (forall y, In y l -> exists x, f y = Some x) -> exists r, option_seq (map f l) = Some r.
Proof.
  induction l as [|y l IH]; intro H; [exists []; reflexivity|]. cbn. destruct (H y (or_introl eq_refl)) as [x ->].
  destruct (IH (fun z Hz => H z (or_intror Hz))) as [r ->]. eexists. reflexivity.
Qed.
Lemma option_seq_nth {X Y} (f : Y -> option X) l r i y : option_seq (map f l) = Some r -> nth_error l i = Some y ->
  exists x, f y = Some x /\ nth_error r i = Some x.
Proof.
  intros H Hy. apply option_seq_some in H.
  assert (E : nth_error (map f l) i = Some (f y)) by (apply map_nth_error; exact Hy). rewrite H in E.
  destruct (nth_error r i) as [x|] eqn:R.
  - rewrite (map_nth_error Some _ _ R) in E. exists x. split; [congruence|reflexivity].
  - apply nth_error_None in R. assert (nth_error (map Some r) i = None) by (apply nth_error_None; rewrite map_length; exact R). congruence.
Qed.
Lemma option_seq_len {X Y} (f : Y -> option X) l r : option_seq (map f l) = Some r -> length r = length l.
Proof. intro H. apply option_seq_some in H. rewrite <- (map_length Some r), <- H, map_length. reflexivity. Qed.

Lemma select_spec operators v A : select operators v = Some A -> forall p, In p A <-> exists i, In i v /\ nth_error operators i = Some p.
Proof.
  unfold select. intros H p. apply option_seq_some in H.
  assert (E : In p A <-> In (Some p) (map Some A)).
  { rewrite in_map_iff. split; [intro; exists p; auto|intros [x [E I]]; congruence]. }
  rewrite E, <- H, in_map_iff. split; intros [i [H1 H2]]; exists i; auto.
Qed.
Lemma first_letter_spec j A p : first_letter j A = Some p ->
  (p = PI -> forall s, In s A -> nth_error s j = Some PI) /\ (p <> PI -> exists s, In s A /\ nth_error s j = Some p).
Proof.
  induction A as [|s A IH]; cbn; intro H; [injection H as <-; split; [intros _ s []|congruence]|].
  destruct (nth_error s j) as [q|] eqn:E; [|discriminate]. destruct (pauli_eqb q PI) eqn:Eq.
  - apply pauli_eqb_spec in Eq. subst q. destruct (IH H) as [H1 H2]. split.
    + intros -> t [<-|Ht]; [exact E|apply H1; auto].
    + intro Hp. destruct (H2 Hp) as [t [Ht T]]. exists t. auto.
  - injection H as ->. split; [intros ->; discriminate|]. intros _. exists s. auto.
Qed.
Lemma find_largest_len N A m : (forall s, In s A -> length s = N) -> find_largest A = Some m -> length m = N.
Proof.
  intros HA H. destruct A as [|s A]; [discriminate|]. unfold find_largest in H. apply option_seq_len in H. rewrite seq_length in H.
  rewrite H. apply HA. left. reflexivity.
Qed.
Lemma find_largest_ok N A : A <> [] -> (forall s, In s A -> length s = N) -> exists m, find_largest A = Some m.
Proof.
  intros Hne HA. destruct A as [|s A]; [congruence|]. unfold find_largest. apply option_seq_all. intros j Hj. apply in_seq in Hj.
  rewrite (HA s (or_introl eq_refl)) in Hj. clear Hne. revert HA. generalize (s :: A) as B. intro B. induction B as [|t B IH]; intro HB; [eexists; reflexivity|].
  cbn. destruct (nth_error t j) as [q|] eqn:E.
  - destruct (pauli_eqb q PI); [apply IH; intros; apply HB; right; assumption|eexists; reflexivity].
  - apply nth_error_None in E. rewrite (HB t (or_introl eq_refl)) in E. lia.
Qed.
Definition compat (a b : list pauli) : Prop := forall i, nth i a PI = PI \/ nth i b PI = PI \/ nth i a PI = nth i b PI.
Lemma agrees_nth p m : length p = length m -> (forall i, nth i p PI <> PI -> nth i m PI = nth i p PI) -> agrees p m.
Proof.
  revert m. induction p as [|x p IH]; intros [|y m] L H; try discriminate; [constructor|].
  assert (A : agrees p m) by (apply IH; [cbn in L; lia|intros i Hi; apply (H (S i)); exact Hi]).
  destruct x; [constructor; exact A|..]; (specialize (H 0); cbn in H; rewrite H by discriminate; constructor; exact A).
Qed.
Lemma agrees_matches p m : length p = length m -> (matches p m = true <-> agrees p m).
Proof.
  revert m. induction p as [|x p IH]; intros [|y m] L; try discriminate; [split; [constructor|reflexivity]|]. cbn [matches].
  rewrite andb_true_iff, IH by (cbn in L; lia). split.
  - intros [H1 H2]. apply orb_true_iff in H1. destruct H1 as [H1|H1]; apply pauli_eqb_spec in H1; subst; constructor; exact H2.
  - intro H. inversion H; subst; [split; [reflexivity|assumption]|]. split; [rewrite pauli_eqb_refl; apply orb_true_r|assumption].
Qed.
Lemma agrees_refl p : agrees p p.
Proof. induction p; constructor; assumption. Qed.
Lemma find_largest_agrees N A m : (forall s, In s A -> length s = N) -> (forall s t, In s A -> In t A -> compat s t) ->
  find_largest A = Some m -> forall s, In s A -> agrees s m.
Proof.
  intros HA HC H s Hs. pose proof (find_largest_len N A m HA H) as Lm.
  apply agrees_nth; [rewrite Lm; apply HA; exact Hs|]. intros i Hi.
  assert (Hi' : i < N). { destruct (Nat.lt_ge_cases i N); [assumption|]. exfalso. apply Hi. apply nth_overflow. rewrite (HA s Hs). assumption. }
  destruct A as [|s0 A]; [destruct Hs|]. unfold find_largest in H. set (B := s0 :: A) in *.
  assert (E : nth_error (seq 0 (length s0)) i = Some i).
  { rewrite (nth_error_nth' _ 0) by (rewrite seq_length, (HA s0 (or_introl eq_refl)); exact Hi'). rewrite seq_nth by (rewrite (HA s0 (or_introl eq_refl)); exact Hi'). reflexivity. }
  destruct (option_seq_nth _ _ _ _ _ H E) as [p [F R]]. rewrite (nth_error_nth _ _ PI R).
  destruct (first_letter_spec i B p F) as [F1 F2].
  destruct (pauli_eqb p PI) eqn:Ep.
  - apply pauli_eqb_spec in Ep. pose proof (F1 Ep s Hs) as G. apply (nth_error_nth _ _ PI) in G. congruence.
  - assert (Np : p <> PI) by (intro C; subst; discriminate). destruct (F2 Np) as [t [Ht T]]. apply (nth_error_nth _ _ PI) in T.
    destruct (HC s t Hs Ht i) as [C|[C|C]]; congruence.
Qed.

(** * The dictionary of measurements *)
Lemma pstr_eqb_spec a b : pstr_eqb a b = true <-> a = b.
Proof.
  revert b. induction a as [|x a IH]; intros [|y b]; cbn; split; intro H; try reflexivity; try discriminate.
  - apply andb_true_iff in H. destruct H as [H1 H2]. apply pauli_eqb_spec in H1. apply IH in H2. congruence.
  - injection H as -> ->. rewrite pauli_eqb_refl. cbn. apply IH. reflexivity.
Qed.
Lemma pset_In k v d e : In e (pset k v d) -> e = (k, v) \/ In e d.
Proof.
  induction d as [|[k' v'] d IH]; cbn; [intros [H|[]]; auto|]. destruct (pstr_eqb k k') eqn:E.
  - apply pstr_eqb_spec in E. subst. intros [H|H]; auto.
  - intros [H|H]; [auto|]. destruct (IH H); auto.
Qed.
Lemma pset_keys k v d : map fst (pset k v d) = if existsb (pstr_eqb k) (map fst d) then map fst d else map fst d ++ [k].
Proof.
  induction d as [|[k' v'] d IH]; [reflexivity|]. cbn [pset map fst existsb]. destruct (pstr_eqb k k'); [reflexivity|]. cbn [map fst orb]. rewrite IH.
  destruct (existsb (pstr_eqb k) (map fst d)); reflexivity.
Qed.
Lemma pset_NoDup k v d : NoDup (map fst d) -> NoDup (map fst (pset k v d)).
Proof.
  intro H. rewrite pset_keys. destruct (existsb (pstr_eqb k) (map fst d)) eqn:E; [exact H|]. apply NoDup_snoc'; [exact H|]. intro C.
  assert (existsb (pstr_eqb k) (map fst d) = true) by (apply existsb_exists; exists k; split; [exact C|apply pstr_eqb_spec; reflexivity]). congruence.
Qed.
Lemma pset_key_in k v d : In k (map fst (pset k v d)).
Proof.
  rewrite pset_keys. destruct (existsb (pstr_eqb k) (map fst d)) eqn:E; [|apply in_or_app; right; left; reflexivity].
  apply existsb_exists in E. destruct E as [x [Hx E]]. apply pstr_eqb_spec in E. subst. exact Hx.
Qed.
Lemma pset_key_keep k v d x : In x (map fst d) -> In x (map fst (pset k v d)).
Proof. intro H. rewrite pset_keys. destruct (existsb (pstr_eqb k) (map fst d)); [exact H|apply in_or_app; left; exact H]. Qed.

Lemma assign_all_spec operators K v : forall d d', assign_all operators K v d = Some d' -> NoDup (map fst d) ->
  NoDup (map fst d') /\
  (forall x, In x (map fst d) -> In x (map fst d')) /\
  (forall i p, In i v -> nth_error operators i = Some p -> In p (map fst d')) /\
  (forall e, In e d' -> In e d \/ exists i, In i v /\ nth_error operators i = Some (fst e) /\ snd e = K).
Proof.
  induction v as [|i v IH]; intros d d' H ND; cbn in H.
  - injection H as <-. repeat split; auto. intros i p [].
  - destruct (nth_error operators i) as [p|] eqn:E; [|discriminate]. destruct (IH _ _ H (pset_NoDup p K d ND)) as [H1 [H2 [H3 H4]]].
    split; [exact H1|]. split; [intros x Hx; apply H2, pset_key_keep, Hx|]. split.
    + intros j q [<-|Hj] Hq; [|apply (H3 j); assumption]. apply H2. rewrite E in Hq. injection Hq as <-. apply pset_key_in.
    + intros e He. destruct (H4 e He) as [G|[j [Hj G]]]; [|right; exists j; split; [right; exact Hj|exact G]].
      apply pset_In in G. destruct G as [->|G]; [|left; exact G]. right. exists i. split; [left; reflexivity|]. split; [exact E|reflexivity].
Qed.
Lemma build_paulis_spec operators ops colors : forall d d', build_paulis operators ops colors d = Some d' -> NoDup (map fst d) ->
  NoDup (map fst d') /\
  (forall x, In x (map fst d) -> In x (map fst d')) /\
  (forall c v i p, In (c, v) colors -> In i v -> nth_error operators i = Some p -> In p (map fst d')) /\
  (forall e, In e d' -> In e d \/ exists c v i, In (c, v) colors /\ In i v /\ nth_error operators i = Some (fst e) /\ nth_error ops c = Some (snd e)).
Proof.
  induction colors as [|[c v] colors IH]; intros d d' H ND; cbn in H.
  - injection H as <-. repeat split; auto. intros c v i p [].
  - destruct (nth_error ops c) as [K|] eqn:Ec; [|discriminate]. destruct (assign_all operators K v d) as [d1|] eqn:E1; [|discriminate].
    destruct (assign_all_spec _ _ _ _ _ E1 ND) as [A1 [A2 [A3 A4]]]. destruct (IH _ _ H A1) as [B1 [B2 [B3 B4]]].
    split; [exact B1|]. split; [intros x Hx; apply B2, A2, Hx|]. split.
    + intros c' v' i p [E|Hin] Hi Hp; [injection E as <- <-; apply B2, (A3 i p Hi Hp)|apply (B3 c' v' i p); assumption].
    + intros e He. destruct (B4 e He) as [G|[c' [v' [i [G1 G2]]]]].
      * destruct (A4 e G) as [G'|[i [Hi [G1 G2]]]]; [left; exact G'|]. right. exists c, v, i. split; [left; reflexivity|]. subst K. auto.
      * right. exists c', v', i. split; [right; exact G1|exact G2].
Qed.
Lemma build_paulis_some operators ops colors : (forall c v, In (c, v) colors -> c < length ops /\ forall i, In i v -> i < length operators) ->
  forall d, exists d', build_paulis operators ops colors d = Some d'.
Proof.
  induction colors as [|[c v] colors IH]; intros H d; [eexists; reflexivity|]. cbn.
  destruct (H c v (or_introl eq_refl)) as [Hc Hv]. destruct (nth_error ops c) as [K|] eqn:E; [|apply nth_error_None in E; lia].
  assert (G : forall d, exists d', assign_all operators K v d = Some d').
  { clear -Hv. induction v as [|i v IHv]; intro d; [eexists; reflexivity|]. cbn. destruct (nth_error operators i) eqn:E.
    - apply IHv. intros; apply Hv; right; assumption.
    - apply nth_error_None in E. pose proof (Hv i (or_introl eq_refl)). lia. }
  destruct (G d) as [d1 ->]. apply IH. intros; apply H; right; assumption.
Qed.

Lemma NoDup_fst_unique {X Y} (d : list (X * Y)) k a b : NoDup (map fst d) -> In (k, a) d -> In (k, b) d -> a = b.
Proof.
  induction d as [|[k' v] d IH]; cbn; [intros _ []|]. intros ND. inversion ND as [|? ? Hn ND']; subst. intros [E|H] [F|G].
  - congruence.
  - injection E as -> ->. exfalso. apply Hn. apply in_map_iff. exists (k, b). auto.
  - injection F as -> ->. exfalso. apply Hn. apply in_map_iff. exists (k, a). auto.
  - apply IH; assumption.
Qed.

Definition grouping_ok (operators : list (list pauli)) (meas : list (list pauli)) (d : pdict) : Prop :=
  forall p, In p operators -> exists m, In (p, m) d /\ (forall m', In (p, m') d -> m' = m) /\ In m meas /\ agrees p m.

Lemma simplify_multi rel operators alg meas d : length operators <> 1 ->
  simplify_tomography rel operators alg = Some (meas, d) ->
  let colors := color_dict 0 alg [] in
  option_seq (map (fun c => match dget c colors with None => None | Some v => match select operators v with None => None | Some A => find_largest A end end)
     (seq 0 (length colors))) = Some meas /\ build_paulis operators meas colors [] = Some d /\ forallb (fun e => matches (fst e) (snd e)) d = true.
Proof.
  intros L H. unfold simplify_tomography in H. destruct operators as [|p0 [|p1 o]]; [|cbn in L; lia|];
    (destruct (graph_edges rel _); [|discriminate]; cbv zeta in *;
     match type of H with context [option_seq ?l] => destruct (option_seq l) as [ops|] eqn:E; [|discriminate] end;
     match type of H with context [build_paulis ?a ?b ?c ?e] => destruct (build_paulis a b c e) as [d0|] eqn:B; [|discriminate] end;
     destruct (forallb _ d0) eqn:F; [|discriminate]; injection H as <- <-; auto).
Qed.

Lemma simplify_covers rel N operators alg meas d :
  (forall p, In p operators -> length p = N) -> length alg = length operators ->
  simplify_tomography rel operators alg = Some (meas, d) -> grouping_ok operators meas d.
Proof.
  intros HN Ha H p Hp. destruct (Nat.eq_dec (length operators) 1) as [L|L].
  - destruct operators as [|q [|]]; cbn in L; try lia. cbn in H. injection H as <- <-. destruct Hp as [<-|[]].
    exists q. split; [left; reflexivity|]. split; [intros m' [E|[]]; congruence|]. split; [left; reflexivity|apply agrees_refl].
  - destruct (simplify_multi _ _ _ _ _ L H) as [E [B F]]. cbv zeta in E.
    destruct (build_paulis_spec _ _ _ _ _ B) as [B1 [_ [B3 B4]]]; [constructor|].
    assert (KN : NoDup (map fst (color_dict 0 alg []))) by (apply keys_NoDup; constructor).
    apply In_nth_error in Hp. destruct Hp as [i Hi]. assert (Hl : i < length alg) by (rewrite Ha; apply nth_error_Some; congruence).
    destruct (nth_error alg i) as [c|] eqn:Ec; [|apply nth_error_None in Ec; lia].
    destruct (dict_covers alg c (nth_error_In _ _ Ec)) as [v Hv]. destruct (dict_entry alg c v Hv) as [_ Sv].
    assert (Kp : In p (map fst d)). { apply (B3 c v i p); [apply dget_In; assumption|apply Sv; exact Ec|exact Hi]. }
    apply in_map_iff in Kp. destruct Kp as [[p' m] [Ep Hm]]. cbn in Ep. subst p'. exists m. split; [exact Hm|].
    split; [intros m' Hm'; eapply NoDup_fst_unique; eassumption|].
    destruct (B4 _ Hm) as [[]|[c' [v' [j [C1 [C2 [C3 C4]]]]]]]. cbn [fst snd] in *.
    split; [eapply nth_error_In; exact C4|].
    rewrite forallb_forall in F. specialize (F _ Hm). cbn [fst snd] in F. apply agrees_matches; [|exact F].
    rewrite (HN p) by (eapply nth_error_In; exact Hi). symmetry.
    assert (Hc' : nth_error (seq 0 (length (color_dict 0 alg []))) c' = Some c').
    { assert (c' < length meas) by (apply nth_error_Some; congruence). rewrite (option_seq_len _ _ _ E), seq_length in H0.
      rewrite (nth_error_nth' _ 0) by (rewrite seq_length; exact H0). rewrite seq_nth by exact H0. reflexivity. }
    destruct (option_seq_nth _ _ _ _ _ E Hc') as [m' [G1 G2]]. rewrite C4 in G2. injection G2 as <-.
    destruct (dget c' (color_dict 0 alg [])) as [w|]; [|discriminate]. destruct (select operators w) as [A|] eqn:SA; [|discriminate].
    apply (find_largest_len N A m); [|exact G1]. intros s Hs. apply (select_spec _ _ _ SA) in Hs. destruct Hs as [i' [_ Hi']]. apply HN. eapply nth_error_In; exact Hi'.
Qed.

Lemma simplify_returns N operators alg :
  (forall p, In p operators -> length p = N) -> length alg = length operators ->
  (forall c, In c alg -> forall c', c' < c -> In c' alg) ->
  (forall i j x y c, nth_error operators i = Some x -> nth_error operators j = Some y ->
     nth_error alg i = Some c -> nth_error alg j = Some c -> compat x y) ->
  exists meas d, simplify_tomography Rqwc operators alg = Some (meas, d).
Proof.
  intros HN Ha HC HP. destruct (Nat.eq_dec (length operators) 1) as [L|L].
  - destruct operators as [|q [|]]; cbn in L; try lia. eexists. eexists. reflexivity.
  - destruct (graph_edges_spec Rqwc N operators HN) as [es [Ees _]].
    set (colors := color_dict 0 alg []).
    assert (KN : NoDup (map fst colors)) by (apply keys_NoDup; constructor).
    pose proof (contiguous alg HC) as CT. cbv zeta in CT. fold colors in CT.
    assert (SEL : forall c v, dget c colors = Some v -> exists A, select operators v = Some A /\ A <> []).
    { intros c v Hv. destruct (dict_entry alg c v Hv) as [Hne Sv]. destruct (option_seq_all (fun i => nth_error operators i) v) as [A HA].
      - intros i Hi. apply Sv in Hi. assert (i < length operators) by (rewrite <- Ha; apply nth_error_Some; congruence).
        destruct (nth_error operators i) eqn:E; [eexists; reflexivity|]. apply nth_error_None in E. lia.
      - exists A. split; [exact HA|]. intro C. subst A. apply option_seq_len in HA. destruct v; [congruence|discriminate]. }
    assert (LEN : forall v A, select operators v = Some A -> forall s, In s A -> length s = N).
    { intros v A SA s Hs. apply (select_spec _ _ _ SA) in Hs. destruct Hs as [i' [_ Hi']]. apply HN. eapply nth_error_In; exact Hi'. }
    destruct (option_seq_all (fun c => match dget c colors with None => None | Some v => match select operators v with None => None | Some A => find_largest A end end)
       (seq 0 (length colors))) as [ops Eops].
    { intros c Hc. apply in_seq in Hc. assert (In c alg) as Ic by (apply CT; lia). destruct (dict_covers alg c Ic) as [v Hv]. fold colors in Hv. rewrite Hv.
      destruct (SEL c v Hv) as [A [SA NA]]. rewrite SA. apply (find_largest_ok N); [exact NA|]. apply (LEN v A SA). }
    assert (Lops : length ops = length colors) by (rewrite (option_seq_len _ _ _ Eops), seq_length; reflexivity).
    destruct (build_paulis_some operators ops colors) with (d := @nil (list pauli * list pauli)) as [d Ed].
    { intros c v Hcv. apply dget_In in Hcv; [|exact KN]. destruct (dict_entry alg c v Hcv) as [Hne Sv].
      split.
      - rewrite Lops. apply CT. destruct v as [|i v]; [congruence|]. apply nth_error_In with (n := i). apply Sv. left. reflexivity.
      - intros i Hi. apply Sv in Hi. rewrite <- Ha. apply nth_error_Some. congruence. }
    exists ops, d. unfold simplify_tomography.
    assert (F : forallb (fun e => matches (fst e) (snd e)) d = true).
    { apply forallb_forall. intros [p m] Hm. cbn [fst snd].
      destruct (build_paulis_spec _ _ _ _ _ Ed) as [_ [_ [_ B4]]]; [constructor|].
      destruct (B4 _ Hm) as [[]|[c [v [i [C1 [C2 [C3 C4]]]]]]]. cbn [fst snd] in *.
      apply dget_In in C1; [|exact KN]. destruct (dict_entry alg c v C1) as [Hne Sv].
      assert (Hc : nth_error (seq 0 (length colors)) c = Some c).
      { assert (c < length colors) by (rewrite <- Lops; apply nth_error_Some; congruence).
        rewrite (nth_error_nth' _ 0) by (rewrite seq_length; assumption). rewrite seq_nth by assumption. reflexivity. }
      destruct (option_seq_nth _ _ _ _ _ Eops Hc) as [m' [G1 G2]]. rewrite C4 in G2. injection G2 as <-. rewrite C1 in G1.
      destruct (SEL c v C1) as [A [SA NA]]. rewrite SA in G1.
      assert (Ip : In p A) by (apply (select_spec _ _ _ SA); exists i; auto).
      apply agrees_matches; [rewrite (find_largest_len N A m (LEN v A SA) G1); apply (LEN v A SA p Ip)|].
      apply (find_largest_agrees N A m (LEN v A SA)); [|exact G1|exact Ip].
      intros s t Hs Ht. apply (select_spec _ _ _ SA) in Hs, Ht. destruct Hs as [a [Ia Sa]], Ht as [b [Ib Sb]].
      apply Sv in Ia, Ib. eapply HP; eassumption. }
    destruct operators as [|p0 [|p1 o]]; [|cbn in L; lia|]; cbv zeta; fold colors; rewrite Ees, Eops, Ed, F; reflexivity.
Qed.
