From Coq Require Import Bool List Arith ZArith Lia.
From Verif Require Import Coeff MatSpec MatLemmas PauliModel PauliProofs TomoModel TomoProofs OptModel OptProofs StabModel StabSpec StabProofs StabProofs2 StabProofs3.
Import ListNotations.

(** ** Check vectors *)
Lemma ptc_eq : forall s, pauli_to_check s = rvec s ++ lvec s.
Proof. reflexivity. Qed.
Lemma ptc_length : forall s N, length s = N -> length (pauli_to_check s) = 2 * N.
Proof. intros s N H. rewrite ptc_eq, app_length. unfold rvec, lvec. rewrite !map_length. lia. Qed.
Lemma vget_ptc_z : forall s i, i < length s -> vget (pauli_to_check s) i = (let p := nth i s PI in pauli_eqb p PZ || pauli_eqb p PY).
Proof.
  intros s i H. unfold vget, pauli_to_check. rewrite app_nth1 by (rewrite map_length; exact H).
  apply (map_nth (fun x => pauli_eqb x PZ || pauli_eqb x PY) s PI i).
Qed.
Lemma vget_ptc_x : forall s i N, length s = N -> i < N -> vget (pauli_to_check s) (i + N) = (let p := nth i s PI in pauli_eqb p PX || pauli_eqb p PY).
Proof.
  intros s i N Hs H. unfold vget, pauli_to_check. rewrite app_nth2 by (rewrite map_length; lia). rewrite map_length.
  replace (i + N - length s) with i by lia.
  apply (map_nth (fun x => pauli_eqb x PX || pauli_eqb x PY) s PI i).
Qed.
Lemma ctp_length : forall N v, length (check_to_pauli N v) = N.
Proof. intros N v. unfold check_to_pauli. now rewrite map_length, seq_length. Qed.
Lemma ctp_nth : forall N v i, i < N -> nth i (check_to_pauli N v) PI = if vget v i then if vget v (i + N) then PY else PZ else if vget v (i + N) then PX else PI.
Proof.
  intros N v i H. unfold check_to_pauli.
  set (f := fun i => if vget v i then if vget v (i + N) then PY else PZ else if vget v (i + N) then PX else PI).
  rewrite (nth_indep (map f (seq 0 N)) PI (f 0)) by (rewrite map_length, seq_length; exact H). rewrite map_nth, seq_nth by exact H. reflexivity.
Qed.
Lemma check_round_trip : forall N s, length s = N -> check_to_pauli N (pauli_to_check s) = s.
Proof.
  intros N s H. apply nth_ext with PI PI; [rewrite ctp_length; congruence|]. intros i Hi. rewrite ctp_length in Hi.
  rewrite ctp_nth, vget_ptc_z, (vget_ptc_x s i N) by (try exact H; lia). cbn zeta. destruct (nth i s PI); reflexivity.
Qed.
Lemma pauli_round_trip : forall N v, length v = 2 * N -> pauli_to_check (check_to_pauli N v) = v.
Proof.
  intros N v H. assert (L := ctp_length N v). apply vget_ext with (2 * N); [now apply ptc_length|exact H|].
  intros i Hi. destruct (le_lt_dec N i) as [Hl|Hl].
  - replace i with (i - N + N) by lia. rewrite (vget_ptc_x _ (i - N) N L) by lia. rewrite ctp_nth by lia. cbn zeta.
    destruct (vget v (i - N)), (vget v (i - N + N)); reflexivity.
  - rewrite vget_ptc_z by lia. rewrite ctp_nth by lia. cbn zeta. destruct (vget v i), (vget v (i + N)); reflexivity.
Qed.
Lemma ptc_inj : forall a b N, length a = N -> length b = N -> pauli_to_check a = pauli_to_check b -> a = b.
Proof. intros a b N Ha Hb H. rewrite <- (check_round_trip N a Ha), <- (check_round_trip N b Hb). now rewrite H. Qed.

Lemma add2_app : forall a b c d, length a = length c -> add2 (a ++ b) (c ++ d) = add2 a c ++ add2 b d.
Proof. induction a as [|x a IH]; intros b [|y c] d H; try discriminate; [reflexivity|]. cbn in *. now rewrite IH by lia. Qed.
Lemma dot2_app : forall a b c d, length a = length c -> dot2 (a ++ b) (c ++ d) = xorb (dot2 a c) (dot2 b d).
Proof.
  induction a as [|x a IH]; intros b [|y c] d H; try discriminate; [cbn; destruct (dot2 b d); reflexivity|].
  cbn [app dot2]. rewrite IH by (cbn in H; lia). symmetry. apply xorb_assoc.
Qed.
Lemma vecs_pmuls : forall a b, length a = length b -> rvec (pmuls a b) = add2 (rvec a) (rvec b) /\ lvec (pmuls a b) = add2 (lvec a) (lvec b).
Proof.
  induction a as [|x a IH]; intros [|y b] H; try discriminate; [split; reflexivity|].
  destruct (IH b ltac:(cbn in H; lia)) as [H1 H2]. unfold rvec, lvec in *. cbn [pmuls map add2]. rewrite H1, H2. split; f_equal; destruct x, y; reflexivity.
Qed.
Lemma ptc_pmuls : forall a b, length a = length b -> pauli_to_check (pmuls a b) = add2 (pauli_to_check a) (pauli_to_check b).
Proof.
  intros a b H. destruct (vecs_pmuls a b H) as [H1 H2]. rewrite !ptc_eq, H1, H2, add2_app; [reflexivity|]. unfold rvec. now rewrite !map_length.
Qed.
Lemma exchange_ptc : forall N b, length b = N -> exchange N (pauli_to_check b) = lvec b ++ rvec b.
Proof.
  intros N b H. unfold exchange. rewrite ptc_eq. assert (L : length (rvec b) = N) by (unfold rvec; now rewrite map_length).
  rewrite skipn_app, firstn_app, L, Nat.sub_diag. cbn [skipn firstn]. rewrite <- L, skipn_all, firstn_all. now rewrite app_nil_r.
Qed.
Lemma nconf_dot : forall a b, length a = length b -> xorb (dot2 (rvec a) (lvec b)) (dot2 (lvec a) (rvec b)) = Nat.odd (nconf a b).
Proof.
  induction a as [|x a IH]; intros [|y b] H; try discriminate; [reflexivity|].
  specialize (IH b ltac:(cbn in H; lia)). unfold rvec, lvec in *. cbn [map dot2 nconf].
  rewrite Nat.odd_add, <- IH. generalize (dot2 (map (fun p => pauli_eqb p PZ || pauli_eqb p PY) a) (map (fun p => pauli_eqb p PX || pauli_eqb p PY) b)) as u.
  intro u. generalize (dot2 (map (fun p => pauli_eqb p PX || pauli_eqb p PY) a) (map (fun p => pauli_eqb p PZ || pauli_eqb p PY) b)) as w. intro w.
  destruct x, y, u, w; reflexivity.
Qed.
Lemma symplectic_nconf : forall N a b, length a = N -> length b = N -> dot2 (pauli_to_check a) (exchange N (pauli_to_check b)) = Nat.odd (nconf a b).
Proof.
  intros N a b Ha Hb. rewrite exchange_ptc by exact Hb. rewrite ptc_eq, dot2_app by (unfold rvec, lvec; rewrite !map_length; congruence).
  apply nconf_dot. congruence.
Qed.
Lemma symplectic_commute : forall K N a b, length a = N -> length b = N ->
  dot2 (pauli_to_check a) (exchange N (pauli_to_check b)) = false <-> commuting K N a b.
Proof.
  intros K N a b Ha Hb. rewrite (symplectic_nconf N a b Ha Hb). destruct (commute_spec K a b N Ha Hb) as [k [H1 [H2 H3]]].
  unfold commuting. rewrite <- H3. unfold commute in H1. rewrite differing_spec in H1 by congruence.
  assert (H1' : Nat.modulo (nconf a b + 1) 2 = k) by congruence. clear H1. rename H1' into H1.
  rewrite <- Nat.negb_even. destruct (Nat.even (nconf a b)) eqn:Ev.
  - split; [intros _|reflexivity]. apply Nat.even_spec in Ev. destruct Ev as [m Ev]. rewrite Ev in H1.
    replace (2 * m + 1) with (1 + m * 2) in H1 by lia. rewrite Nat.mod_add in H1 by lia. cbn in H1. lia.
  - split; [discriminate|]. intro Hk. exfalso. assert (O : Nat.odd (nconf a b) = true) by (rewrite <- Nat.negb_even, Ev; reflexivity).
    apply Nat.odd_spec in O. destruct O as [m O]. rewrite O in H1. replace (2 * m + 1 + 1) with (0 + (m + 1) * 2) in H1 by lia.
    rewrite Nat.mod_add in H1 by lia. cbn in H1. lia.
Qed.
(** The symplectic product is symmetric. *)
Lemma dot2_exchange : forall N a b, length a = 2 * N -> length b = 2 * N -> dot2 a (exchange N b) = dot2 (exchange N a) b.
Proof.
  intros N a b Ha Hb. unfold exchange.
  rewrite <- (firstn_skipn N a) at 1. rewrite <- (firstn_skipn N b) at 3.
  rewrite !dot2_app by (rewrite ?firstn_length, ?skipn_length; lia).
  apply xorb_comm.
Qed.

(** ** The columns of G *)
Definition nonid (p : list pauli) : bool := negb (forallb (fun x => pauli_eqb x PI) p).
Lemma fill_columns_spec : forall ps n add G, (add = true -> 1 <= n) -> length G = n + length ps ->
  let '(G', add') := fill_columns n add ps G in
  length G' = length G /\ (add = true -> add' = true) /\
  (forall i, i < (if add then n - 1 else n) -> nth i G' [] = nth i G []) /\
  (forall p, In p ps -> nonid p = true -> exists i, i < (if add' then length G - 1 else length G) /\ nth i G' [] = pauli_to_check p) /\
  (forall i, nth i G' [] = nth i G [] \/ exists p, In p ps /\ nonid p = true /\ nth i G' [] = pauli_to_check p).
Proof.
  induction ps as [|p ps IH]; intros n add G Ha HG; cbn [fill_columns].
  - repeat split; auto. intros q [].
  - destruct (forallb (fun x => pauli_eqb x PI) p) eqn:Hp.
    + specialize (IH (S n) true G ltac:(intros; lia) ltac:(cbn in HG; lia)). destruct (fill_columns (S n) true ps G) as [G' add'].
      destruct IH as [H1 [H2 [H3 [H4 H5]]]]. split; [exact H1|]. split; [auto|].
      split; [intros i Hi; apply H3; destruct add; lia|].
      split; [intros q [<-|Hq] Hn; [unfold nonid in Hn; rewrite Hp in Hn; discriminate|now apply H4]|].
      intro i. destruct (H5 i) as [H|[q [Hq H]]]; [now left|right; exists q; split; [now right|exact H]].
    + set (k := if add then n - 1 else n). set (G1 := put_at k (pauli_to_check p) G).
      assert (Hk : k < length G) by (unfold k; cbn in HG; destruct add; lia).
      assert (L1 : length G1 = length G) by (unfold G1; apply put_at_length).
      specialize (IH (S n) add G1 ltac:(intros H; specialize (Ha H); lia) ltac:(rewrite L1; cbn in HG; lia)).
      destruct (fill_columns (S n) add ps G1) as [G' add'] eqn:EQ.
      destruct IH as [H1 [H2 [H3 [H4 H5]]]]. rewrite L1 in *. split; [exact H1|]. split; [exact H2|].
      assert (N1 : forall i, nth i G1 [] = if i =? k then pauli_to_check p else nth i G []) by (intro i; unfold G1; now apply nth_put_at).
      split; [intros i Hi; fold k in Hi; rewrite H3 by (unfold k in Hi; destruct add; lia); rewrite N1; destruct (Nat.eqb_spec i k); [lia|reflexivity]|].
      split.
      * intros q [<-|Hq] Hn; [|now apply H4]. exists k. split.
        -- destruct add' eqn:Ea; [|exact Hk].
           (* the last column can only be dropped when an identity was met *)
           unfold k. destruct add; [cbn in HG; specialize (Ha eq_refl); lia|].
           assert (Hex : length ps <> 0).
           { intro Z. destruct ps; [|discriminate]. cbn in EQ. congruence. }
           cbn in HG. lia.
        -- rewrite H3; [rewrite N1, Nat.eqb_refl; reflexivity|]. unfold k. destruct add; [specialize (Ha eq_refl)|]; lia.
      * intro i. destruct (H5 i) as [H|[q [Hq H]]]; [|right; exists q; split; [now right|exact H]].
        rewrite H, N1. destruct (i =? k); [right; exists p; split; [now left|]; split; [unfold nonid; now rewrite Hp|reflexivity]|now left].
Qed.

Lemma columns_spec : forall N ps, 
  (forall p, In p ps -> nonid p = true -> In (pauli_to_check p) (columns N ps)) /\
  (forall g, In g (columns N ps) -> g = repeat false (2 * N) \/ exists p, In p ps /\ nonid p = true /\ g = pauli_to_check p).
Proof.
  intros N ps. unfold columns.
  pose proof (fill_columns_spec ps 0 false (repeat (repeat false (2 * N)) (length ps)) ltac:(discriminate) ltac:(rewrite repeat_length; reflexivity)) as F.
  destruct (fill_columns 0 false ps (repeat (repeat false (2 * N)) (length ps))) as [G add]. destruct F as [H1 [_ [_ [H4 H5]]]]. rewrite repeat_length in *.
  assert (S : forall g, In g G -> g = repeat false (2 * N) \/ exists p, In p ps /\ nonid p = true /\ g = pauli_to_check p).
  { intros g Hg. destruct (In_nth G g [] Hg) as [i [Hi <-]]. destruct (H5 i) as [H|H]; [left|now right]. rewrite H.
    apply (repeat_spec (length ps)). apply nth_In. rewrite repeat_length. lia. }
  assert (IF : forall (l : list vec) n x, In x (firstn n l) -> In x l).
  { intros l n x Hx. rewrite <- (firstn_skipn n l). apply in_or_app. now left. }
  split.
  - intros p Hp Hn. destruct (H4 p Hp Hn) as [i [Hi Ei]]. destruct add; [|rewrite <- Ei; apply nth_In; unfold vec in *; lia].
    assert (Ef : nth i (firstn (length ps - 1) G) [] = pauli_to_check p).
    { rewrite <- Ei. rewrite <- (firstn_skipn (length ps - 1) G) at 2. rewrite app_nth1; [reflexivity|]. rewrite firstn_length. unfold vec in *. lia. }
    rewrite <- Ef. apply nth_In. rewrite firstn_length. unfold vec in *. lia.
  - intros g Hg. apply S. destruct add; [now apply IF with (length ps - 1)|exact Hg].
Qed.
Lemma columns_shape : forall N ps, (forall p, In p ps -> length p = N) -> shape (2 * N) (columns N ps).
Proof.
  intros N ps H g Hg. destruct (columns_spec N ps) as [_ S]. destruct (S g Hg) as [->|[p [Hp [_ ->]]]]; [apply repeat_length|]. now apply ptc_length, H.
Qed.
Lemma parity_shape : forall N ps, (forall p, In p ps -> length p = N) -> shape (2 * N) (parity_matrix N ps).
Proof.
  intros N ps H r Hr. apply in_map_iff in Hr. destruct Hr as [g [<- Hg]]. apply exchange_length. now apply (columns_shape N ps H).
Qed.
Lemma nonid_false : forall p N, length p = N -> nonid p = false -> pauli_to_check p = repeat false (2 * N).
Proof.
  intros p N H Hn. unfold nonid in Hn. apply negb_false_iff in Hn. apply vget_ext with (2 * N); [now apply ptc_length|apply repeat_length|].
  intros i Hi. unfold vget at 2. rewrite nth_repeat_false. rewrite forallb_forall in Hn.
  assert (Q : forall k, k < N -> nth k p PI = PI).
  { intros k Hk. apply pauli_eqb_spec, Hn, nth_In. lia. }
  destruct (le_lt_dec N i) as [L|L].
  - replace i with (i - N + N) by lia. rewrite (vget_ptc_x p (i - N) N H) by lia. rewrite Q by lia. reflexivity.
  - rewrite vget_ptc_z by lia. rewrite Q by lia. reflexivity.
Qed.

(** A vector is orthogonal to the rows of the parity matrix exactly when it is to every input string. *)
Lemma parity_orth : forall N ps x, (forall p, In p ps -> length p = N) -> length x = 2 * N ->
  (forall r, In r (parity_matrix N ps) -> dot2 r x = false) <-> (forall p, In p ps -> dot2 (exchange N (pauli_to_check p)) x = false).
Proof.
  intros N ps x H Hx. destruct (columns_spec N ps) as [C1 C2]. split; intro Q.
  - intros p Hp. destruct (nonid p) eqn:Hn.
    + apply Q. apply in_map. now apply C1.
    + rewrite (nonid_false p N (H p Hp) Hn), exchange_zero. apply dot2_zero.
  - intros r Hr. apply in_map_iff in Hr. destruct Hr as [g [<- Hg]]. destruct (C2 g Hg) as [->|[p [Hp [_ ->]]]]; [rewrite exchange_zero; apply dot2_zero|now apply Q].
Qed.
Lemma null_basis_eq : forall N ps E piv, gaussian_elimination N (parity_matrix N ps) = (E, piv) ->
  null_basis N ps = map (check_to_pauli N) (map (nullv (2 * N) E piv) (free (2 * N) piv)).
Proof. intros N ps E piv H. unfold null_basis. rewrite H. reflexivity. Qed.
Lemma orth_rows : forall N E0 E piv x, rref (2 * N) (2 * N) E0 E piv -> shape (2 * N) E0 ->
  (forall r, In r E -> dot2 r x = false) <-> (forall r, In r E0 -> dot2 r x = false).
Proof.
  intros N E0 E piv x R S0. split; intros H r Hr.
  - apply (span_orth (2 * N) E); [apply (rr_shape _ _ _ _ _ R)|now apply (rr_span2 _ _ _ _ _ R)|exact H].
  - apply (span_orth (2 * N) E0); [exact S0|now apply (rr_span1 _ _ _ _ _ R)|exact H].
Qed.

Lemma null_basis_length : forall N ps q, In q (null_basis N ps) -> length q = N.
Proof.
  intros N ps q H. unfold null_basis in H. destruct (gaussian_elimination N (parity_matrix N ps)) as [E piv].
  apply in_map_iff in H. destruct H as [v [<- _]]. apply ctp_length.
Qed.
Lemma null_basis_commutes : forall K N ps, (forall p, In p ps -> length p = N) -> forall q p, In q (null_basis N ps) -> In p ps -> commuting K N q p.
Proof.
  intros K N ps H q p Hq Hp. apply symplectic_commute; [now apply null_basis_length with ps|now apply H|].
  assert (S0 := parity_shape N ps H). pose proof (gaussian_rref N _ S0) as R. destruct (gaussian_elimination N (parity_matrix N ps)) as [E piv] eqn:EQ.
  rewrite (null_basis_eq N ps E piv EQ) in Hq. apply in_map_iff in Hq. destruct Hq as [v [<- Hv]]. apply in_map_iff in Hv. destruct Hv as [m [<- Hm]].
  assert (L : length (nullv (2 * N) E piv m) = 2 * N) by apply null_entries_length.
  rewrite pauli_round_trip by exact L. rewrite dot2_comm.
  apply (proj1 (parity_orth N ps _ H L)); [|exact Hp].
  apply (proj1 (orth_rows N _ E piv _ R S0)). intros r Hr. apply free_spec in Hm. apply row_null with (parity_matrix N ps); try apply Hm; assumption.
Qed.

(** ** Products *)
Definition lprod (N : nat) (ss : list (list pauli)) : list pauli := fold_right pmuls (repeat PI N) ss.
Lemma lprod_length : forall N ss, (forall s, In s ss -> length s = N) -> length (lprod N ss) = N.
Proof.
  intros N. induction ss as [|s ss IH]; intro H; [apply repeat_length|]. cbn. apply length_pmuls; [apply H; now left|]. apply IH. intros; apply H; now right.
Qed.
Lemma ptc_identity : forall N, pauli_to_check (repeat PI N) = repeat false (2 * N).
Proof. intro N. apply nonid_false; [apply repeat_length|]. unfold nonid. apply negb_false_iff, forallb_forall. intros x Hx. apply repeat_spec in Hx. now subst. Qed.
Lemma ptc_lprod : forall N ss, (forall s, In s ss -> length s = N) -> pauli_to_check (lprod N ss) = sumrows (2 * N) (map pauli_to_check ss).
Proof.
  intros N. induction ss as [|s ss IH]; intro H; [apply ptc_identity|].
  assert (H' : forall s, In s ss -> length s = N) by (intros; apply H; now right).
  change (lprod N (s :: ss)) with (pmuls s (lprod N ss)). rewrite ptc_pmuls by (rewrite lprod_length by exact H'; apply H; now left).
  rewrite IH by exact H'. reflexivity.
Qed.
Lemma combination_select : forall M bs E, combination M bs E = sumrows M (select bs E).
Proof.
  intros M. induction bs as [|b bs IH]; intros [|r E]; try reflexivity. cbn [combination select]. destruct b; [cbn [sumrows fold_right]; now rewrite IH|apply IH].
Qed.
Lemma select_map : forall A B (f : A -> B) bs l, select bs (map f l) = map f (select bs l).
Proof. intros A B f. induction bs as [|b bs IH]; intros [|x l]; try reflexivity. cbn. destruct b; cbn; now rewrite IH. Qed.
Lemma select_in : forall A bs (l : list A) x, In x (select bs l) -> In x l.
Proof. intros A. induction bs as [|b bs IH]; intros [|y l] x H; cbn in H; try contradiction. destruct b; [destruct H as [->|H]; [now left|]|]; right; now apply IH. Qed.

Section Prod.
  Variable K : CoefRing.
  Add Ring KRing : (c_ring K).
  Local Open Scope coef_scope.

  Lemma mprod_lprod N ss : (forall s, In s ss -> length s = N) -> exists z, meq N (mprod N ss) (mscal (@ipow K z) (pmat (lprod N ss))).
  Proof.
    induction ss as [|s ss IH]; intro H.
    - exists 0%Z. cbn. intros r c Hr Hc. unfold mscal. rewrite (pmat_identity K N r c Hr Hc). unfold ipow. cbn. ring.
    - assert (H' : forall s, In s ss -> length s = N) by (intros; apply H; now right). destruct (IH H') as [z Hz].
      assert (Hs : length s = N) by (apply H; now left). assert (Hl := lprod_length N ss H').
      exists (z + pexps s (lprod N ss))%Z. change (mprod N (s :: ss)) with (mmul N (@pmat K s) (mprod N ss)).
      change (lprod N (s :: ss)) with (pmuls s (lprod N ss)).
      apply meq_trans with (mmul N (pmat s) (mscal (ipow z) (pmat (lprod N ss)))); [apply mmul_meq; [apply meq_refl|exact Hz]|].
      apply meq_trans with (mscal (ipow z) (mmul N (pmat s) (pmat (lprod N ss)))); [apply mmul_scal_r|].
      intros r c Hr Hc. unfold mscal. rewrite <- (pmat_mul K s (lprod N ss) N Hs Hl r c Hr Hc). unfold mscal. rewrite ipow_add. ring.
  Qed.
  Lemma string_product_spec N ss : (forall s, In s ss -> length s = N) ->
    fst (@string_product K N ss) = lprod N ss /\ meq N (mscal (snd (@string_product K N ss)) (pmat (fst (@string_product K N ss)))) (mprod N ss).
  Proof.
    intro H. unfold string_product.
    assert (G : forall ss (acc : list pauli * K), (forall s, In s ss -> length s = N) -> length (fst acc) = N ->
      let r := fold_left (fun prod s => pauli_mul prod (s, c1)) ss acc in
      fst r = pmuls (fst acc) (lprod N ss) /\ meq N (mscal (snd r) (pmat (fst r))) (mmul N (mscal (snd acc) (pmat (fst acc))) (mprod N ss))).
    { clear ss H. induction ss as [|s ss IH]; intros acc H Ha; cbn zeta.
      - cbn [fold_left]. split.
        + cbn. rewrite <- Ha. clear Ha. induction (fst acc) as [|x l IHl]; [reflexivity|]. cbn. rewrite <- IHl. destruct x; reflexivity.
        + apply meq_sym. apply mmul_one_r.
      - assert (Hs : length s = N) by (apply H; now left). assert (H' : forall s, In s ss -> length s = N) by (intros; apply H; now right).
        destruct (pauli_mul_matrix K N acc (s, c1) Ha Hs) as [L Q].
        destruct (IH (pauli_mul acc (s, c1)) H' L) as [I1 I2]. cbn [fold_left]. split.
        + rewrite I1. rewrite (pauli_mul_eq K acc (s, c1)) by (cbn; congruence). cbn [fst]. change (lprod N (s :: ss)) with (pmuls s (lprod N ss)).
          assert (Hl := lprod_length N ss H'). revert Ha Hs Hl. generalize (fst acc) s (lprod N ss). clear.
          induction N as [|N IH]; intros [|a x] [|b y] [|d z] H1 H2 H3; try discriminate; [reflexivity|].
          cbn in *. f_equal; [destruct a, b, d; reflexivity|apply IH; lia].
        + eapply meq_trans; [exact I2|].
          eapply meq_trans; [apply mmul_meq; [exact Q|apply meq_refl]|].
          eapply meq_trans; [apply meq_sym, mmul_assoc|]. apply mmul_meq; [apply meq_refl|]. cbn [fst snd].
          change (mprod N (s :: ss)) with (mmul N (@pmat K s) (mprod N ss)). apply mmul_meq; [|apply meq_refl].
          intros r c _ _. unfold mscal. ring. }
    destruct (G ss (repeat PI N, c1) H (repeat_length _ _)) as [G1 G2]. cbn zeta in G1, G2. split.
    - rewrite G1. cbn [fst]. assert (Hl := lprod_length N ss H). rewrite <- Hl at 1. generalize (lprod N ss). clear.
      induction l as [|x l IH]; [reflexivity|]. cbn. rewrite IH. destruct x; reflexivity.
    - eapply meq_trans; [exact G2|]. cbn [fst snd]. eapply meq_trans; [|apply mmul_one_l]. apply mmul_meq; [|apply meq_refl].
      intros r c Hr Hc. unfold mscal. rewrite (pmat_identity K N r c Hr Hc). ring.
  Qed.
  Lemma ipow4 z : @ipow K z * ipow z * ipow z * ipow z = 1.
  Proof. rewrite <- !ipow_add. unfold ipow. replace (z + z + z + z)%Z with (z * 4)%Z by lia. rewrite Z.mod_mul by lia. reflexivity. Qed.

  (** A string proportional to the identity is the identity. *)
  Lemma scalar_string N s (x : K) : length s = N -> meq N (pmat s) (mscal x mone) -> s = repeat PI N.
  Proof.
    intros Hs H. apply ptc_inj with N; [exact Hs|apply repeat_length|]. rewrite ptc_identity.
    assert (Q : forall v, length v = (2 * N)%nat -> dot2 (pauli_to_check s) v = false).
    { intros v Hv. assert (Lc := ctp_length N (exchange N v)).
      pose proof (proj2 (symplectic_commute K N s (check_to_pauli N (exchange N v)) Hs Lc)) as C.
      rewrite pauli_round_trip in C by now apply exchange_length. rewrite exchange_exchange in C by exact Hv. apply C. unfold commuting.
      apply meq_trans with (mmul N (mscal x mone) (pmat (check_to_pauli N (exchange N v)))); [apply mmul_meq; [exact H|apply meq_refl]|].
      apply meq_sym. apply meq_trans with (mmul N (pmat (check_to_pauli N (exchange N v))) (mscal x mone)); [apply mmul_meq; [apply meq_refl|exact H]|].
      apply meq_trans with (mscal x (pmat (check_to_pauli N (exchange N v)))).
      - eapply meq_trans; [apply mmul_scal_r|]. intros r c Hr Hc. unfold mscal. now rewrite (mmul_one_r K N _ r c Hr Hc).
      - apply meq_sym. eapply meq_trans; [apply mmul_scal_l|]. intros r c Hr Hc. unfold mscal. now rewrite (mmul_one_l K N _ r c Hr Hc). }
    assert (Lp := ptc_length s N Hs). apply vget_ext with (2 * N)%nat; [exact Lp|apply repeat_length|]. intros i Hi. unfold vget at 2. rewrite nth_repeat_false.
    specialize (Q (map (Nat.eqb i) (seq 0 (2 * N))) ltac:(now rewrite map_length, seq_length)).
    rewrite dot2_xs with (M := (2 * N)%nat) in Q by (try exact Lp; now rewrite map_length, seq_length).
    assert (U : forall k, (k < 2 * N)%nat -> nth k (map (Nat.eqb i) (seq 0 (2 * N))) false = Nat.eqb i k).
    { intros k Hk. rewrite (nth_indep _ false (Nat.eqb i 0)) by (now rewrite map_length, seq_length). rewrite map_nth, seq_nth by exact Hk. reflexivity. }
    rewrite (xs_one _ (2 * N) i Hi) in Q.
    - rewrite U, Nat.eqb_refl, andb_true_r in Q by exact Hi. exact Q.
    - intros k Hk Hne. rewrite U by exact Hk. rewrite (proj2 (Nat.eqb_neq i k)) by congruence. apply andb_false_r.
  Qed.
End Prod.

Lemma map_round : forall N (l : list vec), shape (2 * N) l -> map pauli_to_check (map (check_to_pauli N) l) = l.
Proof.
  intros N l H. rewrite map_map. transitivity (map (fun x => x) l); [|apply map_id]. apply map_ext_in. intros v Hv. now apply pauli_round_trip, H.
Qed.
Lemma nullv_shape : forall M E piv L, shape M (map (nullv M E piv) L).
Proof. intros M E piv L r Hr. apply in_map_iff in Hr. destruct Hr as [m [<- _]]. apply null_entries_length. Qed.

Lemma null_basis_complete : forall (K : CoefRing) N ps, (forall p, In p ps -> length p = N) ->
  forall q, length q = N -> (forall p, In p ps -> commuting K N q p) ->
  exists bs (x : K), (length bs = length (null_basis N ps) /\ cmul (cmul (cmul x x) x) x = c1 /\ meq N (mprod N (select bs (null_basis N ps))) (mscal x (pmat q)))%type.
Proof.
  intros K N ps H q Hq Hc. assert (S0 := parity_shape N ps H). pose proof (gaussian_rref N _ S0) as R.
  destruct (gaussian_elimination N (parity_matrix N ps)) as [E piv] eqn:EQ. rewrite (null_basis_eq N ps E piv EQ).
  assert (Lq := ptc_length q N Hq).
  pose proof (null_complete (2 * N) _ E piv (pauli_to_check q) R Lq) as C.
  assert (O : forall r, In r E -> dot2 r (pauli_to_check q) = false).
  { apply (proj2 (orth_rows N _ E piv _ R S0)), (proj2 (parity_orth N ps _ H Lq)). intros p Hp. rewrite dot2_comm.
    apply (symplectic_commute K); [exact Hq|now apply H|now apply Hc]. }
  specialize (C O). set (bs := map (fun m => nth m (pauli_to_check q) false) (free (2 * N) piv)) in *.
  set (nv := map (nullv (2 * N) E piv) (free (2 * N) piv)) in *.
  assert (Hl : forall s, In s (select bs (map (check_to_pauli N) nv)) -> length s = N).
  { intros s Hs. apply select_in, in_map_iff in Hs. destruct Hs as [v [<- _]]. apply ctp_length. }
  destruct (mprod_lprod K N _ Hl) as [z Hz]. exists bs, (ipow z). split; [unfold bs, nv; now rewrite !map_length|]. split; [apply ipow4|].
  replace q with (lprod N (select bs (map (check_to_pauli N) nv))); [exact Hz|].
  apply ptc_inj with N; [now apply lprod_length|exact Hq|]. rewrite ptc_lprod by exact Hl. rewrite C at 1. rewrite combination_select. f_equal.
  rewrite <- select_map, map_round; [reflexivity|apply nullv_shape].
Qed.
Lemma null_basis_independent : forall (K : CoefRing) N ps, (forall p, In p ps -> length p = N) ->
  forall bs (x : K), length bs = length (null_basis N ps) -> meq N (mprod N (select bs (null_basis N ps))) (mscal x mone) -> forall b, In b bs -> b = false.
Proof.
  intros K N ps H bs x Hb He. assert (S0 := parity_shape N ps H). pose proof (gaussian_rref N _ S0) as R.
  destruct (gaussian_elimination N (parity_matrix N ps)) as [E piv] eqn:EQ. rewrite (null_basis_eq N ps E piv EQ) in *.
  set (nv := map (nullv (2 * N) E piv) (free (2 * N) piv)) in *.
  assert (Hl : forall s, In s (select bs (map (check_to_pauli N) nv)) -> length s = N).
  { intros s Hs. apply select_in, in_map_iff in Hs. destruct Hs as [v [<- _]]. apply ctp_length. }
  destruct (mprod_lprod K N _ Hl) as [z Hz].
  assert (Hid : lprod N (select bs (map (check_to_pauli N) nv)) = repeat PI N).
  { apply (scalar_string K N _ (cmul (ipow (- z)) x)); [now apply lprod_length|]. intros r c Hr Hc. specialize (Hz r c Hr Hc). rewrite (He r c Hr Hc) in Hz.
    unfold mscal in *. destruct (c_ring K). rewrite <- Rmul_assoc, Hz, Rmul_assoc, <- ipow_add. replace (- z + z)%Z with 0%Z by lia.
    change (@ipow K 0) with (@c1 K). now rewrite Rmul_1_l. }
  assert (Z : combination (2 * N) bs nv = repeat false (2 * N)).
  { rewrite combination_select. rewrite <- (map_round N nv) by apply nullv_shape. rewrite select_map, <- ptc_lprod by exact Hl. rewrite Hid. apply ptc_identity. }
  rewrite !map_length in Hb. unfold nv in Hb. rewrite map_length in Hb.
  pose proof (null_independent (2 * N) _ E piv bs R Hb Z) as Q. intros b Hin. rewrite Q in Hin. now apply repeat_spec in Hin.
Qed.

Lemma row_space : forall N E0, shape (2 * N) E0 -> forall v, span (2 * N) E0 v <-> span (2 * N) (fst (gaussian_elimination N E0)) v.
Proof.
  intros N E0 S0 v. pose proof (gaussian_rref N E0 S0) as R. destruct (gaussian_elimination N E0) as [E piv]. cbn [fst]. split; intro H.
  - apply span_incl with E0; [apply (rr_shape _ _ _ _ _ R)|apply (rr_span2 _ _ _ _ _ R)|exact H].
  - apply span_incl with E; [exact S0|apply (rr_span1 _ _ _ _ _ R)|exact H].
Qed.

(** ** The table of decompositions *)
Lemma nonzero_false : forall v, nonzero v = false -> forall i, vget v i = false.
Proof.
  intros v H i. unfold nonzero in H. destruct (vget v i) eqn:E; [|reflexivity]. exfalso. unfold vget in E.
  destruct (le_lt_dec (length v) i) as [L|L]; [rewrite nth_overflow in E by exact L; discriminate|].
  assert (Q : existsb (fun b => b) v = true); [|congruence]. apply existsb_exists. exists true. split; [|reflexivity]. rewrite <- E. now apply nth_In.
Qed.
Lemma nonzero_true : forall v i, vget v i = true -> nonzero v = true.
Proof. intros v i H. destruct (nonzero v) eqn:E; [reflexivity|]. rewrite (nonzero_false v E i) in H. discriminate. Qed.
Lemma filter_prefix : forall (f : vec -> bool) E n, n <= length E -> (forall k, k < n -> f (nth k E []) = true) -> (forall k, n <= k < length E -> f (nth k E []) = false) ->
  length (filter f E) = n.
Proof.
  intros f. induction E as [|r E IH]; intros n Hn H1 H2; [cbn in *; lia|]. cbn [filter]. destruct n as [|n].
  - pose proof (H2 0 ltac:(cbn; lia)) as Z. cbn [nth] in Z. rewrite Z. apply IH; [lia|intros; lia|]. intros k Hk. apply (H2 (S k)). cbn. lia.
  - pose proof (H1 0 ltac:(lia)) as Z. cbn [nth] in Z. rewrite Z. cbn [length]. f_equal. apply IH; [cbn in Hn; lia|intros k Hk; apply (H1 (S k)); lia|intros k Hk; apply (H2 (S k)); cbn; lia].
Qed.
Lemma reduced_eq : forall N E0 E piv, rref (2 * N) (2 * N) E0 E piv -> reduced N E = map (exchange N) (firstn (length piv) E).
Proof.
  intros N E0 E piv R. unfold reduced. rewrite (filter_prefix nonzero E (length piv)); [reflexivity|apply (rr_rows _ _ _ _ _ R)| |].
  - intros k Hk. destruct (rr_surj _ _ _ _ _ R k Hk) as [p [Hp <-]]. apply nonzero_true with p. now apply (rr_one _ _ _ _ _ R).
  - intros k Hk. destruct (nonzero (nth k E [])) eqn:Q; [|exact Q]. exfalso. unfold nonzero in Q. apply existsb_exists in Q. destruct Q as [b [Hb Q]]. subst b.
    destruct (In_nth _ _ false Hb) as [i [Hi Ei]]. pose proof (rr_below _ _ _ _ _ R k i ltac:(lia)) as B.
    rewrite (rr_shape _ _ _ _ _ R) in Hi by (apply nth_In; exact (proj2 Hk)). unfold vget in B. rewrite B in Ei by exact Hi. discriminate.
Qed.
Lemma sumrows_exchange : forall N rows, shape (2 * N) rows -> exchange N (sumrows (2 * N) rows) = sumrows (2 * N) (map (exchange N) rows).
Proof.
  intros N. induction rows as [|r rows IH]; intro H; [apply exchange_zero|]. cbn [sumrows fold_right map].
  assert (H' : shape (2 * N) rows) by (intros x Hx; apply H; now right).
  rewrite exchange_add2; [|apply H; now left|now apply sumrows_len]. f_equal. now apply IH.
Qed.
Lemma paulis_table_spec : forall (K : CoefRing) N ps fuel, (forall p, In p ps -> length p = N) -> 3 <= fuel ->
  (forall e, In e (@paulis_table K fuel N ps) -> exists s ss x, e = Some (s, (ss, x)) /\
     (s = repeat PI N \/ In s ps) /\
     (forall s', In s' ss -> In s' (map (check_to_pauli N) (reduced N (fst (gaussian_elimination N (parity_matrix N ps)))))) /\
     meq N (mprod N ss) (mscal x (pmat s))) /\
  (forall p, In p ps -> nonid p = true -> exists ss x, In (Some (p, (ss, x))) (@paulis_table K fuel N ps)).
Proof.
  intros K N ps fuel H Hf. assert (S0 := parity_shape N ps H). pose proof (gaussian_rref N _ S0) as R.
  unfold paulis_table. destruct (gaussian_elimination N (parity_matrix N ps)) as [E piv] eqn:EQ. cbn [fst].
  destruct (columns_spec N ps) as [C1 C2]. assert (Sc := columns_shape N ps H).
  set (Gm := reduced N E).
  assert (D : forall g, In g (columns N ps) -> exists ss x, paulis_entry fuel N Gm g = Some (check_to_pauli N g, (ss, x)) /\
     (forall s', In s' ss -> In s' (map (check_to_pauli N) Gm)) /\ meq N (@mprod K N ss) (mscal x (pmat (check_to_pauli N g)))).
  { intros g Hg. assert (Lg := Sc g Hg).
    assert (Sp : span (2 * N) E (exchange N g)) by (apply (rr_span2 _ _ _ _ _ R); now apply in_map).
    destruct (decompose_spec N _ E piv R (exchange N g) fuel Sp Hf) as [ws [D1 [D2 D3]]]. rewrite exchange_exchange in D1 by exact Lg.
    assert (GE : Gm = map (exchange N) (firstn (length piv) E)) by apply (reduced_eq N _ E piv R).
    unfold paulis_entry. rewrite GE, D1. rewrite <- GE. set (ss := map (fun w => check_to_pauli N (nth w Gm [])) ws).
    exists ss, (snd (@string_product K N ss)). split; [reflexivity|].
    assert (LG : length Gm = length piv) by (rewrite GE; apply (Gm_length N _ E piv R)).
    split; [intros s' Hs'; apply in_map_iff in Hs'; destruct Hs' as [w [<- Hw]]; apply in_map, nth_In; rewrite LG; now apply D2|].
    assert (Hl : forall s, In s ss -> length s = N) by (intros s Hs; apply in_map_iff in Hs; destruct Hs as [w [<- _]]; apply ctp_length).
    destruct (string_product_spec K N ss Hl) as [P1 P2]. apply meq_sym. 
    replace (check_to_pauli N g) with (fst (@string_product K N ss)); [exact P2|]. rewrite P1.
    apply ptc_inj with N; [now apply lprod_length|apply ctp_length|]. rewrite pauli_round_trip by exact Lg. rewrite ptc_lprod by exact Hl.
    apply (f_equal (exchange N)) in D3. rewrite exchange_exchange in D3 by exact Lg. rewrite D3.
    rewrite sumrows_exchange by (apply (rowsof_shape N _ E piv R); exact D2). f_equal.
    unfold ss, rowsof. rewrite !map_map. apply map_ext_in. intros w Hw. rewrite GE, (Gm_nth N _ E piv R w) by now apply D2.
    apply pauli_round_trip, exchange_length, (rowlen N _ E piv R w). now apply D2. }
  split.
  - intros e He. apply in_map_iff in He. destruct He as [g [<- Hg]]. destruct (D g Hg) as [ss [x [D1 [D2 D3]]]].
    exists (check_to_pauli N g), ss, x. split; [exact D1|]. split; [|split; assumption].
    destruct (C2 g Hg) as [->|[p [Hp [_ ->]]]].
    + left. rewrite <- (ptc_identity N). apply check_round_trip, repeat_length.
    + right. rewrite check_round_trip by now apply H. exact Hp.
  - intros p Hp Hn. destruct (D _ (C1 p Hp Hn)) as [ss [x [D1 _]]]. exists ss, x. rewrite check_round_trip in D1 by now apply H. rewrite <- D1. now apply in_map, C1.
Qed.
