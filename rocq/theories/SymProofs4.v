(** The symmetry projection keeps expectation values in states with definite particle numbers. *)
From Coq Require Import Bool List Arith ZArith Lia Ring Permutation.
From Verif Require Import Coeff MatSpec MatLemmas PauliModel PauliProofs OpSpec OpTotal OperatorModel OperatorProofs FockSpec FermiModel FermiProofs TransformModel TwoTerm JWProofs TransformLin
  HamSpec HamProofs HamProofs4 PauliBasis CircuitSpec CircuitProofs2 RdmSpec RdmModel RdmFock RdmProofs RdmObjProofs3 SymSpec SymModel SymProofs1 SymProofs2 SymProofs3.
Import ListNotations.

Lemma insert_perm a l : Permutation (insert_key a l) (a :: l).
Proof. induction l as [|b l IH]; cbn [insert_key]; [constructor; constructor|]. destruct (heavier a b); [apply Permutation_refl|]. rewrite IH. apply perm_swap. Qed.
Lemma sort_perm l : Permutation (sort_keys l) l.
Proof.
  unfold sort_keys. assert (H : forall acc, Permutation (fold_left (fun acc a => insert_key a acc) l acc) (l ++ acc)).
  { induction l as [|a l IH]; intros acc; cbn [fold_left app]; [apply Permutation_refl|]. rewrite IH, insert_perm. apply Permutation_sym, Permutation_middle. }
  rewrite H, app_nil_r. apply Permutation_refl.
Qed.
Lemma count_ops_len s : count_ops s = length (str_ops s).
Proof. unfold count_ops, str_ops. now rewrite map_length. Qed.

Section Sym4.
  Variable K : CoefRing.
  Add Ring KRing : (c_ring K).
  Local Open Scope coef_scope.
  Notation pop := (opv K (list pauli)).
  Notation F := (@fstr_mat K).
  Variable tiny : K -> bool.
  Hypothesis tiny_unit : forall z, tiny (ipow z) = false.

  Definition row (k : nat) (t : fstr) : fstr * pop := (t, image t (num (2 ^ k))).
  Section Loop.
    Variables (first : fstr) (dim : nat).
    Notation k := (count_ops first).
    Notation len := (length (str_ops first)).
    Lemma image_props t : same_kind first t = true -> let new := image t (@num K (2 ^ k)) in
      length new = (2 ^ k)%nat /\ null tiny new = false /\ NoDup (map fst new) /\ (forall e, In e new -> In (fst e) (paulis_of first)) /\
      forall P, In P (paulis_of first) -> op_get pauli_list_eqb P new = Some (jw_coef K t P).
    Proof.
      intros Hk new. assert (E : count_ops first = count_ops t) by (rewrite !count_ops_len; apply kind_EC in Hk; tauto).
      destruct (image_spec K t) as [A [B [C D]]]. unfold new. rewrite E. rewrite <- E in B at 2. rewrite (paulis_kind first t Hk). split; [now rewrite B, E|]. split; [|split; [exact A|split; [intros e He; now apply C|exact D]]].
      destruct (image t (num (2 ^ count_ops t))) as [|e l]; [cbn in B; pose proof (Nat.pow_nonzero 2 (count_ops first)); lia|].
      unfold null. cbn [forallb]. destruct (C e ltac:(now left)) as [_ [z ->]]. now rewrite tiny_unit.
    Qed.
    Lemma loop_some T : forall b rows, (forall t, In t T -> same_kind first t = true) -> Permutation b (paulis_of first) ->
      basis_loop tiny dim len T (Some b) rows = Whole \/ basis_loop tiny dim len T (Some b) rows = Basis b (rows ++ map (row k) T).
    Proof.
      induction T as [|t T IH]; intros b rows H Hb; cbn [basis_loop map]; [right; now rewrite app_nil_r|].
      rewrite (Permutation_length Hb), paulis_length. destruct (image_props t (H t ltac:(now left))) as [A [B [_ [C _]]]]. cbv zeta. rewrite B.
      destruct (length (image t (num (2 ^ k))) <? dim); [now left|].
      assert (X : forallb (fun e => existsb (pauli_list_eqb (fst e)) b) (image t (@num K (2 ^ k))) = true).
      { apply forallb_forall. intros e He. apply existsb_exists. exists (fst e). split; [|now apply pauli_list_eqb_spec]. apply (Permutation_in _ (Permutation_sym Hb)). now apply C. }
      rewrite X. destruct (IH b (rows ++ [row k t]) ltac:(intros; apply H; now right) Hb) as [E|E]; unfold row in E at 1; rewrite E; [now left|right]. now rewrite <- app_assoc.
    Qed.
    Lemma loop_none t T : (forall t', In t' (t :: T) -> same_kind first t' = true) ->
      basis_loop tiny dim len (t :: T) None [] = Whole \/ exists b, Permutation b (paulis_of first) /\ basis_loop tiny dim len (t :: T) None [] = Basis b (map (row k) (t :: T)).
    Proof.
      intros H. cbn [basis_loop]. destruct (image_props t (H t ltac:(now left))) as [A [B [N [C D]]]]. cbv zeta. rewrite <- count_ops_len, A, A, B.
      destruct (2 ^ k <? dim); [now left|].
      assert (Hb : Permutation (sort_keys (map fst (image t (@num K (2 ^ k))))) (paulis_of first)).
      { rewrite sort_perm. apply NoDup_Permutation_bis; [exact N|rewrite map_length, A, paulis_length; lia|]. intros P HP. apply in_map_iff in HP. destruct HP as [e [<- He]]. now apply C. }
      assert (X : forallb (fun e => existsb (pauli_list_eqb (fst e)) (sort_keys (map fst (image t (@num K (2 ^ k)))))) (image t (@num K (2 ^ k))) = true).
      { apply forallb_forall. intros e He. apply existsb_exists. exists (fst e). split; [|now apply pauli_list_eqb_spec]. apply (Permutation_in _ (Permutation_sym Hb)). now apply C. }
      rewrite X. destruct (loop_some T _ ([] ++ [row k t]) ltac:(intros; apply H; now right) Hb) as [E|E]; unfold row in E at 1; rewrite count_ops_len in E |- *; rewrite E; [now left|right].
      eexists. split; [rewrite count_ops_len in Hb; exact Hb|reflexivity].
    Qed.
    Lemma column_row T P : (forall t, In t T -> same_kind first t = true) -> In P (paulis_of first) -> column (map (row k) T) P = map (fun t => cconj (jw_coef K t P)) T.
    Proof.
      intros H HP. unfold column. rewrite map_map. apply map_ext_in. intros t Ht. destruct (image_props t (H t Ht)) as [_ [_ [_ [_ D]]]]. cbn [row snd]. now rewrite D.
    Qed.
  End Loop.

  (** ** The vector of the operator *)
  Definition pair_sum (v : list K) (T : list fstr) (f : fstr -> K) : K := over (combine v T) (fun e => fst e * f (snd e)).
  Lemma set_at_length n (x : K) v : length (set_at n x v) = length v.
  Proof. unfold set_at. rewrite app_length, firstn_length. destruct (skipn n v) as [|y t] eqn:E; pose proof (skipn_length n v) as L; rewrite E in L; cbn [length] in *; lia. Qed.
  Lemma pair_sum_set f : forall T n x v, (n < length T)%nat -> length v = length T -> nth n v 0 = 0 -> pair_sum (set_at n x v) T f = pair_sum v T f + x * f (nth n T []).
  Proof.
    unfold pair_sum, over. induction T as [|t T IH]; intros n x v Hn L Z; [cbn in Hn; lia|]. destruct v as [|y v]; [discriminate|]. destruct n as [|n].
    - cbn in Z. subst y. cbn. ring.
    - cbn [set_at firstn skipn app combine fold_right fst snd nth] in *. change (firstn n v ++ match skipn n v with [] => [] | _ :: t0 => x :: t0 end) with (set_at n x v).
      rewrite IH; [ring|cbn in Hn; lia|now injection L|exact Z].
  Qed.
  Lemma nth_set_at n x : forall (v : list K) m, m <> n -> nth m (set_at n x v) 0 = nth m v 0.
  Proof.
    induction n as [|n IH]; intros v m H.
    - destruct v as [|y v]; destruct m; try congruence; cbn; auto.
    - destruct v as [|y v]; [destruct m; reflexivity|]. destruct m as [|m]; [reflexivity|]. cbn [nth]. change (set_at (S n) x (y :: v)) with (y :: set_at n x v). cbn [nth]. apply IH. congruence.
  Qed.
  Lemma find_row_spec k T s n : find_row (map (row k) T) s = Some n -> (n < length T)%nat /\ str_ops (nth n T []) = str_ops s.
  Proof.
    unfold find_row. assert (G : forall m, (fix go n l := match l with [] => None | e :: l' => if ops_eqb (str_ops (fst e)) (str_ops s) then Some n else go (S n) l' end) m (map (row k) T) = Some n ->
      (m <= n < m + length T)%nat /\ str_ops (nth (n - m) T []) = str_ops s).
    { induction T as [|t T IH]; intros m; cbn [map row fst length]; [discriminate|]. destruct (ops_eqb (str_ops t) (str_ops s)) eqn:E.
      - intros H. injection H as <-. rewrite Nat.sub_diag. apply ops_eqb_spec in E. split; [lia|exact E].
      - intros H. apply IH in H. destruct H as [H1 H2]. split; [lia|]. replace (n - m)%nat with (S (n - S m)) by lia. exact H2. }
    intros H. apply G in H. rewrite Nat.sub_0_r in H. split; [lia|tauto].
  Qed.
  Lemma op_vector_spec k first T (op : list (fstr * K)) v f : NoDup (map fst op) -> (forall t, In t T -> same_kind first t = true) -> NoDup T ->
    (forall e, In e op -> snd e <> 0 -> same_kind first (fst e) = true) ->
    op_vector (map (row k) T) op = Some v -> length v = length T /\ pair_sum v T f = over op (fun e => snd e * f (fst e)).
  Proof.
    intros ND HT NT Hop. unfold op_vector.
    assert (G : forall op pre v0, NoDup (map fst (pre ++ op)) -> (forall e, In e op -> snd e <> 0 -> same_kind first (fst e) = true) -> length v0 = length T -> pair_sum v0 T f = over pre (fun e => snd e * f (fst e)) ->
      (forall j, (j < length T)%nat -> ~ In (nth j T []) (map fst pre) -> nth j v0 0 = 0) ->
      fold_left (fun v e => match v with None => None | Some v => if ceqb (snd e) 0 then Some v else match find_row (map (row k) T) (fst e) with Some n => Some (set_at n (snd e) v) | None => None end end) op (Some v0) = Some v ->
      length v = length T /\ pair_sum v T f = over (pre ++ op) (fun e => snd e * f (fst e))).
    { clear ND Hop op. induction op as [|[s c] op IH]; intros pre v0 ND Hop L P Z; cbn [fold_left fst snd].
      - intros H. injection H as <-. rewrite app_nil_r. auto.
      - assert (NS : ~ In s (map fst pre)).
        { rewrite map_app in ND. cbn [map fst] in ND. apply NoDup_remove_2 in ND. intros I. apply ND. apply in_or_app. now left. }
        replace (pre ++ (s, c) :: op) with ((pre ++ [(s, c)]) ++ op) in ND |- * by (rewrite <- app_assoc; reflexivity).
        destruct (ceqb c 0) eqn:Ec.
        + apply ceqb_spec in Ec. subst c. intros H. apply (IH (pre ++ [(s, 0)])) in H; [exact H|exact ND|intros; apply Hop; [now right|assumption]|exact L| |].
          * rewrite over_app, P. unfold over. cbn. ring.
          * intros j Hj Hn. apply Z; [exact Hj|]. rewrite map_app, in_app_iff in Hn. tauto.
        + assert (Nc : c <> 0) by (intros ->; rewrite (proj2 (ceqb_spec K 0 0) eq_refl) in Ec; discriminate).
          destruct (find_row (map (row k) T) s) as [n|] eqn:Ef.
          2:{ intros H; exfalso; revert H. clear. induction op as [|e op IH]; cbn [fold_left]; [discriminate|exact IH]. }
          apply find_row_spec in Ef. destruct Ef as [Hn Eo]. assert (Es : nth n T [] = s).
          { symmetry. apply kind_ops; [|now symmetry]. apply kind_trans with (t := first); [apply kind_sym, (Hop (s, c)); [now left|exact Nc]|apply HT, nth_In; exact Hn]. }
          intros H. apply (IH (pre ++ [(s, c)])) in H; [exact H|exact ND|intros; apply Hop; [now right|assumption]|now rewrite set_at_length| |].
          * rewrite pair_sum_set; [|exact Hn|exact L|apply Z; [exact Hn|now rewrite Es]]. rewrite over_app, P, Es. unfold over. cbn. ring.
          * intros j Hj Hnj. rewrite map_app, in_app_iff in Hnj. cbn [map fst In] in Hnj. rewrite nth_set_at; [apply Z; [exact Hj|tauto]|]. intros ->. apply Hnj. right. left. now rewrite Es. }
    intros H. apply (G op [] (map (fun _ => 0) (map (row k) T))) in H; [exact H|exact ND|exact Hop|now rewrite !map_length| |].
    - unfold pair_sum. transitivity (0 : K); [|reflexivity]. apply over_zero. intros [x t] Hx. apply in_combine_l in Hx. apply in_map_iff in Hx. destruct Hx as [_ [<- _]]. cbn. ring.
    - intros j _ _. clear. revert j. induction T as [|t T IH]; intros [|j]; cbn [map nth]; auto.
  Qed.

  (** ** Columns *)
  Lemma pick_in indep dim : forall rest added tested out, pick_columns indep dim rest added tested = Some (Some out) -> forall i, In i out -> In i added \/ In i rest.
  Proof.
    induction rest as [|j rest IH]; intros added tested out; cbn [pick_columns]; destruct (length added =? dim)%nat.
    - intros H. injection H as <-. auto.
    - destruct tested; discriminate.
    - intros H. injection H as <-. auto.
    - destruct (indep (added ++ [j])); intros H i Hi; destruct (IH _ _ _ H i Hi) as [G|G]; [apply in_app_iff in G; cbn in *; tauto|cbn; tauto|tauto|cbn; tauto].
  Qed.
  Lemma over_nth {A} (d : A) (l : list A) (f : A -> K) : over l f = over (seq 0 (length l)) (fun j => f (nth j l d)).
  Proof.
    assert (E : l = map (fun j => nth j l d) (seq 0 (length l))).
    { induction l as [|a l IH]; [reflexivity|]. cbn [length seq map nth]. f_equal. rewrite <- seq_shift, map_map. exact IH. }
    rewrite E at 1. now rewrite over_map.
  Qed.
  Lemma pair_nth v : forall T f, length v = length T -> pair_sum v T f = over (seq 0 (length T)) (fun j => nth j v 0 * f (nth j T [])).
  Proof.
    unfold pair_sum. induction v as [|x v IH]; intros [|t T] f L; try discriminate; [reflexivity|]. injection L as L. cbn [combine length seq]. rewrite <- seq_shift.
    transitivity (x * f t + over (combine v T) (fun e => fst e * f (snd e))); [reflexivity|]. rewrite (IH T f L).
    transitivity (x * f t + over (map S (seq 0 (length T))) (fun j => nth j (x :: v) 0 * f (nth j (t :: T) []))); [|reflexivity]. f_equal. rewrite over_map. reflexivity.
  Qed.
  Lemma build_lin f (pb : list (list pauli)) l : forall acc : pop, exists D : pop, (forall e, In e D -> tiny (snd e) = true /\ In (fst e) (map (fun i => nth i pb []) (map fst l))) /\
    lin f (fold_left (fun o e => if tiny (snd e) then o else pop_add_string o (nth (fst e) pb [], snd e)) l acc) + lin f D = lin f acc + over l (fun e => snd e * f (nth (fst e) pb [])).
  Proof.
    induction l as [|[i x] l IH]; intros acc; cbn [fold_left fst snd].
    - exists []. split; [intros e []|]. unfold over. cbn. ring.
    - destruct (tiny x) eqn:E.
      + destruct (IH acc) as [D [H1 H2]]. exists ((nth i pb [], x) :: D). split.
        * intros e [<-|He]; [split; [exact E|now left]|]. destruct (H1 e He). split; [assumption|now right].
        * cbn [lin]. transitivity (lin f (fold_left (fun o e => if tiny (snd e) then o else pop_add_string o (nth (fst e) pb [], snd e)) l acc) + lin f D + x * f (nth i pb [])); [ring|]. rewrite H2. unfold over. cbn [fold_right fst snd]. ring.
      + destruct (IH (pop_add_string acc (nth i pb [], x))) as [D [H1 H2]]. exists D. split; [intros e He; destruct (H1 e He); split; [assumption|now right]|].
        rewrite H2. unfold pop_add_string. rewrite (lin_add_string _ _ _ pauli_list_eqb_spec). cbn [fst snd]. unfold over. cbn [fold_right fst snd]. ring.
  Qed.
  Lemma build_wf N (pb : list (list pauli)) l : (forall i, In i (map fst l) -> length (nth i pb []) = N) -> forall acc : pop, wf N acc ->
    wf N (fold_left (fun o (e : nat * K) => if tiny (snd e) then o else pop_add_string o (nth (fst e) pb [], snd e)) l acc).
  Proof.
    induction l as [|[i x] l IH]; intros H acc Ha; cbn [fold_left fst snd]; [exact Ha|]. assert (H' : forall j, In j (map fst l) -> length (nth j pb []) = N) by (intros; apply H; now right).
    destruct (tiny x); apply (IH H'); [exact Ha|]. apply add_wf; [exact Ha|]. apply H. now left.
  Qed.
  Lemma expect_omat R (o : pop) psi : expect R (omat o) psi = lin (fun P => expect R (pmat P) psi) o.
  Proof.
    transitivity (expect R (fun r c => over o (fun e => mscal (snd e) (pmat (fst e)) r c)) psi); [apply expect_ext; intros r c _ _; rewrite omat_over; reflexivity|].
    rewrite (expect_over K R o (fun e => mscal (snd e) (pmat (fst e)))). induction o as [|[P x] o IH]; [reflexivity|]. unfold over in *. cbn [fold_right lin fst snd]. rewrite IH, expect_scal. reflexivity.
  Qed.
  Lemma expect_fop R (o : list (fstr * K)) psi : expect R (fop_mat o) psi = over o (fun e => snd e * expect R (F (fst e)) psi).
  Proof.
    transitivity (expect R (fun r c => over o (fun e => mscal (snd e) (F (fst e)) r c)) psi).
    - apply expect_ext. intros r c _ _. unfold fop_mat, over, mscal. induction o as [|e o IH]; [reflexivity|]. cbn [map sumK fold_right]. now rewrite <- IH.
    - rewrite (expect_over K R o (fun e => mscal (snd e) (F (fst e)))). apply over_ext. intros e _. apply expect_scal.
  Qed.

  Variable rank_ok : list (list K) -> bool.
  Variable solve : list (list K) -> list K -> option (list K).
  Hypothesis Hsolve : solves solve.
  Theorem sym_project_spec N alp (op : list (fstr * K)) first c0 rest Ne na psi Q :
    op = (first, c0) :: rest ->
    NoDup (map fst op) ->
    (forall e, In e op -> length (fst e) = N /\ keeps K e) ->
    balanced (fun _ => true) first -> balanced alp first ->
    (str_E first <> [] -> forall e, In e op -> snd e <> 0 -> same_kind first (fst e) = true) ->
    has_on N (fun _ => true) Ne psi -> has_on N alp na psi ->
    sym_project tiny rank_ok solve alp op = Some Q ->
    exists D : pop, (forall e, In e D -> small (snd e) = true \/ tiny (snd e) = true) /\ wf N (Q ++ D) /\
      expect N (omat Q) psi + expect N (omat D) psi = expect N (fop_mat op) psi.
  Proof.
    intros Eop ND Hk B Ba Kd Sn Sa HQ.
    assert (L1 : length first = N) by (apply (Hk (first, c0)); rewrite Eop; now left).
    assert (Whl : exists D : pop, (forall e, In e D -> small (snd e) = true \/ tiny (snd e) = true) /\ wf N (jw_operator op ++ D) /\ expect N (omat (jw_operator op)) psi + expect N (omat D) psi = expect N (fop_mat op) psi).
    { destruct (jw_operator_exact K N op Hk) as [D [D1 [D2 D3]]]. exists D. split; [intros e He; left; auto|]. split; [exact D2|]. rewrite <- expect_madd. now apply expect_ext. }
    unfold sym_project in HQ. rewrite Eop in HQ at 1. cbv zeta in HQ. destruct (str_E first) as [|o0 E0] eqn:EE; [injection HQ as <-; exact Whl|]. rewrite <- EE in HQ. specialize (Kd ltac:(discriminate)).
    destruct (Nat.odd (length (filter alp (str_sites first))) || Nat.odd (length (filter (fun q => negb (alp q)) (str_sites first)))); [discriminate|].
    destruct (null tiny (jw_operator op)); [injection HQ as <-; exact Whl|].
    fold (tops alp first) in HQ. pose proof (tops_in alp first) as TI. pose proof (tops_nodup alp first) as TN.
    assert (TF : In first (tops alp first)) by (destruct (tops_or alp first first (kind_refl first) B) as [H|[H|H]]; [exact H|now apply H in B|now apply H in Ba]).
    assert (TO : forall P, In P (paulis_of first) -> expect N (pmat P) psi = over (tops alp first) (fun t => cconj (jw_coef K t P) * expect N (F t) psi)).
    { intros P HP. transitivity (expect N (fun r c => over (variants first) (fun t => mscal (cconj (jw_coef K t P)) (F t) r c)) psi).
      - apply expect_ext. intros r c Lr Lc. rewrite (dual_mat K first P r c HP) by congruence. reflexivity.
      - rewrite (expect_over K N (variants first) (fun t => mscal (cconj (jw_coef K t P)) (F t))). rewrite (over_restrict K fstr_dec (variants first) (tops alp first)); [|apply variants_nodup|exact TN| |].
        + apply over_ext. intros t _. apply expect_scal.
        + intros t Ht. apply variants_kind. now apply TI.
        + intros t Ht Hn. rewrite expect_scal. apply variants_kind in Ht. assert (Lt : length t = N) by (destruct (kind_EC first t Ht) as [_ [_ [_ H]]]; congruence).
          destruct (tops_or alp first t Ht B) as [H|[H|H]]; [contradiction| |]; [rewrite (unbalanced_expect K N t (fun _ => true) Ne psi Lt Sn H)|rewrite (unbalanced_expect K N t alp na psi Lt Sa H)]; ring. }
    destruct (tops alp first) as [|t0 T0] eqn:ET; [destruct TF|].
    match type of HQ with context[basis_loop _ ?d _ _ _ _] => destruct (loop_none first d t0 T0) as [EB|[pb [Hpb EB]]]; [exact TI| |] end; rewrite EB in HQ; [injection HQ as <-; exact Whl|].
    rewrite <- ET in *. clear t0 T0 ET EB. set (T := tops alp first) in *.
    assert (Tlen : Nat.eqb (length (map (row (count_ops first)) T)) 0 = false) by (rewrite map_length; destruct T; [destruct TF|reflexivity]). rewrite Tlen in HQ.
    match type of HQ with context[pick_columns ?a ?b ?c ?d ?e] => destruct (pick_columns a b c d e) as [[added|]|] eqn:EP; [|discriminate|injection HQ as <-; exact Whl] end.
    destruct (op_vector (map (row (count_ops first)) T) op) as [v|] eqn:EV; [|discriminate].
    destruct (solve (map (fun i => nth i (map (column (map (row (count_ops first)) T)) pb) []) added) v) as [x|] eqn:ES; [|discriminate]. injection HQ as <-.
    destruct (op_vector_spec (count_ops first) first T op v (fun t => expect N (F t) psi) ND TI TN Kd EV) as [Lv Sv].
    destruct (Hsolve _ _ _ ES) as [Lx Sx]. rewrite map_length in Lx.
    assert (LP : (0 < length pb)%nat) by (rewrite (Permutation_length Hpb), paulis_length; pose proof (Nat.pow_nonzero 2 (count_ops first)); lia).
    assert (Hadd : forall i, In i added -> (i < length pb)%nat).
    { intros i Hi. destruct (pick_in _ _ _ _ _ _ EP i Hi) as [[<-|[]]|H]; [exact LP|]. apply in_seq in H. lia. }
    assert (HP : forall i, In i added -> In (nth i pb []) (paulis_of first)) by (intros i Hi; apply (Permutation_in _ Hpb), nth_In; now apply Hadd).
    destruct (build_lin (fun P => expect N (pmat P) psi) pb (combine added x) []) as [D [D1 D2]]. exists D.
    assert (Wk : forall i, In i (map fst (combine added x)) -> length (nth i pb []) = N).
    { intros i Hi. apply in_map_iff in Hi. destruct Hi as [[i' y] [<- Hi]]. apply in_combine_l in Hi. cbn [fst]. rewrite (paulis_width first _ (HP i' Hi)). exact L1. }
    split; [intros e He; right; now apply D1|]. split.
    { intros e He. apply in_app_iff in He. destruct He as [He|He]; [revert e He; apply build_wf; [exact Wk|intros e []]|]. destruct (D1 e He) as [_ H]. apply in_map_iff in H. destruct H as [i [<- Hi]]. now apply Wk. }
    rewrite !expect_omat, D2. cbn [lin]. rewrite expect_fop, <- Sv, (pair_nth v T _ Lv).
    transitivity (over (combine added x) (fun e => snd e * over (seq 0 (length T)) (fun j => cconj (jw_coef K (nth j T []) (nth (fst e) pb [])) * expect N (F (nth j T [])) psi))).
    { transitivity (over (combine added x) (fun e => snd e * expect N (pmat (nth (fst e) pb [])) psi)); [ring|]. apply over_ext. intros [i y] Hi. apply in_combine_l in Hi. cbn [fst snd]. rewrite (TO _ (HP i Hi)). now rewrite (over_nth [] T). }
    transitivity (over (combine added x) (fun e => over (seq 0 (length T)) (fun j => snd e * (cconj (jw_coef K (nth j T []) (nth (fst e) pb [])) * expect N (F (nth j T [])) psi)))).
    { apply over_ext. intros e _. symmetry. apply over_scal. }
    rewrite over_swap. apply over_ext. intros j Hj. apply in_seq in Hj.
    transitivity (expect N (F (nth j T [])) psi * over (combine added x) (fun e => snd e * cconj (jw_coef K (nth j T []) (nth (fst e) pb [])))).
    { rewrite <- over_scal. apply over_ext. intros e _. ring. }
    rewrite <- (Sx j) by (rewrite Lv; lia). unfold dot_row.
    assert (G : forall ad xs, (forall i, In i ad -> (i < length pb)%nat /\ In (nth i pb []) (paulis_of first)) ->
      over (combine ad xs) (fun e => snd e * cconj (jw_coef K (nth j T []) (nth (fst e) pb []))) =
      fold_right (fun e s => snd e * nth j (fst e) 0 + s) 0 (combine (map (fun i => nth i (map (column (map (row (count_ops first)) T)) pb) []) ad) xs)).
    { induction ad as [|i ad IH]; intros xs Ha; [reflexivity|]. destruct xs as [|y xs]; [reflexivity|]. unfold over in *. cbn [map combine fold_right fst snd]. rewrite IH by (intros; apply Ha; now right).
      destruct (Ha i ltac:(now left)) as [Hi HPi]. f_equal. f_equal. rewrite nth_indep with (d' := column (map (row (count_ops first)) T) []) by now rewrite map_length. rewrite map_nth, (column_row first T _ TI HPi).
      rewrite nth_indep with (d' := (fun t => cconj (jw_coef K t (nth i pb []))) []) by (rewrite map_length; lia). symmetry. exact (map_nth (fun t => cconj (jw_coef K t (nth i pb []))) T [] j). }
    rewrite G by (intros i Hi; auto). ring.
  Qed.
End Sym4.
