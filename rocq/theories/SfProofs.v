(** Proofs for SfModel. *)
From Coq Require Import Bool List Arith ZArith QArith Lia Ring.
From Verif Require Import Coeff MatSpec MatLemmas FockSpec CircuitSpec PauliModel PauliProofs OpSpec OpTotal OperatorModel OperatorProofs FermiModel FermiProofs TransformModel TwoTerm JWProofs
  TransformLin TomoModel CountsProofs HamSpec HamModel HamProofs SymProofs2 InvProofs SfModel.
Import ListNotations.
Local Open Scope nat_scope.

Definition par_at (N i : nat) : fstr := repeat None i ++ Some Par :: repeat None (N - i - 1).
Definition z_at (N i : nat) : list pauli := repeat PI i ++ PZ :: repeat PI (N - i - 1).
Definition spin_part (N : nat) (x : bits) : nat * nat := (occupied (seq 0 N) x, occupied (seq N N) x).

Lemma rev_repeat' {A} (x : A) n : rev (repeat x n) = repeat x n.
Proof. induction n as [|n IH]; [reflexivity|]. cbn [repeat rev]. rewrite IH. symmetry. apply (repeat_cons n x). Qed.
Lemma par_at_inj N i j : i < N -> j < N -> par_at N i = par_at N j -> i = j.
Proof.
  intros Hi Hj E. unfold par_at in E. destruct (lt_eq_lt_dec i j) as [[H|H]|H]; [exfalso| exact H|exfalso].
  - apply (f_equal (fun l => nth i l None)) in E. rewrite app_nth2, repeat_length, Nat.sub_diag in E by (rewrite repeat_length; lia). cbn in E.
    rewrite app_nth1, nth_repeat in E by (rewrite repeat_length; lia). discriminate.
  - apply (f_equal (fun l => nth j l None)) in E. symmetry in E. rewrite app_nth2, repeat_length, Nat.sub_diag in E by (rewrite repeat_length; lia). cbn in E.
    rewrite app_nth1, nth_repeat in E by (rewrite repeat_length; lia). discriminate.
Qed.
Lemma par_at_length N i : i < N -> length (par_at N i) = N.
Proof. intro H. unfold par_at. rewrite app_length. cbn. rewrite !repeat_length. lia. Qed.
Lemma z_at_length N i : i < N -> length (z_at N i) = N.
Proof. intro H. unfold z_at. rewrite app_length. cbn. rewrite !repeat_length. lia. Qed.
Lemma pmuls_id s : pmuls s (repeat PI (length s)) = s.
Proof. induction s as [|p s IH]; [reflexivity|]. cbn. rewrite IH. destruct p; reflexivity. Qed.
Lemma pexps_id s : pexps s (repeat PI (length s)) = 0%Z.
Proof. induction s as [|p s IH]; [reflexivity|]. cbn [length repeat pexps]. rewrite IH. destruct p; reflexivity. Qed.
Lemma z_at_neq N i : i < N -> repeat PI N <> z_at N i.
Proof.
  intros H E. apply (f_equal (fun l => nth i l PI)) in E. unfold z_at in E. rewrite nth_repeat, app_nth2, repeat_length, Nat.sub_diag in E by (rewrite repeat_length; lia). discriminate.
Qed.
Lemma parity_I n x : outcome_parity (repeat PI n) x = false.
Proof. revert x. induction n as [|n IH]; intros [|b x]; cbn; try reflexivity. now rewrite IH. Qed.
Lemma parity_z N i x : length x = N -> i < N -> outcome_parity (z_at N i) x = nth i x false.
Proof.
  unfold z_at. intros L H. assert (G : forall j i x, i < length x -> outcome_parity (repeat PI i ++ PZ :: repeat PI j) x = nth i x false).
  { clear. intros j i. induction i as [|i IH]; intros [|b x] H; cbn in H; try lia; cbn.
    - rewrite parity_I. now destruct b.
    - rewrite IH by lia. now destruct (nth i x false). }
  apply G. lia.
Qed.

Section P.
  Variable K : CoefRing.
  Add Ring KRing : (c_ring K).
  Local Open Scope coef_scope.

  Lemma small_neg (x : K) : small (- x) = small x.
  Proof. apply small_opp. Qed.
  Lemma unit_half (c : K) : c = 1 \/ c = - (1) -> small (chalf * c) = false /\ small ((0 - chalf) * c) = false /\ c <> 0.
  Proof.
    assert (N0 : (1 : K) <> 0) by apply c1_neq0.
    intros [->| ->]; (split; [|split]).
    - replace (chalf * 1) with (chalf : K) by ring. apply small_half.
    - replace ((0 - chalf) * 1) with (- chalf : K) by ring. rewrite small_neg. apply small_half.
    - exact N0.
    - replace (chalf * - (1)) with (- chalf : K) by ring. rewrite small_neg. apply small_half.
    - replace ((0 - chalf) * - (1)) with (chalf : K) by ring. apply small_half.
    - intro E. apply N0. replace (1 : K) with (- - (1) : K) by ring. rewrite E. ring.
  Qed.

  Lemma new_par (c : K) N i : (i < N)%nat -> c <> 0 -> fermi_new true c [(Cre, i); (Ann, i)] N = Some (par_at N i, c).
  Proof.
    intros Hi Hc. unfold fermi_new, generate. cbn [length sort_loop Nat.mul Nat.add bubble_pass]. rewrite Nat.ltb_irrefl.
    unfold merge_stage. cbn [nodup_inds existsb snd length]. rewrite Nat.eqb_refl. cbn [Datatypes.orb negb andb merge_loop merge_pass]. rewrite Nat.eqb_refl. cbn [merge_table merge_loop merge_pass].
    destruct (ceqb c 0) eqn:E; [apply ceqb_spec in E; contradiction|]. reflexivity.
  Qed.

  Lemma add_pars N (c : nat -> K) : (forall i, c i <> 0) -> forall l o, (forall i, In i l -> (i < N)%nat) -> NoDup l -> (forall i, In i l -> ~ In (par_at N i) (map fst o)) ->
    add_strings N (map (fun i => (c i, [(Cre, i); (Ann, i)])) l) o = Some (o ++ map (fun i => (par_at N i, c i)) l).
  Proof.
    intros Hc. induction l as [|i l IH]; intros o Hl ND Hf; cbn [map add_strings]; [now rewrite app_nil_r|].
    rewrite new_par by (auto; apply Hl; now left). rewrite (add_string_fresh _ _ _ fstr_eqb_spec') by (cbn; apply Hf; now left).
    inversion ND as [|? ? Hn ND']; subst. rewrite IH; [now rewrite <- app_assoc| |exact ND'|].
    - intros j Hj. apply Hl. now right.
    - intros j Hj. rewrite map_app, in_app_iff. intros [H|[H|[]]]; [apply (Hf j); [now right|exact H]|]. cbn in H.
      apply par_at_inj in H; [subst; contradiction| |]; apply Hl; [now left|now right].
  Qed.
  Lemma count_operator_eq No (c : nat -> K) : (forall i, c i <> 0) -> count_operator No c = Some (map (fun i => (par_at No i, c i)) (seq 0 No)).
  Proof. intro H. unfold count_operator. rewrite add_pars; [reflexivity|exact H| |apply seq_NoDup|intros i _ []]. intros i Hi. apply in_seq in Hi. lia. Qed.

  Lemma jw_par N i (c : K) : (i < N)%nat -> c = 1 \/ c = - (1) -> jw_string (par_at N i, c) = [(repeat PI N, chalf * c); (z_at N i, (0 - chalf) * c)].
  Proof.
    intros Hi Hc. destruct (unit_half c Hc) as [S1 [S2 _]]. unfold jw_string. cbn [fst snd]. rewrite (par_at_length N i Hi).
    unfold par_at. rewrite rev_app_distr. cbn [rev]. rewrite !rev_repeat', <- app_assoc.
    assert (L : forall k rs (new : opv K (list pauli)), jw_loop N (repeat None k ++ rs) new = jw_loop N rs new) by (induction k as [|k IH]; intros; cbn; auto).
    rewrite L. cbn [app jw_loop]. replace (repeat None i) with (repeat (@None fop) i ++ []) by apply app_nil_r. rewrite L. cbn [jw_loop]. rewrite app_nil_r, repeat_length.
    unfold jw_term. cbn [ladder number_c2]. assert (EI : repeat PI i ++ PI :: repeat PI (N - i - 1) = repeat PI N).
    { change (PI :: repeat PI (N - i - 1)) with (repeat PI (S (N - i - 1))). rewrite <- repeat_app. f_equal. lia. }
    rewrite EI. fold (z_at N i). rewrite two_term_eq by (now apply z_at_neq). unfold pop_mul. rewrite op_mul_products. unfold products, pop_add_string.
    cbn [op_add_string op_get op_set fst snd flat_map map app]. 
    assert (LI : length (repeat PI N) = N) by apply repeat_length.
    rewrite !pauli_mul_eq by (cbn [fst]; rewrite ?LI, ?(z_at_length N i Hi); reflexivity). cbn [fst snd].
    assert (A1 : pmuls (repeat PI N) (repeat PI N) = repeat PI N) by (rewrite <- LI at 2; apply pmuls_id).
    assert (A2 : pexps (repeat PI N) (repeat PI N) = 0%Z) by (rewrite <- LI at 2; apply pexps_id).
    assert (A3 : pmuls (z_at N i) (repeat PI N) = z_at N i) by (rewrite <- (z_at_length N i Hi) at 2; apply pmuls_id).
    assert (A4 : pexps (z_at N i) (repeat PI N) = 0%Z) by (rewrite <- (z_at_length N i Hi) at 2; apply pexps_id).
    rewrite A1, A2, A3, A4, ipow_0. rewrite (fold_add_fresh _ _ _ pauli_list_eqb_spec).
    2:{ cbn. constructor; [|constructor; [intros []|constructor]]. intros [H|[]]. symmetry in H. revert H. now apply z_at_neq. }
    rewrite clean_id.
    2:{ intros e [<-|[<-|[]]]; cbn [snd]; [replace (chalf * c * 1) with (chalf * c) by ring; exact S1|replace ((0 - chalf) * c * 1) with ((0 - chalf) * c) by ring; exact S2]. }
    cbn [app]. f_equal; [f_equal; ring|]. f_equal. f_equal. ring.
  Qed.

  (** Half-integers. *)
  Definition halfint (x : K) : Prop := exists a b, x = chalf * (of_nat a - of_nat b).
  Lemma of_nat_add a b : (of_nat (a + b) : K) = of_nat a + of_nat b.
  Proof. induction a as [|a IH]; cbn [Nat.add of_nat]; [ring|]. rewrite IH. ring. Qed.
  Lemma halfint_add x y : halfint x -> halfint y -> halfint (x + y).
  Proof. intros [a [b ->]] [a' [b' ->]]. exists (a + a')%nat, (b + b')%nat. rewrite !of_nat_add. ring. Qed.
  Lemma halfint_unit (c : K) : c = 1 \/ c = - (1) -> halfint (chalf * c) /\ halfint ((0 - chalf) * c).
  Proof.
    intros [->| ->]; split.
    - exists 1%nat, 0%nat. cbn. ring.
    - exists 0%nat, 1%nat. cbn. ring.
    - exists 0%nat, 1%nat. cbn. ring.
    - exists 1%nat, 0%nat. cbn. ring.
  Qed.
  Definition allhalf (o : list (list pauli * K)) : Prop := forall e, In e o -> halfint (snd e).
  Lemma allhalf_set k x (o : list (list pauli * K)) : allhalf o -> halfint x -> allhalf (op_set pauli_list_eqb k x o).
  Proof.
    intros H Hx. induction o as [|[k' y] o IH]; cbn [op_set].
    - intros e [<-|[]]. exact Hx.
    - destruct (pauli_list_eqb k k').
      + intros e [<-|He]; [exact Hx|apply H; now right].
      + intros e [<-|He]; [apply H; now left|]. apply IH; [intros e' He'; apply H; now right|exact He].
  Qed.
  Lemma allhalf_add o e : allhalf o -> halfint (snd e) -> allhalf (op_add_string pauli_list_eqb o e).
  Proof.
    intros H He. unfold op_add_string. destruct (op_get pauli_list_eqb (fst e) o) as [y|] eqn:E; apply allhalf_set; auto.
    apply halfint_add; [|exact He]. apply (op_get_In _ _ _ pauli_list_eqb_spec) in E. apply (H _ E).
  Qed.
  Lemma allhalf_fold a : forall o, allhalf o -> allhalf a -> allhalf (fold_left (op_add_string pauli_list_eqb) a o).
  Proof.
    induction a as [|e a IH]; intros o Ho Ha; cbn [fold_left]; [exact Ho|]. apply IH; [apply allhalf_add; [exact Ho|apply Ha; now left]|]. intros e' He'. apply Ha. now right.
  Qed.
  Hypothesis kept : forall x : K, halfint x -> small x = true -> x = 0.
  Lemma lin_zero (f : list pauli -> K) o : (forall e, In e o -> snd e = 0) -> lin f o = 0.
  Proof. induction o as [|[k x] o IH]; intro H; cbn [lin]; [reflexivity|]. rewrite IH by (intros e He; apply H; now right). specialize (H (k, x) (or_introl eq_refl)). cbn in H. subst x. ring. Qed.
  Lemma add_exact o a (f : list pauli -> K) : allhalf o -> allhalf a -> allhalf (op_add pauli_list_eqb o a) /\ lin f (op_add pauli_list_eqb o a) = lin f o + lin f a.
  Proof.
    intros Ho Ha. pose proof (allhalf_fold a o Ho Ha) as H. unfold op_add. split.
    - intros e He. apply H. unfold op_clean in He. apply filter_In in He. tauto.
    - pose proof (lin_clean _ _ f (fold_left (op_add_string pauli_list_eqb) a o)) as L. rewrite (lin_zero f (dropped _)) in L.
      + rewrite (lin_fold_add _ _ _ pauli_list_eqb_spec) in L. rewrite <- L. ring.
      + intros e He. pose proof (dropped_small _ _ _ _ He) as S. apply kept; [|exact S]. apply H. unfold dropped in He. apply filter_In in He. tauto.
  Qed.
  Lemma jw_count N (c : nat -> K) (f : list pauli -> K) : (forall i, c i = 1 \/ c i = - (1)) -> forall l o, (forall i, In i l -> (i < N)%nat) -> allhalf o ->
    lin f (fold_left (fun new r => op_add pauli_list_eqb new r) (map jw_string (map (fun i => (par_at N i, c i)) l)) o)
    = lin f o + over l (fun i => c i * (chalf * (f (repeat PI N) - f (z_at N i)))).
  Proof.
    intros Hc. induction l as [|i l IH]; intros o Hl Ho; cbn [map fold_left over fold_right]; [ring|].
    rewrite jw_par by (auto; apply Hl; now left).
    destruct (add_exact o [(repeat PI N, chalf * c i); (z_at N i, (0 - chalf) * c i)] f Ho) as [A E].
    { destruct (halfint_unit (c i) (Hc i)) as [H1 H2]. intros e [<-|[<-|[]]]; assumption. }
    rewrite IH; [|intros j Hj; apply Hl; now right|exact A]. rewrite E. cbn [lin]. unfold over. ring.
  Qed.

  Definition sg (x : bits) (s : list pauli) : K := if outcome_parity s x then - (1) else 1.
  Lemma observed_eq Nq k v (o : list (list pauli * K)) : length k = Nq -> v <> 0%Z -> (forall e, In e o -> length (fst e) = Nq) -> forall n,
    observed Nq k v o n = Some (n + lin (sg (rev k)) o).
  Proof.
    intros Lk Hv. induction o as [|[s c] o IH]; intros Ho n; cbn [observed lin]; [f_equal; ring|].
    unfold measure_one. pose proof (det_phase_spec s 0 k 1%Z) as P. cbn [Z.of_nat skipn] in P. rewrite <- Lk at 1. rewrite P.
    2:{ cbn. rewrite Lk. specialize (Ho (s, c) (or_introl eq_refl)). cbn in Ho. lia. }
    destruct (Z.eqb_spec v 0) as [E|_]; [contradiction|]. rewrite IH by (intros e He; apply Ho; now right). f_equal.
    unfold sg, sign_of. destruct (outcome_parity s (rev k)); cbn; ring.
  Qed.
  Lemma jw_count_wf N (c : nat -> K) e : In e (jw_operator (map (fun i => (par_at N i, c i)) (seq 0 N))) -> length (fst e) = N.
  Proof.
    intro He. unfold jw_operator, op_transform in He.
    destruct (fold_op_add K _ pauli_list_eqb pauli_list_eqb_spec (map jw_string (map (fun i => (par_at N i, c i)) (seq 0 N))) [] ltac:(constructor)) as [D [_ [_ [_ [_ [_ [H6 _]]]]]]].
    assert (G : In (fst e) (map fst (fold_left (fun new r => op_add pauli_list_eqb new r) (map jw_string (map (fun i => (par_at N i, c i)) (seq 0 N))) [] ++ D))) by (rewrite map_app, in_app_iff; left; now apply in_map).
    apply H6 in G. destruct G as [[]|[r [Hr Hk]]]. rewrite map_map in Hr. apply in_map_iff in Hr. destruct Hr as [i [<- Hi]]. apply in_seq in Hi.
    apply in_map_iff in Hk. destruct Hk as [e' [E' He']]. rewrite <- E'. pose proof (jw_string_wf K (par_at N i) (c i)) as W. rewrite par_at_length in W by lia. now apply W.
  Qed.
  Lemma half_twice : (chalf * (1 - - (1)) : K) = 1.
  Proof. transitivity (chalf + chalf : K); [ring|]. apply chalf_dbl. Qed.
  Lemma bit_term (x : bits) N i : length x = N -> (i < N)%nat -> chalf * (sg x (repeat PI N) - sg x (z_at N i)) = if nth i x false then 1 else 0.
  Proof.
    intros L H. unfold sg. rewrite parity_I, parity_z by assumption. destruct (nth i x false); [apply half_twice|ring].
  Qed.
  Lemma observed_number N k v : length k = N -> v <> 0%Z ->
    observed N k v (jw_operator (map (fun i => (par_at N i, 1)) (seq 0 N))) 0 = Some (of_nat (occupied (seq 0 N) (rev k)) : K).
  Proof.
    intros L Hv. rewrite observed_eq; [|assumption|assumption|intros e He; now apply jw_count_wf in He]. f_equal. unfold jw_operator, op_transform.
    rewrite (jw_count N (fun _ => 1)); [|now left|intros i Hi; apply in_seq in Hi; lia|intros e []]. cbn [lin].
    assert (G : forall l, (forall i, In i l -> (i < N)%nat) -> over l (fun i => 1 * (chalf * (sg (rev k) (repeat PI N) - sg (rev k) (z_at N i)))) = of_nat (occupied l (rev k))).
    { induction l as [|i l IH]; intro Hl; cbn [over fold_right]; [reflexivity|]. fold (over l (fun i => 1 * (chalf * (sg (rev k) (repeat PI N) - sg (rev k) (z_at N i))))).
      rewrite IH by (intros j Hj; apply Hl; now right). rewrite bit_term by (rewrite ?rev_length; auto; apply Hl; now left). unfold occupied. cbn [filter]. destruct (nth i (rev k) false); cbn [length of_nat]; ring. }
    rewrite G by (intros i Hi; apply in_seq in Hi; lia). ring.
  Qed.
  Lemma observed_spin M k v : length k = (M * 2)%nat -> v <> 0%Z ->
    observed (M * 2) k v (jw_operator (map (fun i => (par_at (M * 2) i, spin_phase M i)) (seq 0 (M * 2)))) 0
    = Some (of_nat (occupied (seq 0 M) (rev k)) - of_nat (occupied (seq M M) (rev k)) : K).
  Proof.
    intros L Hv. rewrite observed_eq; [|assumption|assumption|intros e He; now apply jw_count_wf in He]. f_equal. unfold jw_operator, op_transform.
    rewrite (jw_count (M * 2) (spin_phase M)); [|intro i; unfold spin_phase; destruct (i <? M); auto|intros i Hi; apply in_seq in Hi; lia|intros e []]. cbn [lin].
    replace (seq 0 (M * 2)) with (seq 0 M ++ seq M M) by (rewrite <- seq_app; f_equal; lia). rewrite over_app.
    assert (G : forall (c : K) l, (forall i, In i l -> (i < M * 2)%nat /\ spin_phase M i = c) -> over l (fun i => spin_phase M i * (chalf * (sg (rev k) (repeat PI (M * 2)) - sg (rev k) (z_at (M * 2) i)))) = c * of_nat (occupied l (rev k))).
    { intro c. induction l as [|i l IH]; intro Hl; cbn [over fold_right]; [cbn; ring|]. fold (over l (fun i => spin_phase M i * (chalf * (sg (rev k) (repeat PI (M * 2)) - sg (rev k) (z_at (M * 2) i))))).
      rewrite IH by (intros j Hj; apply Hl; now right). destruct (Hl i (or_introl eq_refl)) as [Hi ->]. rewrite bit_term by (rewrite ?rev_length; auto). unfold occupied. cbn [filter]. destruct (nth i (rev k) false); cbn [length of_nat]; ring. }
    rewrite (G 1), (G (- (1))); [ring| |].
    - intros i Hi. apply in_seq in Hi. split; [lia|]. unfold spin_phase. destruct (Nat.ltb_spec i M); [lia|reflexivity].
    - intros i Hi. apply in_seq in Hi. split; [lia|]. unfold spin_phase. destruct (Nat.ltb_spec i M); [reflexivity|lia].
  Qed.

  Variable same : K -> Z -> bool.
  Hypothesis same_int : forall a b z, same (of_nat a - of_nat b) z = Z.eqb (Z.of_nat a - Z.of_nat b) z.
  Lemma filter_diagonal_spec No_as Na Nb (l : counts) : (forall k v, In (k, v) l -> length k = (2 * No_as)%nat /\ v <> 0%Z) ->
    filter_diagonal same (2 * No_as) No_as (Na + Nb) Na Nb (repeat PZ (2 * No_as)) l
    = Some (filter (fun e => Nat.eqb (occupied (seq 0 No_as) (rev (fst e))) Na && Nat.eqb (occupied (seq No_as No_as) (rev (fst e))) Nb) l).
  Proof.
    intro Hl. unfold filter_diagonal. rewrite (proj2 (pauli_list_eqb_spec _ _) eq_refl).
    replace (2 * No_as)%nat with (No_as * 2)%nat in * by lia.
    rewrite !count_operator_eq; [|intro i; unfold spin_phase; destruct (i <? No_as); [|intro E]; [apply c1_neq0|]|intro i; apply c1_neq0].
    2:{ apply (c1_neq0 K). transitivity (- - (1) : K); [ring|]. rewrite E. ring. }
    induction l as [|[k v] l IH]; [reflexivity|]. destruct (Hl k v (or_introl eq_refl)) as [L Hv]. cbn [filter_counts].
    rewrite observed_number, observed_spin by assumption. rewrite IH by (intros; apply Hl; now right). cbn [filter fst]. f_equal.
    replace (of_nat (occupied (seq 0 (No_as * 2)) (rev k)) : K) with (of_nat (occupied (seq 0 (No_as * 2)) (rev k)) - of_nat 0 : K) by (cbn; ring).
    rewrite !same_int. set (a := occupied (seq 0 No_as) (rev k)). set (b := occupied (seq No_as No_as) (rev k)).
    assert (E : occupied (seq 0 (No_as * 2)) (rev k) = (a + b)%nat).
    { unfold a, b, occupied. replace (seq 0 (No_as * 2)) with (seq 0 No_as ++ seq No_as No_as) by (rewrite <- seq_app; f_equal; lia). rewrite filter_app, app_length. reflexivity. }
    rewrite E.
    replace ((Z.of_nat (a + b) - Z.of_nat 0 =? Z.of_nat (Na + Nb))%Z && (Z.of_nat a - Z.of_nat b =? Z.of_nat Na - Z.of_nat Nb)%Z) with (Nat.eqb a Na && Nat.eqb b Nb); [reflexivity|].
    destruct (Nat.eqb_spec a Na), (Nat.eqb_spec b Nb), (Z.eqb_spec (Z.of_nat (a + b) - Z.of_nat 0) (Z.of_nat (Na + Nb))), (Z.eqb_spec (Z.of_nat a - Z.of_nat b) (Z.of_nat Na - Z.of_nat Nb)); cbn; lia || reflexivity.
  Qed.
End P.

(** The parity checks. *)
Lemma keep_where_spec (test : bits -> bool) f (l : counts) : (forall k v, In (k, v) l -> f k = Some (test k)) ->
  keep_where f l = Some (filter (fun e => test (fst e)) l).
Proof.
  induction l as [|[k v] l IH]; intro H; cbn [keep_where filter fst]; [reflexivity|]. rewrite (H k v (or_introl eq_refl)), IH by (intros; eapply H; right; eassumption). reflexivity.
Qed.
Lemma char_last (k : bits) (Nq j : nat) b : length k = (j + 1 + Nq)%nat -> char_is k (Z.of_nat j) b = Some (Bool.eqb (nth Nq (rev k) false) b).
Proof.
  intro L. unfold char_is, py_nth. replace (0 <=? Z.of_nat j)%Z with true by (symmetry; apply Z.leb_le; lia). rewrite Nat2Z.id.
  rewrite (nth_error_nth' k false) by lia. rewrite rev_nth by lia. replace (length k - S Nq)%nat with j by lia. reflexivity.
Qed.
Lemma parity_simple_spec Nq Ne (l : counts) : (forall k v, In (k, v) l -> length k = S Nq) ->
  parity_check_simple Nq 1 Ne l = Some (filter (fun e => Bool.eqb (nth Nq (rev (fst e)) false) (Nat.odd Ne)) l).
Proof.
  intro H. unfold parity_check_simple. cbn [Nat.eqb]. apply (keep_where_spec (fun k => Bool.eqb (nth Nq (rev k) false) (Nat.odd Ne))). intros k v Hk. replace (Z.of_nat (1 + Nq) - 1 - Z.of_nat Nq)%Z with (Z.of_nat 0) by lia.
  apply char_last. rewrite (H k v Hk). lia.
Qed.
Lemma parity_spin_spec Nq Na Nb (l : counts) : (forall k v, In (k, v) l -> length k = S (S Nq)) ->
  parity_check_spin Nq 2 Na Nb l = Some (filter (fun e => Bool.eqb (nth Nq (rev (fst e)) false) (Nat.odd Na) && Bool.eqb (nth (S Nq) (rev (fst e)) false) (Nat.odd Nb)) l).
Proof.
  intro H. unfold parity_check_spin. cbn [Nat.eqb]. apply (keep_where_spec (fun k => Bool.eqb (nth Nq (rev k) false) (Nat.odd Na) && Bool.eqb (nth (S Nq) (rev k) false) (Nat.odd Nb))). intros k v Hk.
  replace (Z.of_nat (2 + Nq) - Z.of_nat Nq - 1)%Z with (Z.of_nat 1) by lia. replace (Z.of_nat (2 + Nq) - Z.of_nat Nq - 2)%Z with (Z.of_nat 0) by lia.
  rewrite (char_last k Nq 1), (char_last k (S Nq) 0) by (rewrite (H k v Hk); lia). unfold parity_bit. destruct (Bool.eqb (nth Nq (rev k) false) (Nat.odd Na)); reflexivity.
Qed.

(** The Gaussian rationals keep half-integers. *)
From Coq Require Import Qcanon.
Local Open Scope Qc_scope.
Definition same_gq (x : GaussQ) (z : Z) : bool := ceqb x (gz z).
Lemma gz_add a b : @cadd GaussQ (gz a) (gz b) = gz (a + b).
Proof. unfold gz. cbn. unfold gqadd. cbn [fst snd]. apply (f_equal2 (@pair Qc Qc)); [|ring]. apply Qc_is_canon. unfold Qcplus, Qcopp, Q2Qc. cbn [this]. rewrite !Qred_correct, inject_Z_plus. reflexivity. Qed.
Lemma gz_opp a : @copp GaussQ (gz a) = gz (- a).
Proof. unfold gz. cbn. unfold gqopp. cbn [fst snd]. apply (f_equal2 (@pair Qc Qc)); [|ring]. apply Qc_is_canon. unfold Qcplus, Qcopp, Q2Qc. cbn [this]. rewrite !Qred_correct, inject_Z_opp. reflexivity. Qed.
Lemma gz_of_nat n : @of_nat GaussQ n = gz (Z.of_nat n).
Proof.
  induction n as [|n IH]; [reflexivity|]. cbn [of_nat]. rewrite IH. replace (Z.of_nat (S n)) with (1 + Z.of_nat n)%Z by lia. rewrite <- gz_add. reflexivity.
Qed.
Lemma gz_sub a b : @csub GaussQ (of_nat a) (of_nat b) = gz (Z.of_nat a - Z.of_nat b).
Proof.
  rewrite !gz_of_nat. unfold Z.sub. rewrite <- gz_add, <- gz_opp. generalize (gz (Z.of_nat a)) (gz (Z.of_nat b)). intros x y. apply (Rsub_def (c_ring GaussQ)).
Qed.
Lemma gz_inj a b : gz a = gz b -> a = b.
Proof.
  intro H. apply (f_equal fst) in H. unfold gz in H. cbn [fst] in H. apply (f_equal this) in H. unfold Q2Qc in H. cbn [this] in H.
  assert (E : (inject_Z a == inject_Z b)%Q) by (rewrite <- (Qred_correct (inject_Z a)), <- (Qred_correct (inject_Z b)), H; reflexivity).
  unfold Qeq in E. cbn [Qnum Qden inject_Z] in E. lia.
Qed.
Lemma same_gq_int a b z : same_gq (@csub GaussQ (of_nat a) (of_nat b)) z = Z.eqb (Z.of_nat a - Z.of_nat b) z.
Proof.
  unfold same_gq. rewrite gz_sub. destruct (Z.eqb_spec (Z.of_nat a - Z.of_nat b) z) as [->|N]; [apply ceqb_refl|]. apply ceqb_false. intro E. now apply gz_inj in E.
Qed.
Lemma kept_gq (x : GaussQ) : halfint GaussQ x -> small x = true -> x = @c0 GaussQ.
Proof.
  intros [a [b ->]] H. rewrite gz_sub in *. set (z := (Z.of_nat a - Z.of_nat b)%Z) in *.
  change (gqsmall (gqmul gqhalf (gz z)) = true) in H. rewrite gqsmall_le, gqnorm2_half in H. unfold Qcle in H.
  assert (E : (this (qhalf * qhalf * gqnorm2 (gz z)) == (1 # 4) * (inject_Z (z * z)))%Q).
  { unfold gqnorm2, gz. cbn [fst snd]. unfold qhalf, Qcplus, Qcmult, Q2Qc. cbn [this]. rewrite !Qred_correct. rewrite inject_Z_mult. ring. }
  rewrite E in H. assert (E2 : (this (Q2Qc smallQ) == smallQ)%Q) by (cbn; reflexivity). rewrite E2 in H.
  assert (Z0 : z = 0%Z).
  { unfold smallQ, Qle in H. cbn [Qnum Qden Qmult inject_Z] in H. change (Z.pos (4 * 1)) with 4%Z in H. assert (z * z = 0)%Z by (pose proof (Z.square_nonneg z); lia). nia. }
  rewrite Z0. vm_compute. reflexivity.
Qed.
Close Scope Qc_scope.

(** The average over the kept shots. *)
Lemma measure_or_none Nq s (l : counts) : (length s <= Nq)%nat -> (forall k v, In (k, v) l -> length k = Nq) ->
  measure_counts Nq s l = if Z.eqb (shots l) 0 then None else Some (inject_Z (weighted s l) / inject_Z (shots l))%Q.
Proof.
  intros Hs Hd. unfold measure_counts. rewrite counts_loop_spec by assumption. cbn [Z.add]. destruct (Z.eqb (shots l) 0); reflexivity.
Qed.
Lemma filter_other (K : CoefRing) (same : K -> Z -> bool) Nq No Ne Na Nb original l : original <> repeat PZ Nq -> filter_diagonal same Nq No Ne Na Nb original l = Some l.
Proof. intro H. unfold filter_diagonal. destruct (pauli_list_eqb original (repeat PZ Nq)) eqn:E; [|reflexivity]. apply pauli_list_eqb_spec in E. contradiction. Qed.
Lemma process_diagonal_spec (K : CoefRing) (H1 : forall x, halfint K x -> small x = true -> x = c0) (same : K -> Z -> bool)
  (H2 : forall a b z, same (csub (of_nat a) (of_nat b)) z = Z.eqb (Z.of_nat a - Z.of_nat b) z) No Na Nb s l :
  (forall k v, In (k, v) l -> length k = (2 * No)%nat /\ v <> 0%Z) -> (length s <= 2 * No)%nat ->
  let kept := filter (fun e => Nat.eqb (occupied (seq 0 No) (rev (fst e))) Na && Nat.eqb (occupied (seq No No) (rev (fst e))) Nb) l in
  process_diagonal same (2 * No) No (Na + Nb) Na Nb (repeat PZ (2 * No)) s l =
    if Z.eqb (shots kept) 0 then None else Some (inject_Z (weighted s kept) / inject_Z (shots kept))%Q.
Proof.
  intros Hl Hs kept. unfold process_diagonal. rewrite (filter_diagonal_spec K H1 same H2) by exact Hl. apply measure_or_none; [exact Hs|].
  intros k v Hk. apply filter_In in Hk. now apply (Hl k v).
Qed.
Lemma process_parity_simple_spec Nq Ne s l : (forall k v, In (k, v) l -> length k = S Nq) -> (length s <= S Nq)%nat ->
  let kept := filter (fun e => Bool.eqb (nth Nq (rev (fst e)) false) (Nat.odd Ne)) l in
  parity_check_simple Nq 1 Ne l = Some kept /\
  process_parity_simple Nq 1 Ne s l = if Z.eqb (shots kept) 0 then None else Some (inject_Z (weighted s kept) / inject_Z (shots kept))%Q.
Proof.
  intros Hl Hs kept. unfold process_parity_simple. rewrite parity_simple_spec by exact Hl. split; [reflexivity|]. apply measure_or_none; [exact Hs|].
  intros k v Hk. apply filter_In in Hk. now apply (Hl k v).
Qed.
Lemma process_parity_spin_spec Nq Na Nb s l : (forall k v, In (k, v) l -> length k = S (S Nq)) -> (length s <= S (S Nq))%nat ->
  let kept := filter (fun e => Bool.eqb (nth Nq (rev (fst e)) false) (Nat.odd Na) && Bool.eqb (nth (S Nq) (rev (fst e)) false) (Nat.odd Nb)) l in
  parity_check_spin Nq 2 Na Nb l = Some kept /\
  process_parity_spin Nq 2 Na Nb s l = if Z.eqb (shots kept) 0 then None else Some (inject_Z (weighted s kept) / inject_Z (shots kept))%Q.
Proof.
  intros Hl Hs kept. unfold process_parity_spin. rewrite parity_spin_spec by exact Hl. split; [reflexivity|]. apply measure_or_none; [exact Hs|].
  intros k v Hk. apply filter_In in Hk. now apply (Hl k v).
Qed.
