(** The symmetry projection returns an operator. *)
From Coq Require Import Bool List Arith ZArith Lia Ring Permutation.
From Verif Require Import Coeff MatSpec MatLemmas PauliModel PauliProofs OpSpec OperatorModel OperatorProofs FockSpec FermiModel FermiProofs TransformModel TwoTerm JWProofs
  HamSpec HamProofs CircuitSpec RdmSpec RdmModel RdmFock RdmProofs SymSpec SymModel SymProofs1 SymProofs2 SymProofs3 SymProofs4 SymProofs5.
Import ListNotations.

Lemma variants_length s : length (variants s) = 2 ^ count_ops s.
Proof.
  unfold count_ops. induction s as [|[a|] s IH]; cbn [variants flat length]; [reflexivity| |].
  - rewrite (length_flat 1 0). cbn [Nat.pow]. destruct (ladder a); unfold fstr in *; rewrite app_length, !map_length; rewrite IH; lia.
  - rewrite map_length, (length_flat 1 0). exact IH.
Qed.
Lemma tops_le alp first : length (tops alp first) <= 2 ^ count_ops first.
Proof. rewrite <- variants_length. apply NoDup_incl_length; [apply tops_nodup|]. intros t Ht. apply variants_kind. now apply tops_in in Ht. Qed.
Lemma tops_length alp first : length (tops alp first) =
  length (filter (conserving alp (str_sites first)) (simplify (choose (length (str_E first)) (str_E first)))) * length (ph_choices (length (str_C first))).
Proof.
  unfold tops. generalize (filter (conserving alp (str_sites first)) (simplify (choose (length (str_E first)) (str_E first)))). intros l.
  induction l as [|p l IH]; [reflexivity|]. cbn [flat_map length]. rewrite app_length, map_length, IH. lia.
Qed.
Lemma balanced_even sel t : balanced sel t -> Nat.odd (length (filter sel (str_sites t))) = false.
Proof.
  intros B. assert (E : length (filter sel (str_sites t)) = letters_on Cre sel t + letters_on Ann sel t).
  { unfold str_sites, letters_on. generalize (flat 0 t). intros l. induction l as [|[o i] l IH]; [reflexivity|]. cbn [filter fst snd]. destruct o; cbn [ladder]; try exact IH; cbn [map filter snd]; destruct (sel i); cbn [length]; rewrite ?IH; lia. }
  rewrite E, B. rewrite Nat.odd_add. apply xorb_nilpotent.
Qed.
Lemma balanced_rest sel t : balanced (fun _ => true) t -> balanced sel t -> balanced (fun i => negb (sel i)) t.
Proof. unfold balanced. rewrite (letters_split Cre sel), (letters_split Ann sel). lia. Qed.
Lemma pick_all indep dim : (forall l, indep l = true) -> forall rest added tested, length added <= dim -> dim <= length added + length rest -> exists out, pick_columns indep dim rest added tested = Some (Some out).
Proof.
  intros H. induction rest as [|i rest IH]; intros added tested L1 L2; cbn [pick_columns]; destruct (Nat.eqb_spec (length added) dim) as [E|E]; eauto.
  - cbn in L2. lia.
  - rewrite H. apply IH; rewrite app_length; cbn in *; lia.
Qed.
Section Sym6.
  Variable K : CoefRing.
  Local Open Scope coef_scope.
  Variable tiny : K -> bool.
  Hypothesis tiny_unit : forall z, tiny (ipow z) = false.
  Variable rank_ok : list (list K) -> bool.
  Variable solve : list (list K) -> list K -> option (list K).
  Hypothesis Hrank : forall cols, rank_ok cols = true.
  Hypothesis Hsolve : forall cols v, solve cols v <> None.
  Lemma find_row_some k T s : In s T -> exists n, find_row (map (@row K k) T) s = Some n.
  Proof.
    intros H. unfold find_row. generalize O. induction T as [|t T IH]; intros m; [destruct H|]. cbn [map row fst]. destruct (ops_eqb (str_ops t) (str_ops s)) eqn:E; [eauto|].
    destruct H as [->|H]; [rewrite (proj2 (ops_eqb_spec _ _) eq_refl) in E; discriminate|]. apply IH. exact H.
  Qed.
  Lemma op_vector_some k T (op : list (fstr * K)) : (forall e, In e op -> snd e <> 0 -> In (fst e) T) -> exists v, op_vector (map (row K k) T) op = Some v.
  Proof.
    unfold op_vector. generalize (map (fun _ => (0 : K)) (map (row K k) T)). induction op as [|[s c] op IH]; intros v H; cbn [fold_left fst snd]; [eauto|].
    destruct (ceqb c 0) eqn:E; [apply IH; intros; apply H; [now right|assumption]|]. destruct (find_row_some k T s) as [n En].
    { apply (H (s, c)); [now left|]. cbn. intros ->. rewrite (proj2 (ceqb_spec K 0 0) eq_refl) in E. discriminate. }
    rewrite En. apply IH. intros; apply H; [now right|assumption].
  Qed.
  Theorem sym_project_total alp (op : list (fstr * K)) first c0 rest : op = (first, c0) :: rest -> balanced (fun _ => true) first -> balanced alp first ->
    (str_E first <> [] -> forall e, In e op -> snd e <> 0 -> same_kind first (fst e) = true /\ balanced (fun _ => true) (fst e) /\ balanced alp (fst e)) ->
    exists Q, sym_project tiny rank_ok solve alp op = Some Q.
  Proof.
    intros Eop B Ba Kd. enough (G : sym_project tiny rank_ok solve alp op <> None) by (destruct (sym_project tiny rank_ok solve alp op) as [Q|]; [now exists Q|congruence]).
    unfold sym_project. rewrite Eop at 1. cbv zeta. destruct (str_E first) as [|o0 E0] eqn:EE; [discriminate|]. rewrite <- EE. specialize (Kd ltac:(discriminate)).
    rewrite (balanced_even alp first Ba), (balanced_even _ first (balanced_rest alp first B Ba)). cbn [Datatypes.orb]. destruct (null tiny (jw_operator op)); [discriminate|].
    fold (tops alp first). rewrite <- tops_length. pose proof (tops_in alp first) as TI. pose proof (tops_le alp first) as TL.
    assert (TF : In first (tops alp first)) by (destruct (tops_or alp first first (kind_refl first) B) as [H|[H|H]]; [exact H|now apply H in B|now apply H in Ba]).
    assert (TE : forall e, In e op -> snd e <> 0 -> In (fst e) (tops alp first)).
    { intros e He NZ. destruct (Kd e He NZ) as [A1 [A2 A3]]. destruct (tops_or alp first (fst e) A1 B) as [H|[H|H]]; [exact H|contradiction|contradiction]. }
    destruct (tops alp first) as [|t0 T0] eqn:ET; [destruct TF|].
    destruct (loop_none K tiny tiny_unit first (length (t0 :: T0)) t0 T0 TI) as [EB|[pb [Hpb EB]]]; rewrite EB; [discriminate|].
    rewrite map_length. replace (Nat.eqb (length (t0 :: T0)) 0) with false by reflexivity.
    match goal with |- context[pick_columns ?a ?b ?c ?d ?e] => destruct (pick_all a b) with (rest := c) (added := d) (tested := e) as [added EP] end.
    - intros l. apply Hrank.
    - cbn. lia.
    - rewrite seq_length, (Permutation_length Hpb), paulis_length. cbn [length] in *. lia.
    - rewrite EP. destruct (op_vector_some (count_ops first) (t0 :: T0) op TE) as [v Ev]. rewrite Ev.
      match goal with |- context[solve ?a ?b] => destruct (solve a b) eqn:Es; [discriminate|now apply Hsolve in Es] end.
  Qed.
  Theorem sp_rdme_total c a real imag N p alp : real || imag = true -> intact (listed c a) -> length c = p -> length a = p -> Forall (fun x => x < N)%nat c -> Forall (fun x => x < N)%nat a ->
    small (cpow (chalf : K) (S (2 * p))) = false -> length (filter alp c) = length (filter alp a) ->
    exists Q, generate_sp_rdme tiny rank_ok solve (listed c a) real imag alp N = Some Q.
  Proof.
    intros RI Sh Lc La Fc Fa S Ha. apply shortens_spec in Sh. unfold generate_sp_rdme. destruct (rdme_op K c a real imag N p alp Lc La Fc Fa RI Sh S Ha) as [first [c0 [rest [E [ND [Hk [B [Ba Kd]]]]]]]]. rewrite E.
    now apply (sym_project_total alp _ first c0 rest).
  Qed.
End Sym6.
(** An element that does not conserve the number of alpha particles: with an odd number of ladder letters on alpha sites the
    projection raises. *)
Lemma odd_raises (K : CoefRing) tiny rank_ok solve alp first (c0 : K) rest : str_E first <> [] -> Nat.odd (length (filter alp (str_sites first))) = true ->
  sym_project tiny rank_ok solve alp ((first, c0) :: rest) = None.
Proof. intros H O. unfold sym_project. destruct (str_E first); [congruence|]. now rewrite O. Qed.
Lemma unit_not_small (K : CoefRing) z : small (ipow z : K) = false.
Proof. rewrite <- (small_one K), <- (small_ipow K z c1). f_equal. symmetry. rewrite (Rmul_comm (c_ring K)). apply (Rmul_1_l (c_ring K)). Qed.

Lemma sp_diagonal (K : CoefRing) (tiny : K -> bool) rank_ok solve i real imag alp N : generate_sp_rdme tiny rank_ok solve (listed [i] [i]) real imag alp N = None.
Proof.
  unfold generate_sp_rdme. rewrite generate_rdme_raises; [reflexivity| |].
  - repeat constructor.
  - intro H. inversion H as [|? ? X]. apply X. left. reflexivity.
Qed.
