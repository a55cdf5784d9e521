(** The images used by the symmetry projection, and sums over strings of one kind. *)
From Coq Require Import Bool List Arith ZArith Lia Ring Permutation.
From Verif Require Import Coeff MatSpec MatLemmas PauliModel PauliProofs OpSpec OpTotal OperatorModel OperatorProofs FockSpec FermiModel FermiProofs TransformModel TwoTerm JWProofs TransformLin HamSpec HamProofs HamProofs4 PauliBasis
  CircuitSpec RdmSpec RdmModel SymModel SymProofs1.
Import ListNotations.
Section Sym2.
  Variable K : CoefRing.
  Add Ring KRing : (c_ring K).
  Local Open Scope coef_scope.
  Notation pop := (opv K (list pauli)).
  Lemma num_S a : @num K (S a) = 1 + num a.
  Proof. reflexivity. Qed.
  Lemma num_0 : @num K 0 = 0.
  Proof. reflexivity. Qed.
  Lemma num_add a b : @num K (a + b) = num a + num b.
  Proof. induction a as [|a IH]; cbn [plus]; [rewrite num_0; ring|]. rewrite !num_S, IH. ring. Qed.
  Lemma num_pow k : @num K (2 ^ k) = cpow (1 + 1) k.
  Proof. induction k as [|k IH]; [cbn; ring|]. replace (2 ^ S k)%nat with (2 ^ k + 2 ^ k)%nat by (cbn; lia). cbn [cpow]. rewrite num_add, IH. ring. Qed.
  Lemma half_pow k : cpow chalf k * cpow (1 + 1) k = (1 : K).
  Proof. induction k as [|k IH]; cbn [cpow]; [ring|]. transitivity ((chalf + chalf) * (cpow chalf k * cpow (1 + 1) k) : K); [ring|]. rewrite IH, chalf_dbl. ring. Qed.
  Lemma small_one : small (1 : K) = false.
  Proof. destruct (small (1 : K)) eqn:E; [|reflexivity]. apply small_half_mul in E. rewrite <- E, <- (small_half K). f_equal. ring. Qed.
  Definition keq (a b : list pauli) : {a = b} + {a <> b}.
  Proof. decide equality. decide equality. Defined.
  Lemma image_spec s : let new := image s (@num K (2 ^ count_ops s)) in
    NoDup (map fst new) /\ length new = (2 ^ count_ops s)%nat /\ (forall e, In e new -> In (fst e) (paulis_of s) /\ exists z, snd e = ipow z) /\
    (forall P, In P (paulis_of s) -> op_get pauli_list_eqb P new = Some (jw_coef K s P)).
  Proof.
    intros new. assert (HS : small (cpow chalf (count_ops s) * @num K (2 ^ count_ops s)) = false) by (rewrite num_pow, half_pow; apply small_one).
    destruct (jw_string_spec K s _ HS) as [M [[ND [W [_ U]]] L]].
    assert (U' : forall e, In e (jw_string (s, @num K (2 ^ count_ops s))) -> exists z, snd e = ipow z).
    { intros e He. destruct (U e He) as [z E]. exists z. rewrite E, num_pow, half_pow. ring. }
    assert (E : new = jw_string (s, num (2 ^ count_ops s))).
    { unfold new, image, jw_operator, op_transform. cbn [map fold_left]. unfold op_add. rewrite (fold_add_fresh K _ _ pauli_list_eqb_spec) by exact ND. cbn [app]. apply clean_id.
      intros e He. destruct (U' e He) as [z ->]. replace (ipow z : K) with (ipow z * 1 : K) by ring. rewrite small_ipow. apply small_one. }
    rewrite E. split; [exact ND|]. split; [exact L|].
    assert (T : forall P, total keq P (jw_string (s, num (2 ^ count_ops s))) = total keq P (explicit K s)).
    { apply (pauli_unique K keq (length s)); [exact W| |].
      - intros e He. apply in_map_iff in He. destruct He as [P [<- HP]]. now apply paulis_width.
      - intros r c Lr Lc. rewrite M by assumption. unfold mscal. rewrite num_pow, <- (explicit_mat K s r c Lr Lc). rewrite omat_over. unfold explicit. rewrite over_map. reflexivity. }
    assert (NE : NoDup (keys (explicit K s))) by (unfold keys, explicit; rewrite map_map; cbn [fst]; rewrite map_id; apply paulis_nodup).
    assert (NZ : forall z, (ipow z : K) <> 0).
    { intros z H. apply (c1_neq0 K). transitivity (ipow z * ipow (- z) : K); [rewrite <- ipow_add, Z.add_opp_diag_r; reflexivity|]. rewrite H. ring. }
    split.
    - intros e He. split; [|now apply U']. destruct (in_dec keq (fst e) (paulis_of s)) as [|N]; [assumption|]. exfalso.
      assert (Z : total keq (fst e) (explicit K s) = 0) by (apply total_notin; unfold keys, explicit; rewrite map_map; cbn [fst]; now rewrite map_id).
      rewrite <- T in Z. rewrite (total_In K _ _ pauli_list_eqb_spec keq (fst e) (snd e)) in Z; [|exact ND|now destruct e]. destruct (U' e He) as [z Ez]. rewrite Ez in Z. now apply NZ in Z.
    - intros P HP. assert (TP : total keq P (explicit K s) = jw_coef K s P).
      { apply (total_In K _ _ pauli_list_eqb_spec keq); [exact NE|]. unfold explicit. apply in_map_iff. now exists P. }
      rewrite <- T in TP. destruct (op_get pauli_list_eqb P (jw_string (s, num (2 ^ count_ops s)))) as [x|] eqn:G.
      + pose proof (op_get_In K _ _ pauli_list_eqb_spec P x _ G) as I. rewrite (total_In K _ _ pauli_list_eqb_spec keq P x _ ND I) in TP. now subst.
      + apply (op_get_None K _ _ pauli_list_eqb_spec) in G. rewrite total_notin in TP by exact G. destruct (jw_coef_unit K s P HP) as [z Ez]. rewrite Ez in TP. symmetry in TP. now apply NZ in TP.
  Qed.
  (** Coefficient 0. *)
  Definition allz (o : pop) : Prop := forall e, In e o -> snd e = 0.
  Lemma set_z k (x : K) o : allz o -> x = 0 -> allz (op_set pauli_list_eqb k x o).
  Proof.
    intros H Hx. induction o as [|[k' y] o IH]; cbn [op_set]; [intros e [<-|[]]; exact Hx|].
    destruct (pauli_list_eqb k k'); intros e [<-|He]; [exact Hx|apply H; now right|apply H; now left|apply IH; [intros e' He'; apply H; now right|exact He]].
  Qed.
  Lemma add_z o e : allz o -> snd e = 0 -> allz (op_add_string pauli_list_eqb o e).
  Proof.
    intros H He. unfold op_add_string. destruct (op_get pauli_list_eqb (fst e) o) as [y|] eqn:G; apply set_z; auto.
    apply (op_get_In K _ _ pauli_list_eqb_spec) in G. apply H in G. cbn in G. rewrite G, He. ring.
  Qed.
  Lemma mul_z t o : allz o -> allz (pop_mul t o).
  Proof.
    intros H. unfold pop_mul, op_mul, op_clean. intros e He. apply filter_In in He. destruct He as [He _]. revert e He.
    assert (A : forall o acc, allz o -> allz acc -> allz (fold_left (fun new x => fold_left (fun new' s => op_add_string pauli_list_eqb new' (pauli_mul s x)) t new) o acc)).
    { clear o H. induction o as [|x o IH]; intros acc H Ha; cbn [fold_left]; [exact Ha|]. apply IH; [intros e He; apply H; now right|].
      assert (X : snd x = 0) by (apply H; now left). clear - Ha X. revert acc Ha. induction t as [|y t IH]; intros acc Ha; cbn [fold_left]; [exact Ha|]. apply IH. apply add_z; [exact Ha|].
      unfold pauli_mul. cbn [snd]. rewrite X. ring. }
    apply A; [exact H|]. intros e [].
  Qed.
  Lemma string_zero s : allz (jw_string (s, 0)).
  Proof.
    unfold jw_string. cbn [fst snd]. generalize (length s) at 1. intros N. assert (H : allz (pop_add_string [] (repeat PI (length s), 0))) by (apply add_z; [intros e []|reflexivity]).
    revert H. generalize (pop_add_string [] (repeat PI (length s), (0 : K))). generalize (rev s). intros l. induction l as [|[x|] l IH]; intros o H; cbn [jw_loop]; [exact H|apply IH; now apply mul_z|now apply IH].
  Qed.
  Lemma omat_z (o : pop) r c : allz o -> omat o r c = 0.
  Proof. intros H. rewrite omat_over. apply over_zero. intros e He. rewrite (H e He). ring. Qed.
  (** The whole operator. *)
  Definition keeps (e : fstr * K) : Prop := small (cpow chalf (count_ops (fst e)) * snd e) = false \/ count_ops (fst e) = 0%nat \/ snd e = 0.
  Lemma string_exact s (c : K) : keeps (s, c) -> meq (length s) (omat (jw_string (s, c))) (mscal c (fstr_mat s)).
  Proof.
    intros [H|[H|H]]; [now apply jw_string_spec| |]; cbn [fst snd] in H.
    2:{ subst c. intros r q _ _. rewrite omat_z by apply string_zero. unfold mscal. ring. }
    assert (A : forall x, In x s -> x = None).
    { unfold count_ops in H. clear c. induction s as [|[o|] s IH]; cbn [flat length] in H; [intros ? []|discriminate|]. rewrite (length_flat 1 0) in H. intros x [<-|Hx]; [reflexivity|now apply IH]. }
    assert (L : forall N new, @jw_loop K N (rev s) new = new).
    { intros N new. assert (A' : forall x, In x (rev s) -> x = None) by (intros x Hx; apply A; now apply in_rev). revert A'. generalize (rev s). intros l. induction l as [|x l IH]; intros A'; [reflexivity|]. rewrite (A' x) by now left. cbn [jw_loop]. apply IH. intros; apply A'; now right. }
    intros r c' Lr Lc. unfold jw_string. cbn [fst snd]. rewrite L. cbn [pop_add_string op_add_string op_get op_set fst snd omat]. unfold madd, mscal, mzero. rewrite pmat_identity by assumption.
    assert (Fl : flat 0 s = []) by (apply length_zero_iff_nil; exact H). unfold fstr_mat, fock_mat, pmap_mat. rewrite Fl. cbn [fock]. unfold mone. rewrite (bits_eqb_sym c' r). cbn [sgn]. ring.
  Qed.
  Lemma set_wf N k (x : K) (o : pop) : wf N o -> length k = N -> wf N (op_set pauli_list_eqb k x o).
  Proof.
    intros H Hx. induction o as [|[k' y] o IH]; cbn [op_set]; [intros e [<-|[]]; exact Hx|].
    destruct (pauli_list_eqb k k'); intros e [<-|He]; [apply (H (k', y)); now left|apply H; now right|apply (H (k', y)); now left|apply IH; [intros e' He'; apply H; now right|exact He]].
  Qed.
  Lemma add_wf N (o : pop) e : wf N o -> length (fst e) = N -> wf N (op_add_string pauli_list_eqb o e).
  Proof. intros H He. unfold op_add_string. destruct (op_get pauli_list_eqb (fst e) o); now apply set_wf. Qed.
  Lemma term_wf N q o : (q < N)%nat -> wf N (@jw_term K N q o).
  Proof.
    intros H. unfold jw_term, two_term, pop_add_string. destruct (ladder o); (apply add_wf; [apply add_wf; [intros e []|]|]); cbn [fst]; rewrite app_length; cbn [length]; rewrite !repeat_length; lia.
  Qed.
  Lemma jw_string_wf s (c : K) : wf (length s) (jw_string (s, c)).
  Proof.
    unfold jw_string. cbn [fst snd]. assert (H : wf (length s) (pop_add_string [] (repeat PI (length s), c))) by (apply add_wf; [intros e []|apply repeat_length]).
    assert (L : (length (rev s) <= length s)%nat) by (rewrite rev_length; lia).
    revert H L. generalize (pop_add_string [] (repeat PI (length s), c)). generalize (rev s). intros l. induction l as [|[x|] l IH]; intros o H L; cbn [jw_loop length] in *; [exact H| |apply IH; [exact H|lia]].
    apply IH; [|lia]. destruct (pop_mul_residual K (length s) (jw_term (length s) (length l) x) o) as [D [_ [_ [W _]]]]; [apply term_wf; lia|exact H|].
    intros e He. apply W. apply in_or_app. now left.
  Qed.
  Lemma jw_operator_exact (N : nat) (o : list (fstr * K)) : (forall e, In e o -> length (fst e) = N /\ keeps e) ->
    exists D : list (list pauli * K), (forall e, In e D -> small (snd e) = true) /\ wf N (jw_operator o ++ D) /\ meq N (madd (omat (jw_operator o)) (omat D)) (fop_mat o).
  Proof.
    intro H. unfold jw_operator, op_transform.
    destruct (fold_op_add K _ pauli_list_eqb pauli_list_eqb_spec (map jw_string o) [] ltac:(constructor)) as [D [H1 [H2 [H3 [H4 [H5 [H6 _]]]]]]].
    exists D. split; [exact H1|]. split.
    - intros e He. apply (in_map fst) in He. apply H6 in He. destruct He as [[]|[r [Hr Hk]]]. apply in_map_iff in Hr. destruct Hr as [[s c] [<- Hs]]. destruct (H _ Hs) as [L _]. cbn in L.
      apply in_map_iff in Hk. destruct Hk as [e' [<- He']]. rewrite <- L. now apply (jw_string_wf s c).
    - intros r q Hr Hq. unfold madd. rewrite !omat_is_lin, H5. cbn [lin]. rewrite map_map. unfold fop_mat.
      transitivity (sumK (map (fun x => lin (fun k => pmat k r q) (jw_string x)) o)); [ring|].
      clear - H Hr Hq. induction o as [|[s c] o IH]; [reflexivity|]. cbn [map sumK fold_right]. f_equal; [|apply IH; intros e He; apply H; right; exact He].
      destruct (H (s, c) (or_introl eq_refl)) as [L HS]. cbn [fst snd] in *. rewrite <- omat_is_lin. rewrite (string_exact s c HS r q) by congruence. reflexivity.
  Qed.
End Sym2.
