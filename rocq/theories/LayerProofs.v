(** The strings of the transform of an operator without cancellation are grouped. *)
From Coq Require Import Bool List Arith Lia Ring.
From Verif Require Import Coeff MatSpec MatLemmas FockSpec OpSpec OpTotal PauliModel PauliProofs PauliBasis OperatorModel OperatorProofs FermiModel TwoTerm TransformModel JWProofs VqeProofs4
  ShapeSpec ShapeProofs ShapeProofs2 JwShape LayerSpec.
Import ListNotations.

Lemma exists_last_or {A} (l : list A) : l = [] \/ exists l' x, l = l' ++ [x].
Proof. destruct l as [|a l]; [now left|right]. destruct (@exists_last A (a :: l)) as [l' [x E]]; [discriminate|]. exists l', x. exact E. Qed.
Section Keys.
  Variable K : CoefRing.
  Add Ring KRing : (c_ring K).
  Local Open Scope coef_scope.
  Notation pop := (list (list pauli * K)).
  Notation peqb := pauli_list_eqb.
  Lemma coefficient_total s (l : pop) : coefficient s l = total pkeq s l.
  Proof.
    induction l as [|[k x] l IH]; [reflexivity|]. unfold coefficient in *. cbn [fold_right fst snd total]. rewrite IH.
    destruct (peqb s k) eqn:E; destruct (pkeq s k) as [F|F]; try reflexivity; [apply pauli_list_eqb_spec in E; contradiction|].
    subst k. rewrite (proj2 (pauli_list_eqb_spec s s) eq_refl) in E. discriminate.
  Qed.
  Lemma add_keys (a : pop) e : map fst (op_add_string peqb a e) = if existsb (peqb (fst e)) (map fst a) then map fst a else map fst a ++ [fst e].
  Proof. unfold op_add_string. destruct (op_get peqb (fst e) a); apply op_set_keys. Qed.
  Lemma fold_keys (r : pop) : forall a : pop, NoDup (map fst r) -> map fst (fold_left (op_add_string peqb) r a) = map fst a ++ filter (fun k => negb (existsb (peqb k) (map fst a))) (map fst r).
  Proof.
    induction r as [|[k x] r IH]; intros a ND; cbn [fold_left map filter fst]; [now rewrite app_nil_r|]. inversion ND as [|? ? Nk ND']; subst. rewrite IH by exact ND'. rewrite add_keys. cbn [fst].
    destruct (existsb (peqb k) (map fst a)) eqn:E; cbn [negb]; [reflexivity|]. rewrite <- app_assoc. cbn [app]. f_equal. f_equal. apply filter_ext_in. intros k' I. f_equal.
    rewrite existsb_app. cbn [existsb]. rewrite orb_false_r. destruct (peqb k' k) eqn:F; [|apply orb_false_r]. exfalso. apply pauli_list_eqb_spec in F. subst k'. contradiction.
  Qed.
  Lemma fold_total s (r a : pop) : NoDup (map fst r) -> NoDup (map fst a) -> total pkeq s (fold_left (op_add_string peqb) r a) = total pkeq s a + total pkeq s r.
  Proof.
    intros NR NA. rewrite !(total_get K _ peqb pauli_list_eqb_spec pkeq); [|exact NR|exact NA|now apply (fold_add_NoDup K _ _ pauli_list_eqb_spec)].
    rewrite (op_get_fold K _ _ pauli_list_eqb_spec s r a NR). destruct (op_get peqb s a), (op_get peqb s r); ring.
  Qed.
  Lemma filter_map_fst (f : list pauli -> bool) (o : pop) : filter f (map fst o) = map fst (filter (fun e => f (fst e)) o).
  Proof. induction o as [|e o IH]; [reflexivity|]. cbn [map filter]. destruct (f (fst e)); cbn [map]; now rewrite IH. Qed.
  Lemma clean_odd (o : pop) : (forall e, In e o -> odd_y (fst e) = true -> small (snd e) = false) -> filter odd_y (map fst (op_clean o)) = filter odd_y (map fst o).
  Proof.
    intro H. unfold op_clean. induction o as [|e o IH]; [reflexivity|]. cbn [filter]. specialize (IH (fun e I => H e (or_intror I))).
    destruct (small (snd e)) eqn:S; cbn [negb map filter].
    - destruct (odd_y (fst e)) eqn:O; [rewrite (H e (or_introl eq_refl) O) in S; discriminate|exact IH].
    - now rewrite IH.
  Qed.
  Lemma grouped_snoc l k : grouped l -> (forall s s', In s k -> In s' k -> support s = support s') -> (forall s s', In s l -> In s' k -> shape s <> shape s') -> grouped (l ++ k).
  Proof.
    intros [ks [-> [H1 H2]]] S D. exists (ks ++ [k]). split; [rewrite concat_app; cbn [concat]; now rewrite app_nil_r|]. split.
    - intros k' s s' I. apply in_app_iff in I. destruct I as [I|[<-|[]]]; [now apply H1|now apply S].
    - intros k1 k' k2 s s' E Is Is'. destruct (exists_last_or k2) as [->|[k2' [x ->]]].
      + apply app_inj_tail in E. destruct E as [-> <-]. cbn [concat] in Is'. rewrite app_nil_r in Is'. intro F. exact (D s' s Is' Is (eq_sym F)).
      + rewrite app_comm_cons, app_assoc in E. apply app_inj_tail in E. destruct E as [E <-]. rewrite concat_app in Is'. cbn [concat] in Is'. rewrite app_nil_r, app_assoc in Is'.
        apply in_app_iff in Is'. destruct Is' as [Is'|Is']; [exact (H2 k1 k' k2' s s' E Is Is')|]. apply D; [|exact Is']. rewrite E, concat_app. apply in_app_iff. right. cbn [concat]. apply in_app_iff. now left.
  Qed.

  Definition keepable (o : list (fstr * K)) : Prop := forall e, In e o -> small (cpow chalf (count_ops (fst e)) * snd e) = false.
  Definition good (o1 : list (fstr * K)) (a : pop) : Prop :=
    NoDup (map fst a) /\ (forall s, odd_y s = true -> total pkeq s a = total pkeq s (flat_map jw_string o1)) /\
    (forall s, odd_y s = true -> (In s (map fst a) <-> exists e, In e o1 /\ In s (map fst (jw_string e)))) /\ grouped (filter odd_y (map fst a)).
  Lemma good_step o1 e a : keepable (o1 ++ [e]) -> (forall s, odd_y s = true -> (exists e', In e' (o1 ++ [e]) /\ In s (map fst (jw_string e'))) -> small (total pkeq s (flat_map jw_string (o1 ++ [e]))) = false) ->
    good o1 a -> good (o1 ++ [e]) (op_add peqb a (jw_string e)).
  Proof.
    intros HK HC [ND [HT [HI HG]]]. destruct e as [fs x]. set (r := jw_string (fs, x)) in *.
    assert (Hx : small (cpow chalf (count_ops fs) * x) = false) by (apply (HK (fs, x)); apply in_app_iff; right; left; reflexivity).
    assert (NR : NoDup (map fst r)) by (destruct (jw_string_spec K fs x Hx) as [_ [[N _] _]]; exact N).
    destruct (op_add_spec K _ _ pauli_list_eqb_spec pkeq a r ND NR) as [ND' HS].
    assert (T : forall s, odd_y s = true -> total pkeq s (flat_map jw_string (o1 ++ [(fs, x)])) = total pkeq s a + total pkeq s r).
    { intros s O. rewrite flat_map_app, total_app, <- (HT s O). cbn [flat_map]. rewrite app_nil_r. reflexivity. }
    assert (MI : forall s, odd_y s = true -> ((In s (map fst a) \/ In s (map fst r)) <-> exists e, In e (o1 ++ [(fs, x)]) /\ In s (map fst (jw_string e)))).
    { intros s O. rewrite (HI s O). split.
      - intros [[e [I J]]|J]; [exists e; split; [apply in_app_iff; now left|exact J]|exists (fs, x); split; [apply in_app_iff; right; now left|exact J]].
      - intros [e [I J]]. apply in_app_iff in I. destruct I as [I|[<-|[]]]; [left; exists e; auto|right; exact J]. }
    assert (MI' : forall s, odd_y s = true -> (In s (map fst (op_add peqb a r)) <-> exists e, In e (o1 ++ [(fs, x)]) /\ In s (map fst (jw_string e)))).
    { intros s O. rewrite <- (MI s O). split.
      - intro I. apply (In_keys K) in I. destruct I as [c I]. apply HS in I. tauto.
      - intro I. apply in_map_iff. exists (s, total pkeq s a + total pkeq s r). split; [reflexivity|]. apply HS. split; [exact I|]. split; [reflexivity|]. rewrite <- (T s O). apply HC; [exact O|]. now apply MI. }
    split; [exact ND'|]. split; [|split; [exact MI'|]].
    - intros s O. rewrite (T s O). destruct (in_dec pkeq s (map fst (op_add peqb a r))) as [I|I].
      + apply (In_keys K) in I. destruct I as [c I]. rewrite (total_In K _ _ pauli_list_eqb_spec pkeq s c _ ND' I). apply HS in I. tauto.
      + rewrite (total_notin K _ pkeq s _ I). rewrite (MI' s O), <- (MI s O) in I. rewrite !(total_notin K _ pkeq s); [ring|tauto|tauto].
    - unfold op_add. rewrite clean_odd.
      + rewrite fold_keys by exact NR. rewrite filter_app. apply grouped_snoc; [exact HG| |].
        * intros s s' I I'. apply filter_In in I. apply filter_In in I'. destruct I as [I _]. destruct I' as [I' _]. apply filter_In in I. apply filter_In in I'. destruct I as [I _]. destruct I' as [I' _].
          apply (jw_keys K fs x Hx) in I. apply (jw_keys K fs x Hx) in I'. rewrite (allowed_support _ _ I), (allowed_support _ _ I'). reflexivity.
        * intros s s' I I' E. apply filter_In in I. destruct I as [I O]. apply filter_In in I'. destruct I' as [I' O']. apply filter_In in I'. destruct I' as [I' Nn].
          apply (HI s O) in I. destruct I as [[f y] [Ie Is]].
          assert (Hy : small (cpow chalf (count_ops f) * y) = false) by (apply (HK (f, y)); apply in_app_iff; left; exact Ie).
          apply (jw_keys K f y Hy) in Is. rewrite (allowed_shape f s s' E) in Is. apply (jw_keys K f y Hy) in Is.
          assert (J : In s' (map fst a)) by (apply (HI s' O'); exists (f, y); auto). apply (existsb_keqb _ peqb pauli_list_eqb_spec) in J. rewrite J in Nn. discriminate.
      + intros [s c] I O. cbn [fst snd] in *.
        assert (NF : NoDup (map fst (fold_left (op_add_string peqb) r a))) by (now apply (fold_add_NoDup K _ _ pauli_list_eqb_spec)).
        rewrite <- (total_In K _ _ pauli_list_eqb_spec pkeq s c _ NF I), (fold_total s r a NR ND), <- (T s O). apply HC; [exact O|]. apply MI; [exact O|].
        apply (in_map fst) in I. cbn [fst] in I. rewrite fold_keys in I by exact NR. apply in_app_iff in I. destruct I as [I|I]; [now left|]. apply filter_In in I. tauto.
  Qed.
  Theorem jw_grouped o : keepable o -> no_cancel o -> grouped (filter odd_y (map fst (jw_operator o))).
  Proof.
    intros HK HC. assert (G : forall o2 o1 a, o = o1 ++ o2 -> good o1 a -> good o (fold_left (fun n r => op_add peqb n r) (map jw_string o2) a)).
    { induction o2 as [|e o2 IH]; intros o1 a E Ga; [rewrite app_nil_r in E; subst o1; exact Ga|]. cbn [map fold_left]. apply (IH (o1 ++ [e])); [rewrite <- app_assoc; exact E|].
      apply good_step; [|intros s O I; rewrite <- coefficient_total; apply (HC (o1 ++ [e]) o2 s); [rewrite <- app_assoc; exact E|exact O|exact I]|exact Ga].
      intros e' I. apply HK. rewrite E. apply in_app_iff in I. apply in_app_iff. destruct I as [I|[<-|[]]]; [now left|right; now left]. }
    apply (G o [] [] eq_refl). split; [constructor|]. split; [reflexivity|]. split; [|exists []; split; [reflexivity|split; [intros k s s' []|intros k1 k k2 s s' E; destruct k1; discriminate]]].
    intros s _. split; [intros []|intros [e [[] _]]].
  Qed.
End Keys.
