(** Exact transforms; the layers made from residuals. *)
From Coq Require Import Bool List Arith ZArith Reals Lra Lia Ring.
From Verif Require Import Coeff ComplexR MatSpec MatLemmas AdjProofs FockSpec OpSpec OpTotal PauliModel PauliProofs PauliBasis OperatorModel OperatorProofs FermiModel TwoTerm TransformModel JWProofs
  CircuitSpec CircuitModel CircuitProofs CircuitProofs2 HamModel HamSpec HamProofs HamProofs3 IntsProofs4 InvModel InvProofs RdmSpec RdmProofs RdmFock VqeSpec VqeProofs3 VqeProofs4 QuantSpec QuantProofs QuantProofs2 StoreModel InitProofs PlanSpec PlanProofs3 PlanProofs5
  ConsSpec ConsModel ConsProofs ConsProofs2 ConsProofs3 ResSpec ResModel ResProofs3 ResProofs4 EulerSpec AcseModel EulerModel EulerProofs2 EulerProofs3 EulerProofs4 ShapeSpec ShapeProofs ShapeProofs2 JwShape LayerSpec LayerProofs LayerProofs2 InvSpec TomoModel TomoProofs.
Import ListNotations.

Section Exact.
  Variable K : CoefRing.
  Add Ring KRing : (c_ring K).
  Local Open Scope coef_scope.
  Notation pop := (list (list pauli * K)).
  Notation peqb := pauli_list_eqb.
  Definition held (o1 : list (fstr * K)) (a : pop) : Prop :=
    NoDup (map fst a) /\ (forall s, total pkeq s a = total pkeq s (flat_map jw_string o1)) /\ forall f : list pauli -> K, lin f a = lin f (flat_map jw_string o1).
  Lemma held_step o1 e a : small (cpow chalf (count_ops (fst e)) * snd e) = false ->
    (forall s, small (total pkeq s (flat_map jw_string (o1 ++ [e]))) = true -> total pkeq s (flat_map jw_string (o1 ++ [e])) = 0) -> held o1 a -> held (o1 ++ [e]) (op_add peqb a (jw_string e)).
  Proof.
    intros Hx HC [ND [HT HL]]. destruct e as [fs x]. cbn [fst snd] in Hx. set (r := jw_string (fs, x)) in *.
    assert (NR : NoDup (map fst r)) by (destruct (jw_string_spec K fs x Hx) as [_ [[N _] _]]; exact N).
    destruct (op_add_spec K _ _ pauli_list_eqb_spec pkeq a r ND NR) as [ND' HS].
    assert (T : forall s, total pkeq s (flat_map jw_string (o1 ++ [(fs, x)])) = total pkeq s a + total pkeq s r).
    { intro s. rewrite flat_map_app, total_app, <- (HT s). cbn [flat_map]. rewrite app_nil_r. reflexivity. }
    assert (NF : NoDup (map fst (fold_left (op_add_string peqb) r a))) by (now apply (fold_add_NoDup K _ _ pauli_list_eqb_spec)).
    split; [exact ND'|]. split.
    - intro s. destruct (in_dec pkeq s (map fst (op_add peqb a r))) as [I|I].
      + apply (In_keys K) in I. destruct I as [c I]. rewrite (total_In K _ _ pauli_list_eqb_spec pkeq s c _ ND' I), T. apply HS in I. tauto.
      + rewrite (total_notin K _ pkeq s _ I). destruct (small (total pkeq s (flat_map jw_string (o1 ++ [(fs, x)])))) eqn:S; [symmetry; now apply HC|].
        destruct (in_dec pkeq s (map fst a)) as [Ia|Ia]; [|destruct (in_dec pkeq s (map fst r)) as [Ir|Ir]].
        * exfalso. apply I. apply in_map_iff. exists (s, total pkeq s a + total pkeq s r). split; [reflexivity|]. apply HS. rewrite <- T. auto.
        * exfalso. apply I. apply in_map_iff. exists (s, total pkeq s a + total pkeq s r). split; [reflexivity|]. apply HS. rewrite <- T. auto.
        * rewrite T, !(total_notin K _ pkeq s) by assumption. ring.
    - intro f. rewrite flat_map_app, lin_app, <- HL. cbn [flat_map]. rewrite app_nil_r. fold r. unfold op_add.
      pose proof (lin_clean K _ f (fold_left (op_add_string peqb) r a)) as C. rewrite (lin_fold_add K _ peqb pauli_list_eqb_spec f r a) in C. rewrite <- C.
      assert (Z : lin f (dropped (fold_left (op_add_string peqb) r a)) = 0); [|rewrite Z; ring].
      assert (LZ : forall o : pop, (forall e, In e o -> snd e = 0) -> lin f o = 0).
      { induction o as [|[k y] o IH]; intro H; [reflexivity|]. cbn [lin]. rewrite IH by (intros; apply H; now right). pose proof (H _ (or_introl eq_refl)) as Y. cbn [snd] in Y. rewrite Y. ring. }
      apply LZ. intros [s c] I. cbn [snd]. apply filter_In in I. destruct I as [I S]. cbn [snd] in S.
      pose proof (total_In K _ _ pauli_list_eqb_spec pkeq s c _ NF I) as Q. rewrite (fold_total K s r a NR ND), <- T in Q. rewrite <- Q in S |- *. now apply HC.
  Qed.
  Theorem jw_exact_sums N o : (forall e, In e o -> length (fst e) = N) -> keepable K o -> exact_sums o -> meq N (omat (jw_operator o)) (fmat o).
  Proof.
    intros HN HK HE. assert (G : forall o2 o1 a, o = o1 ++ o2 -> held o1 a -> held o (fold_left (fun n r => op_add peqb n r) (map jw_string o2) a)).
    { induction o2 as [|e o2 IH]; intros o1 a E Ga; [rewrite app_nil_r in E; subst o1; exact Ga|]. cbn [map fold_left]. apply (IH (o1 ++ [e])); [rewrite <- app_assoc; exact E|].
      apply held_step; [apply HK; rewrite E; apply in_app_iff; right; now left| |exact Ga]. intro s. rewrite <- coefficient_total. apply (HE (o1 ++ [e]) o2 s). rewrite <- app_assoc. exact E. }
    destruct (G o [] [] eq_refl) as [_ [_ L]]; [split; [constructor|split; reflexivity]|].
    intros r c Lr Lc. rewrite omat_lin. unfold jw_operator, op_transform. rewrite (L (fun k => pmat k r c)). clear - HN HK Lr Lc.
    induction o as [|[s x] o IH]; [reflexivity|]. cbn [flat_map fmat]. rewrite lin_app, IH; [|intros; apply HN; now right|intros e I; apply HK; now right].
    unfold madd. f_equal. rewrite <- omat_lin. pose proof (HN _ (or_introl eq_refl)) as LN. cbn [fst] in LN. rewrite <- LN in Lr, Lc.
    destruct (jw_string_spec K s x (HK _ (or_introl eq_refl))) as [M _]. exact (M r c Lr Lc).
  Qed.
  Lemma keepable_not_small o : keepable K o -> forall e, In e o -> small (snd e) = false.
  Proof.
    intros H e I. destruct (small (snd e)) eqn:S; [|reflexivity]. rewrite <- (H e I). symmetry. induction (count_ops (fst e)) as [|n IH]; cbn [cpow].
    - rewrite <- S. f_equal. ring.
    - replace (chalf * cpow chalf n * snd e) with (chalf * (cpow chalf n * snd e)) by ring. apply small_half_mul. exact IH.
  Qed.

  Lemma excitation_count P p q s t (x y : bits) : @excitation K p q s t x y <> 0 -> cnt P [p; q] = cnt P [s; t] -> pcnt P 0 x = pcnt P 0 y.
  Proof.
    unfold excitation, fock_mat, pmap_mat. change [(Cre, p); (Cre, q); (Ann, t); (Ann, s)] with (rdm_letters [p; q] [s; t]). destruct (fock (rdm_letters [p; q] [s; t]) y) as [[g m]|] eqn:F; [|intro H; now elim H].
    destruct (bits_eqb m x) eqn:B; [|intro H; now elim H]. apply bits_eqb_spec in B. subst m. intros _ C. pose proof (rdm_letters_count P _ _ _ _ _ F). lia.
  Qed.
  Lemma two_body_conserves N P (V : nat -> nat -> nat -> nat -> K) : (forall p q s t, (p < N)%nat -> (q < N)%nat -> (s < N)%nat -> (t < N)%nat -> cnt P [p; q] <> cnt P [s; t] -> V p q s t = 0) ->
    forall x y, two_body N V x y <> 0 -> count_in P x = count_in P y.
  Proof.
    intros H x y X. rewrite !count_pcnt. destruct (Nat.eq_dec (pcnt P 0 x) (pcnt P 0 y)) as [E|E]; [exact E|]. exfalso. apply X. unfold two_body.
    do 4 (match goal with |- upto N ?f = 0 => transitivity (upto N (fun _ => (0 : K))); [apply upto_ext; intros ? ?|apply upto_0] end).
    match goal with |- V ?a ?b ?c ?d * _ = 0 => destruct (Nat.eq_dec (cnt P [a; b]) (cnt P [c; d])) as [Q|Q]; [|rewrite H by assumption; ring];
      destruct (ceqb (@excitation K a b c d x y) 0) eqn:Z; [apply ceqb_spec in Z; rewrite Z; ring|] end.
    exfalso. apply E. eapply excitation_count; [|exact Q]. intro Z'. rewrite Z' in Z. rewrite (proj2 (ceqb_spec K 0 0) eq_refl) in Z. discriminate.
  Qed.
End Exact.

Local Open Scope R_scope.
Add Ring CxRingL3 : (c_ring Cx).
(** The layer of an Euler step from a state with a definite number of spin up particles. *)
Theorem residual_layer n nu (K2 A : tensor4) psi keep rel eps o : real_symmetric K2 -> (forall x, keep (copp x) = keep x) ->
  (forall i k j l, (i < 2 * n)%nat -> (k < 2 * n)%nat -> (j < 2 * n)%nat -> (l < 2 * n)%nat -> A i k j l = residual_of (2 * n) K2 psi i k j l) ->
  has_up (2 * n) n nu psi -> (forall p q s t, up_count n [p; q] <> up_count n [s; t] -> K2 p q s t = c0) ->
  residual_operator keep (2 * n) (2 * n) A = Some o ->
  let L := euler_operator eps (truncate_rel rel o) in keepable Cx L -> no_cancel L -> exact_sums L ->
  layer_ok (2 * n) (fun _ => true) L /\ layer_ok (2 * n) (fun k => existsb (Nat.eqb k) (seq 0 n)) L.
Proof.
  intros HK Hk HA HU HS EO L KL NC ES. set (N := (2 * n)%nat) in *.
  pose proof (A_sw1 N K2 psi A HK HA) as S1. pose proof (A_sw2 N K2 psi A HK HA) as S2.
  assert (Eo : o = oper N A keep) by (pose proof (operator_is N A keep S1 S2) as Q; rewrite EO in Q; congruence). subst o.
  unfold L in *. rewrite (truncate_filter rel _ (oper_NoDup N A keep)) in *.
  set (thr := cabs (cmul ((rel, 0) : Cx) (max_coeff (oper N A keep)))) in *. set (T := filter (cut thr) (oper N A keep)) in *. set (P := euler_operator eps T) in *.
  assert (SP : forall e, In e P -> length (fst e) = N).
  { intros e He. unfold P, euler_operator in He. apply in_map_iff in He. destruct He as [e' [<- He]]. cbn [fst]. exact (T_sized N K2 psi A keep thr HK Hk HA e' He). }
  assert (RP : forall e, In e P -> snd (snd e) = 0).
  { intros e He. unfold P, euler_operator in He. apply in_map_iff in He. destruct He as [[X c] [<- He]]. cbn [snd]. apply filter_In in He. destruct He as [He _].
    pose proof (proj1 (O_coeff N K2 psi A keep HK Hk HA X c He)) as Q. destruct c as [x y]. cbn [snd] in Q. subst y. cbn [Cx cmul Cmul snd fst]. ring. }
  assert (AP : forall r c, length r = N -> length c = N -> cconj (fmat P c r) = copp (fmat P r c)).
  { intros r c Lr Lc. unfold P. rewrite !euler_mat, cconj_mul. pose proof (T_anti N K2 psi A keep thr HK Hk HA r c Lr Lc) as Q. fold T in Q. rewrite Q.
    assert (C : cconj ((- (1) * eps, 0) : Cx) = ((- (1) * eps, 0) : Cx)) by (apply C_eq; cbn; ring). rewrite C. ring. }
  assert (CP : forall F : nat -> bool, (forall p q s t, (p < N)%nat -> (q < N)%nat -> (s < N)%nat -> (t < N)%nat -> cnt F [p; q] <> cnt F [s; t] -> residual_of N K2 psi p q s t = c0) -> conserves N (count_in F) (fmat P)).
  { intros F HF r c Lr Lc X. unfold P in X. rewrite euler_mat in X. pose proof (T_mat N K2 psi A keep thr HK Hk HA r c Lr Lc) as Q. fold T in Q. rewrite Q in X.
    eapply (two_body_conserves Cx N F); [|intro Z; apply X; rewrite Z; ring]. intros p q s t Hp Hq Hs Ht C. unfold chosen. rewrite (HF p q s t Hp Hq Hs Ht C). destruct (keep' keep thr _); reflexivity. }
  assert (EX : meq N (omat (jw_operator P)) (fmat P)) by (apply jw_exact_sums; assumption).
  split; constructor; try assumption; apply CP.
  - intros p q s t _ _ _ _ C. elim C. rewrite !cnt_all. reflexivity.
  - intros p q s t Hp Hq Hs Ht C. apply (residual_spin Cx n nu N K2 psi p q s t HK HU HS Hp Hq Hs Ht).
    intro E. apply C. unfold cnt, up_count in *. assert (X : forall l, filter (fun k => existsb (Nat.eqb k) (seq 0 n)) l = filter (fun x => (x <? n)%nat) l).
    { intro l. apply filter_ext. intro a. destruct (a <? n)%nat eqn:Z.
      - apply Nat.ltb_lt in Z. apply existsb_exists. exists a. split; [apply in_seq; lia|apply Nat.eqb_refl].
      - apply Nat.ltb_ge in Z. destruct (existsb _ _) eqn:Y; [|reflexivity]. apply existsb_exists in Y. destruct Y as [b [I B]]. apply Nat.eqb_eq in B. apply in_seq in I. lia. }
    rewrite !X. exact E.
Qed.
