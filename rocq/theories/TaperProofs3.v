From Coq Require Import Bool List Arith Lia Setoid Morphisms.
From Verif Require Import Coeff MatSpec MatLemmas PauliModel PauliProofs TomoProofs OperatorModel OperatorProofs TransformModel TwoTerm TaperModel TaperSpec TaperProofs TaperProofs2.
Import ListNotations.

Section Step.
  Variable K : CoefRing.
  Add Ring KRing : (c_ring K).
  Local Open Scope coef_scope.
  Notation pop := (list (list pauli * K)).
  Variables (n q : nat) (e rt : K) (sym : list pauli).
  Let N := S n.
  Hypothesis Hq : (q <= n)%nat.
  Hypothesis He : e * e = 1.
  Hypothesis Hec : cconj e = e.
  Hypothesis Hrt : rt * rt + rt * rt = 1.
  Hypothesis Hrtc : cconj rt = rt.
  Hypothesis Hsl : length sym = N.
  Hypothesis Hsq : nth q sym PI = PY \/ nth q sym PI = PZ.
  Let W : mat K := Wm K n q e rt sym.
  Let U : pop := taper_unitary rt sym q.
  Lemma unitary_eq : U = [(sym, rt); (one_letter N q PX, rt)].
  Proof.
    unfold U, taper_unitary. cbn zeta. rewrite Hsl. replace (q + 1)%nat with (S q) by lia.
    assert (E : firstn q (repeat PI N) ++ PX :: skipn (S q) (repeat PI N) = one_letter N q PX).
    { unfold one_letter. replace N with (q + (1 + (N - q - 1)))%nat at 1 2 by (unfold N; lia). rewrite !repeat_app. f_equal.
      - rewrite firstn_app, repeat_length, Nat.sub_diag. cbn [firstn]. rewrite app_nil_r. apply firstn_all2. rewrite repeat_length. lia.
      - f_equal. rewrite skipn_app, repeat_length. rewrite skipn_all2 by (rewrite repeat_length; lia). replace (S q - q)%nat with 1%nat by lia. reflexivity. }
    rewrite E. unfold op_of_list. cbn [fold_left op_set fst snd].
    destruct (pauli_list_eqb (one_letter N q PX) sym) eqn:D; [|reflexivity]. apply pauli_list_eqb_spec in D.
    exfalso. assert (G := one_letter_nth N q PX ltac:(unfold N; lia)). rewrite D in G. destruct Hsq as [H|H]; rewrite H in G; discriminate.
  Qed.
  Lemma unitary_wf : wf N U.
  Proof. rewrite unitary_eq. intros x [<-|[<-|[]]]; [exact Hsl|]. cbn [fst]. apply one_letter_length. unfold N. lia. Qed.
  Lemma unitary_mat : req N N (omat U) (madd (mscal rt (pmat sym)) (mscal rt (pmat (one_letter N q PX)))).
  Proof. rewrite unitary_eq. intros r c _ _. cbn [omat]. unfold madd, mzero. ring. Qed.

  (** Tapering up to the terms dropped by the two products. *)
  Lemma taper_step (H : pop) : wf N H ->
    exists T D1 D2 : pop, modify H U U [(q, PX, e)] false = Some T /\ wf n T /\
      (forall x, In x (D1 ++ D2) -> small (snd x) = true) /\
      req n n (madd (mscal (1 + 1) (omat T)) (mmul N (madj (insert_state q PX e)) (mmul N (madd (mmul N (omat D1) (omat U)) (omat D2)) (insert_state q PX e))))
              (mmul N (madj W) (mmul N (omat H) W)).
  Proof.
    intro HH. destruct (pop_mul_residual K N U H unitary_wf HH) as [D1 [P1 [_ [P2 [_ P3]]]]].
    assert (W1 : wf N (pop_mul U H)) by (intros x Hx; apply P2, in_or_app; now left).
    destruct (pop_mul_residual K N (pop_mul U H) U W1 unitary_wf) as [D2 [Q1 [_ [Q2 [_ Q3]]]]].
    assert (W2 : wf N (change_basis H U U)) by (intros x Hx; apply Q2, in_or_app; now left).
    destruct (trim_operator_spec K N [(q, PX, e)] (change_basis H U U)) as [T [T1 [T2 T3]]]; [|reflexivity|exact W2|].
    - cbn [fits]. repeat split; try assumption; try discriminate. unfold N. lia.
    - exists T, D1, D2. split; [exact T1|]. cbn [length] in T2, T3. replace (N - 1)%nat with n in T2, T3 by (unfold N; lia).
      split; [exact T2|]. split; [intros x Hx; apply in_app_or in Hx; destruct Hx; [now apply P1|now apply Q1]|].
      set (V := insert_state q PX e) in *.
      assert (EV : req N n (insert_states N [(q, PX, e)]) V).
      { cbn [insert_states]. fold V. replace (N - 1)%nat with n by (unfold N; lia). apply r_one_r. }
      assert (EN : eignorms [(q, PX, e)] = 1 + 1 :> K) by (cbn; ring).
      rewrite EN in T3. rewrite EV in T3. rewrite T3.
      change (req N N (madd (omat (pop_mul U H)) (omat D1)) (mmul N (omat U) (omat H))) in P3.
      change (req N N (madd (omat (change_basis H U U)) (omat D2)) (mmul N (omat (pop_mul U H)) (omat U))) in Q3.
      assert (B : req N N (madd (omat (change_basis H U U)) (madd (mmul N (omat D1) (omat U)) (omat D2))) (mmul N (omat U) (mmul N (omat H) (omat U)))).
      { rewrite <- (r_assoc K N N N N), <- P3, (r_add_l K N N N), <- Q3. intros r c _ _. unfold madd. ring. }
      rewrite <- (r_add_r K n N n), <- (r_add_l K N N n), B.
      unfold W, Wm. fold N V. rewrite <- unitary_mat.
      assert (UA : req N N (madj (omat U)) (omat U)).
      { rewrite unitary_mat. apply (U_adj K n q Hq rt Hrtc sym Hsl). }
      rewrite (r_adj K n N N (omat U) V), UA, (r_assoc K n N N n (madj V) (omat U)).
      rewrite (r_assoc K N N N n (omat U) (mmul N (omat H) (omat U)) V), (r_assoc K N N N n (omat H) (omat U) V). reflexivity.
  Qed.

  Hypothesis exact : forall x : K, small x = true -> x = 0.
  Lemma omat_small (D : pop) r c : (forall x, In x D -> small (snd x) = true) -> omat D r c = 0.
  Proof.
    induction D as [|[s x] D IH]; intro H; [reflexivity|]. cbn [omat]. unfold madd, mscal. rewrite IH by (intros y Hy; apply H; now right).
    rewrite (exact x) by (apply (H (s, x)); now left). ring.
  Qed.
  Lemma taper_exact (H : pop) : wf N H ->
    exists T : pop, modify H U U [(q, PX, e)] false = Some T /\ wf n T /\ req n n (mscal (1 + 1) (omat T)) (mmul N (madj W) (mmul N (omat H) W)).
  Proof.
    intro HH. destruct (taper_step H HH) as [T [D1 [D2 [T1 [T2 [T3 T4]]]]]]. exists T. split; [exact T1|]. split; [exact T2|].
    rewrite <- T4. intros r c _ _. unfold madd at 1.
    assert (Z : forall m A B a b, (forall x y, A x y = 0) -> mmul m A B a b = 0 :> K).
    { intros m A B a b HA. unfold mmul. rewrite (sumbits_ext _ _ _ (fun _ => 0 * 0)); [rewrite sumbits_scal; ring|]. intros x _. rewrite HA. ring. }
    assert (Z' : forall m A B a b, (forall x y, B x y = 0) -> mmul m A B a b = 0 :> K).
    { intros m A B a b HA. unfold mmul. rewrite (sumbits_ext _ _ _ (fun _ => 0 * 0)); [rewrite sumbits_scal; ring|]. intros x _. rewrite HA. ring. }
    rewrite Z'; [ring|]. intros x y. apply Z. intros x' y'. unfold madd.
    rewrite Z, omat_small; [ring| |intros; apply omat_small]; intros z Hz; apply T3, in_or_app; [now right|now left].
  Qed.
  Lemma taper_sector (H : pop) : wf N H -> req N N (mmul N (omat H) (pmat sym)) (mmul N (pmat sym) (omat H)) ->
    exists T : pop, modify H U U [(q, PX, e)] false = Some T /\ wf n T /\ req N n (mmul N (omat H) W) (mmul n W (omat T)).
  Proof.
    intros HH HC. destruct (taper_exact H HH) as [T [T1 [T2 T3]]]. exists T. split; [exact T1|]. split; [exact T2|].
    apply (intertwine K n q Hq e He Hec rt Hrt Hrtc sym Hsl Hsq); assumption.
  Qed.
End Step.

Section Parity.
  Variable K : CoefRing.
  Add Ring KRing2 : (c_ring K).
  Local Open Scope coef_scope.
  Notation pop := (list (list pauli * K)).
  Hypothesis exact : forall x : K, small x = true -> x = 0.

  Lemma pmat_Z_commute : forall m s t, length s = m -> length t = m -> (forall p, In p (s ++ t) -> p = PI \/ p = PZ) ->
    req m m (mmul m (@pmat K s) (pmat t)) (mmul m (pmat t) (pmat s)).
  Proof.
    intros m s t Hs Ht HP r c Hr Hc. rewrite (comm_phase K s t m Hs Ht r c Hr Hc). unfold mscal.
    assert (Z : nconf s t = 0%nat).
    { clear - HP. revert t HP. induction s as [|x s IH]; intros [|y t] HP; try reflexivity. cbn [nconf].
      rewrite (IH t) by (intros p Hp; apply HP; apply in_app_or in Hp; cbn; rewrite in_app_iff; cbn; tauto).
      assert (Ex : x = PI \/ x = PZ) by (apply HP; now left). assert (Ey : y = PI \/ y = PZ) by (apply HP, in_or_app; right; now left).
      destruct Ex as [-> | ->], Ey as [-> | ->]; reflexivity. }
    rewrite Z. cbn. ring.
  Qed.

  Lemma parity_free_sector {A} rt ea eb Na Nb (base : bool -> A -> option pop) (x : A) (H : pop) :
    rt * rt + rt * rt = 1 -> cconj rt = rt -> ea * ea = 1 -> cconj ea = ea -> eb * eb = 1 -> cconj eb = eb ->
    (1 <= Na)%nat -> (1 <= Nb)%nat ->
    let N := (Na + Nb)%nat in let Sa := repeat PZ Na ++ repeat PI Nb in let Sb := repeat PI Na ++ repeat PZ Nb in
    base false x = Some H -> wf N H ->
    req N N (mmul N (omat H) (pmat Sa)) (mmul N (pmat Sa) (omat H)) ->
    req N N (mmul N (omat H) (pmat Sb)) (mmul N (pmat Sb) (omat H)) ->
    exists T W, parity_free rt Na Nb ea eb base false x = Some T /\ wf (N - 2) T /\
      req (N - 2) (N - 2) (mmul N (madj W) W) (mscal (1 + 1 + 1 + 1) mone) /\
      req N N (mmul (N - 2) W (madj W)) (mmul N (madd mone (mscal ea (pmat Sa))) (madd mone (mscal eb (pmat Sb)))) /\
      req N (N - 2) (mmul N (omat H) W) (mmul (N - 2) W (omat T)).
  Proof.
    intros Hrt Hrtc Hea Heac Heb Hebc Ha Hb N Sa Sb HB HW HCa HCb.
    assert (exN : exists m, N = S (S m)) by (exists (Na + Nb - 2)%nat; unfold N; lia). destruct exN as [m EN].
    set (q1 := (Na + Nb - 1)%nat). set (q2 := (Na - 1)%nat). set (S2 := repeat PZ Na ++ repeat PI (Nb - 1)).
    assert (La : length Sa = S (S m)) by (unfold Sa; rewrite app_length, !repeat_length; fold N; exact EN).
    assert (Lb : length Sb = S (S m)) by (unfold Sb; rewrite app_length, !repeat_length; fold N; exact EN).
    assert (L2 : length S2 = S m) by (unfold S2; rewrite app_length, !repeat_length; unfold N in EN; lia).
    assert (Q1 : (q1 <= S m)%nat) by (unfold q1, N in *; lia). assert (Q2 : (q2 <= m)%nat) by (unfold q2, N in *; lia).
    assert (R : forall (p : pauli) k i d, (i < k)%nat -> nth i (repeat p k) d = p).
    { intros p k. induction k as [|k IH]; intros [|i] d Hi; try lia; [reflexivity|]. cbn. apply IH. lia. }
    assert (B1 : nth q1 Sb PI = PY \/ nth q1 Sb PI = PZ).
    { right. unfold Sb. rewrite app_nth2; rewrite repeat_length; [|unfold q1; lia]. apply R. unfold q1. lia. }
    assert (B2 : nth q2 S2 PI = PY \/ nth q2 S2 PI = PZ).
    { right. unfold S2. rewrite app_nth1; [|rewrite repeat_length; unfold q2; lia]. apply R. unfold q2. lia. }
    assert (I1 : nth q1 Sa PI = PI).
    { unfold Sa. rewrite app_nth2; rewrite repeat_length; [|unfold q1; lia]. apply R. unfold q1. lia. }
    assert (E2 : without q1 Sa = S2).
    { unfold without, Sa, S2. rewrite firstn_app, repeat_length. rewrite firstn_all2 by (rewrite repeat_length; unfold q1; lia).
      rewrite skipn_all2 by (rewrite app_length, !repeat_length; unfold q1; lia). rewrite app_nil_r. f_equal.
      replace (q1 - Na)%nat with (Nb - 1)%nat by (unfold q1; lia). replace Nb with (Nb - 1 + 1)%nat at 2 by lia.
      rewrite repeat_app, firstn_app, repeat_length, Nat.sub_diag. cbn [firstn]. rewrite app_nil_r. apply firstn_all2. rewrite repeat_length. lia. }
    rewrite EN in *. cbn [Nat.sub]. rewrite Nat.sub_0_r.
    assert (CC : req (S (S m)) (S (S m)) (mmul (S (S m)) (@pmat K Sa) (pmat Sb)) (mmul (S (S m)) (pmat Sb) (pmat Sa))).
    { apply pmat_Z_commute; try assumption. intros p Hp. unfold Sa, Sb in Hp. rewrite !in_app_iff in Hp.
      destruct Hp as [[Hp|Hp]|[Hp|Hp]]; apply repeat_spec in Hp; subst; tauto. }
    destruct (taper_sector K (S m) q1 eb rt Sb Q1 Heb Hebc Hrt Hrtc Lb B1 exact H HW HCb) as [T1 [M1 [W1 I1']]].
    assert (HC2 := commuting_below K (S m) q1 Q1 eb Heb Hebc rt Hrt Hrtc Sb Lb B1 (omat H) (omat T1) Sa La I1 CC HCa I1').
    assert (OS := other_symmetry K (S m) q1 Q1 eb rt Sb Lb Sa La I1 CC).
    rewrite E2 in HC2, OS.
    destruct (taper_sector K m q2 ea rt S2 Q2 Hea Heac Hrt Hrtc L2 B2 exact T1 W1 HC2) as [T [M2 [W2 I2]]].
    set (Wb := Wm K (S m) q1 eb rt Sb) in *. set (Wa := Wm K m q2 ea rt S2) in *.
    exists T, (mmul (S m) Wb Wa). split; [|split; [exact W2|split; [|split]]].
    - unfold parity_free, get_transform_from_symmetries. cbn [fold_left]. rewrite HB.
      fold q1 Sb. rewrite M1. exact M2.
    - rewrite (r_adj K m (S m) (S (S m))), (r_assoc K m (S m) (S (S m)) m), <- (r_assoc K (S m) (S (S m)) (S m) m (madj Wb)).
      unfold Wb at 1 2. rewrite (WW K (S m) q1 Q1 eb Heb Hebc rt Hrt Hrtc Sb Lb B1).
      rewrite (r_scal_l K (S m) (S m) m), (r_one_l K (S m) m), (r_scal_r K m (S m) m). unfold Wa. rewrite (WW K m q2 Q2 ea Hea Heac rt Hrt Hrtc S2 L2 B2).
      intros r c _ _. unfold mscal. ring.
    - rewrite (r_adj K m (S m) (S (S m))), (r_assoc K (S (S m)) (S m) m (S (S m))), <- (r_assoc K (S m) m (S m) (S (S m)) Wa).
      unfold Wa at 1 2. rewrite (WWt K m q2 Q2 ea Hea Heac rt Hrt Hrtc S2 L2 B2).
      rewrite (r_add_l K (S m) (S m) (S (S m))), (r_one_l K (S m) (S (S m))), (r_scal_l K (S m) (S m) (S (S m))), (r_add_r K (S (S m)) (S m) (S (S m))), (r_scal_r K (S (S m)) (S m) (S (S m))).
      rewrite <- (r_assoc K (S (S m)) (S m) (S m) (S (S m)) Wb), <- OS, (r_assoc K (S (S m)) (S (S m)) (S m) (S (S m))).
      unfold Wb. rewrite (WWt K (S m) q1 Q1 eb Heb Hebc rt Hrt Hrtc Sb Lb B1).
      rewrite (r_add_l K (S (S m)) (S (S m)) (S (S m))), (r_one_l K (S (S m)) (S (S m))), (r_scal_l K (S (S m)) (S (S m)) (S (S m))). reflexivity.
    - rewrite <- (r_assoc K (S (S m)) (S (S m)) (S m) m), I1', (r_assoc K (S (S m)) (S m) (S m) m), I2.
      symmetry. apply r_assoc.
  Qed.
End Parity.
