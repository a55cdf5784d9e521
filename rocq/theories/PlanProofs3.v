(** Energies computed from a tomography run. *)
From Coq Require Import Bool List Arith ZArith Lia Ring.
From Verif Require Import Coeff Sqrt2 MatSpec MatLemmas OpSpec FockSpec CircuitSpec CircuitModel CircuitProofs CircuitProofs2 CircSpec2 CircProofs2
  RdmModel RdmSpec RdmFock RdmProofs HamModel HamSpec HamProofs HamProofs3 QuantProofs3 InvSpec TransformModel PlanModel PlanSpec PlanProofs PlanProofs2.
Import ListNotations.

Section Unit.
  Variable K : CoefRing.
  Add Ring KRing : (c_ring K).
  Local Open Scope coef_scope.
  Variable rt : K.
  Hypothesis rt_sq : rt * rt = chalf.
  Hypothesis rt_real : cconj rt = rt.

  Lemma unitary2_of (m : mat2 K) :
    (cconj (m false false) * m false false + cconj (m true false) * m true false = 1) ->
    (cconj (m false false) * m false true + cconj (m true false) * m true true = 0) ->
    (cconj (m false true) * m false false + cconj (m true true) * m true false = 0) ->
    (cconj (m false true) * m false true + cconj (m true true) * m true true = 1) ->
    (m false false * cconj (m false false) + m false true * cconj (m false true) = 1) ->
    (m false false * cconj (m true false) + m false true * cconj (m true true) = 0) ->
    (m true false * cconj (m false false) + m true true * cconj (m false true) = 0) ->
    (m true false * cconj (m true false) + m true true * cconj (m true true) = 1) -> unitary2 m.
  Proof. intros. split; intros [] []; unfold mul2; cbn [pauli1]; assumption. Qed.
  Lemma half2 : (chalf + chalf : K) = 1. Proof. apply chalf_dbl. Qed.
  Lemma conj_sub (a b : K) : cconj (a - b) = cconj a - cconj b.
  Proof. replace (a - b) with (a + - b) by ring. rewrite cconj_add, cconj_opp. ring. Qed.
  Ltac conj2 := rewrite ?cconj_add, ?conj_sub, ?cconj_mul, ?cconj_opp, ?cconj_add, ?conj_sub, ?cconj_mul, ?cconj_opp, ?cconj_i, ?cconj_1, ?cconj_0, ?cconj_half, ?rt_real.
  Lemma h2_unitary : unitary2 (h2 rt).
  Proof.
    apply unitary2_of; unfold h2, m2; conj2; first [ring | transitivity (rt * rt + rt * rt); [ring|rewrite rt_sq; apply half2]].
  Qed.
  Lemma i2 : (ci * ci : K) = - (1). Proof. apply ci_sq. Qed.
  Lemma s2_unitary : unitary2 (@s2 K) /\ unitary2 (@sdg2 K).
  Proof.
    split; apply unitary2_of; unfold s2, sdg2, m2; conj2; first [ring | transitivity (- (ci * ci : K)); [ring|rewrite i2; ring]].
  Qed.
  Lemma sx2_unitary : unitary2 (@sx2 K).
  Proof.
    assert (Q : (chalf * chalf * (1 + 1) : K) = chalf) by (transitivity ((chalf + chalf) * chalf : K); [ring|rewrite half2; ring]).
    apply unitary2_of; unfold sx2, m2; conj2;
      first [ transitivity (chalf * chalf * (1 + 1) * (1 - ci * ci) : K); [ring|rewrite Q, i2; transitivity (chalf + chalf : K); [ring|apply half2]]
            | transitivity (chalf * chalf * (1 + 1) * (1 + ci * ci) : K); [ring|rewrite i2; ring] ].
  Qed.
  Lemma x2_unitary : unitary2 (@pauli1 K PX) /\ unitary2 (@pauli1 K PZ).
  Proof. split; apply unitary2_of; cbn [pauli1]; conj2; ring. Qed.
  Lemma r2_unitary (t : angle K) : real_angle t -> unitary2 (rx2 t) /\ unitary2 (ry2 t) /\ unitary2 (rz2 t).
  Proof.
    intros [C [S E]]. split; [|split]; apply unitary2_of; unfold rx2, ry2, rz2, m2; conj2; rewrite ?C, ?S;
      first [ ring | transitivity (fst t * fst t + snd t * snd t); [ring|exact E]
            | transitivity (fst t * fst t - (ci * ci) * (snd t * snd t)); [ring|rewrite i2; transitivity (fst t * fst t + snd t * snd t); [ring|exact E]] ].
  Qed.
  Lemma gate_unitary N (g : gate K) : valid N g -> unitary N (gmat rt N g).
  Proof.
    destruct s2_unitary as [U1 U2]. destruct x2_unitary as [U3 U4].
    intros [O A]. destruct g; cbn [gate_ok] in O; cbn [gmat];
      try (apply at1_unitary; [exact O|]); try assumption; try exact h2_unitary; try exact sx2_unitary; try (apply (r2_unitary t); exact A).
    destruct O as [Oa [Ob D]]. change (unitary N (@perm_mat K (cx_bits a b))). apply perm_unitary.
    - intros x Hx. rewrite cx_length. exact Hx.
    - intros x Hx. apply cx_invol; [exact D|lia].
  Qed.
  Lemma circuit_unitary N (l : list (gate K)) : (forall g, In g l -> valid N g) -> unitary N (cmat rt N l).
  Proof.
    induction l as [|g l IH]; intro H; cbn [cmat]; [apply unitary_one|].
    apply unitary_mul; [apply IH; intros; apply H; right; assumption|apply gate_unitary, H; left; reflexivity].
  Qed.
  Lemma norm_unitary N (U : mat K) (psi : bits -> K) : unitary N U -> norm2 N (mvec N U psi) = norm2 N psi.
  Proof.
    intros [H _]. rewrite <- !expect_mone. transitivity (expect N (mmul N (madj U) U) psi); [|apply expect_meq; exact H].
    rewrite CircuitProofs2.expect_adj, expect_mone. reflexivity.
  Qed.
  Lemma zero_norm N : norm2 N (zero_state N) = (1 : K).
  Proof.
    unfold norm2, zero_state.
    transitivity (sumbits N (fun r => if bits_eqb r (repeat false N) then 1 else 0 : K)); [|apply (sumbits_pick K N (repeat false N) (fun _ => 1)); apply repeat_length].
    apply sumbits_ext. intros r _. rewrite (bits_eqb_sym (repeat false N) r). destruct (bits_eqb r (repeat false N)); conj2; ring.
  Qed.
  Theorem prepared_norm N (l : list (gate K)) : (forall g, In g l -> valid N g) -> norm2 N (prepared rt N l) = 1.
  Proof. intro H. unfold prepared. rewrite (norm_unitary N _ _ (circuit_unitary N l H)). apply zero_norm. Qed.

  (** ** Energies *)
  Lemma observable_ext r (H D D' : nat -> nat -> nat -> nat -> K) :
    (forall a b c d, (a < r)%nat -> (b < r)%nat -> (c < r)%nat -> (d < r)%nat -> D a b c d = D' a b c d) -> observable r H D = observable r H D'.
  Proof.
    intro E. rewrite !observable_eq. apply upto_ext. intros i Hi. apply upto_ext. intros k Hk. apply upto_ext. intros j Hj. apply upto_ext. intros l Hl.
    rewrite E by assumption. reflexivity.
  Qed.
  Lemma observable_conj r (H D : nat -> nat -> nat -> nat -> K) : (forall a b c d, cconj (H a b c d) = H a b c d) ->
    observable r H (fun a b c d => cconj (D a b c d)) = cconj (observable r H D).
  Proof.
    intro E. rewrite !observable_eq, upto_conj. apply upto_ext. intros i _. rewrite upto_conj. apply upto_ext. intros k _.
    rewrite upto_conj. apply upto_ext. intros j _. rewrite upto_conj. apply upto_ext. intros l _. rewrite cconj_mul, E. reflexivity.
  Qed.
  Lemma observable_part r (H D : nat -> nat -> nat -> nat -> K) :
    observable r H (fun a b c d => chalf * (D a b c d + cconj (D a b c d))) = chalf * (observable r H D + observable r H (fun a b c d => cconj (D a b c d))).
  Proof.
    rewrite !observable_eq, <- upto_add, <- upto_scal. apply upto_ext. intros i _. rewrite <- upto_add, <- upto_scal. apply upto_ext. intros k _.
    rewrite <- upto_add, <- upto_scal. apply upto_ext. intros j _. rewrite <- upto_add, <- upto_scal. apply upto_ext. intros l _. ring.
  Qed.
  Lemma K2_real r (w : K) (h : nat -> nat -> K) (V : nat -> nat -> nat -> nat -> K) : cconj w = w -> (forall i j, cconj (h i j) = h i j) ->
    (forall p q s t, cconj (V p q s t) = V p q s t) -> forall p q s t, cconj (build_K2 r w h V p q s t) = build_K2 r w h V p q s t.
  Proof.
    intros Cw Ch CV p q s t. rewrite !K2_value. rewrite cconj_add, cconj_mul, CV, cconj_half, upto_conj. f_equal. apply upto_ext. intros i _. rewrite upto_conj. apply upto_ext. intros j _.
    rewrite upto_conj. apply upto_ext. intros k _. unfold one_body, over. cbn [fold_right]. rewrite !cconj_add, !hit_conj, cconj_0. cbn [fst snd].
    rewrite cconj_opp, cconj_mul, Ch, Cw. reflexivity.
  Qed.

  Variable tiny : K -> bool.
  Hypothesis exact_tiny : forall x, tiny x = true -> x = 0.
  Hypothesis exact_small : forall x : K, dyadic 7 x -> small x = true -> x = 0.

  Theorem tomography_energy simp real imag N Ne nu w h V en_c prep t : real = true -> sized simp -> (forall g, In g prep -> valid (2 * N) g) ->
    has_up (2 * N) N nu (prepared rt (2 * N) prep) -> has_particles (2 * N) Ne (prepared rt (2 * N) prep) ->
    (1 + 1 + 1 + 1) * w * ofnat (Ne - 1) = 1 ->
    (imag = true \/ cconj w = w /\ (forall i j, cconj (h i j) = h i j) /\ (forall p q s t, cconj (V p q s t) = V p q s t)) ->
    tomography rt tiny jw_operator simp 2 real imag N prep = Some t ->
    evaluate (2 * N) (build_K2 (2 * N) w h V) en_c t =
      part real imag (expect (2 * N) (ham (2 * N) (fun p q => h q p) (fun p t q s => V q s p t)) (prepared rt (2 * N) prep)) + en_c.
  Proof.
    intros -> Sz Va Up Pa Hw HI T. unfold evaluate. f_equal. rewrite <- (K2_energy K (2 * N) Ne w h V _ Pa Hw).
    set (D := fun a b c d => rdm_of (2 * N) (prepared rt (2 * N) prep) [a; b] [c; d]).
    transitivity (observable (2 * N) (build_K2 (2 * N) w h V) (fun a b c d => part true imag (D a b c d))).
    { apply observable_ext. intros a b c d Ha Hb Hc Hd.
      apply (tomography_rdm K rt rt_sq rt_real tiny exact_tiny exact_small simp 2 true imag N nu prep t ltac:(lia) eq_refl Sz (prepared_norm (2 * N) prep Va) Up T [a; b] [c; d] eq_refl eq_refl);
        repeat constructor; assumption. }
    destruct imag; [reflexivity|]. destruct HI as [HI|[Cw [Ch CV]]]; [discriminate|].
    cbn [part]. rewrite observable_part, (observable_conj _ _ D (K2_real _ w h V Cw Ch CV)). reflexivity.
  Qed.
End Unit.
