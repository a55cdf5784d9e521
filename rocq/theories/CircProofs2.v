(** Proofs about the methods of the Circ class. *)
From Coq Require Import Bool List Arith ZArith Lia Ring.
From Verif Require Import Coeff MatSpec MatLemmas KronLemmas CircuitSpec FockSpec CircModel CircSpec2 CircSpec3 CircProofs1.
Import ListNotations.

Section Methods.
  Variable K : CoefRing.
  Add Ring KRing : (c_ring K).
  Local Open Scope coef_scope.

  Lemma mult_nil n : multiplies n [] (@mone K).
  Proof. intro m. exists m. split; [reflexivity|]. apply meq_sym, mmul_one_l. Qed.
  Lemma mult_app n l l' (A B : mat K) : multiplies n l A -> multiplies n l' B -> multiplies n (l ++ l') (mmul n B A).
  Proof.
    intros H G m. destruct (H m) as [m1 [E1 M1]]. destruct (G m1) as [m2 [E2 M2]]. exists m2. split.
    - unfold apply_all in *. rewrite fold_left_app, E1. exact E2.
    - eapply meq_trans; [exact M2|]. eapply meq_trans; [apply mmul_meq; [apply meq_refl|exact M1]|]. apply mmul_assoc.
  Qed.
  Lemma mult_ext n l (A B : mat K) : meq n A B -> multiplies n l A -> multiplies n l B.
  Proof.
    intros E H m. destruct (H m) as [m1 [E1 M1]]. exists m1. split; [exact E1|]. eapply meq_trans; [exact M1|]. apply mmul_meq; [exact E|apply meq_refl].
  Qed.
  Lemma mult_sqg n i (g : mat2 K) : (i < n)%nat -> multiplies n [Sqg g i] (at1 n i g).
  Proof.
    intros H m. exists (mmul n (sqg_full n i g) m). split.
    - unfold apply_all. cbn [fold_left apply]. apply Nat.ltb_lt in H. rewrite H. reflexivity.
    - apply mmul_meq; [now apply sqg_full_spec|apply meq_refl].
  Qed.
  Lemma at1_ext n i (g g' : mat2 K) : eq2 g g' -> meq n (at1 n i g) (at1 n i g').
  Proof.
    intros H r c _ _. apply kron_eqk. apply eqk_app; [apply eqk_refl|]. constructor; [exact H|apply eqk_refl].
  Qed.
  Lemma mult_sqg' n i (g g' : mat2 K) : (i < n)%nat -> eq2 g g' -> multiplies n [Sqg g i] (at1 n i g').
  Proof. intros H E. eapply mult_ext; [apply at1_ext; exact E|]. now apply mult_sqg. Qed.
  Lemma mult_held n cs j : (j < n)%nat -> (forall i, In i cs -> i < n)%nat -> ~ In j cs ->
    multiplies n [Held cs j] (@perm_mat K (flip_if cs j)).
  Proof.
    intros Hj Hc Hn m. exists (mmul n (hold cs j) m). split.
    - cbn [apply_all fold_left apply].
      assert (E : forallb (fun i => i <? n)%nat (j :: cs) = true).
      { apply forallb_forall. intros i [<- | H]; apply Nat.ltb_lt; auto. }
      rewrite E. reflexivity.
    - apply mmul_meq; [now apply hold_perm|apply meq_refl].
  Qed.
  Lemma sqg_raises n i (g : mat2 K) m : (n <= i)%nat -> apply n m (Sqg g i) = None.
  Proof. intro H. cbn [apply]. apply Nat.ltb_ge in H. now rewrite H. Qed.
  Lemma held_raises n cs j (m : mat K) i : In i (j :: cs) -> (n <= i)%nat -> apply n m (Held cs j) = None.
  Proof.
    intros Hin H. cbn [apply]. assert (E : forallb (fun i => i <? n)%nat (j :: cs) = false).
    { destruct (forallb (fun i => i <? n)%nat (j :: cs)) eqn:E; [|reflexivity]. rewrite forallb_forall in E.
      specialize (E i Hin). apply Nat.ltb_lt in E. lia. }
    now rewrite E.
  Qed.
  Lemma apply_all_none n (l : list (cgate K)) : apply_all n l None = None.
  Proof. induction l as [|g l IH]; [reflexivity|]. exact IH. Qed.

  (** * Two-qubit sequences *)
  Section Pair.
    Variables n i j : nat.
    Hypothesis Hi : (i < n)%nat.
    Hypothesis Hj : (j < n)%nat.
    Hypothesis D : i <> j.
    Definition mult4 (l : list (cgate K)) (U : mat4 K) : Prop := multiplies n l (at2 n i j U).

    Lemma mult4_app l l' U V : mult4 l U -> mult4 l' V -> mult4 (l ++ l') (mul4 K V U).
    Proof. intros H G. eapply mult_ext; [apply (at2_mul K n i j); assumption|]. apply mult_app; assumption. Qed.
    Lemma mult4_ext l U V : eq4 K U V -> mult4 l U -> mult4 l V.
    Proof. intro E. apply mult_ext. now apply at2_ext. Qed.
    Lemma mult4_j g : mult4 [Sqg g j] (on_j K g).
    Proof. eapply mult_ext; [apply at1_at2_j; eassumption|]. now apply mult_sqg. Qed.
    Lemma mult4_i g : mult4 [Sqg g i] (on_i K g).
    Proof. eapply mult_ext; [apply at1_at2_i; eassumption|]. now apply mult_sqg. Qed.
    Lemma mult4_cx : mult4 (c_Cx i j) (ctrl (pauli1 PX)).
    Proof.
      eapply mult_ext; [|apply mult_held; [exact Hj| |]].
      - eapply meq_trans; [apply meq_sym, hold_perm; [exact Hj|]|apply hold_at2; assumption]. intros [X | []]; congruence.
      - intros k [<- | []]. exact Hi.
      - intros [X | []]; congruence.
    Qed.
    Lemma mult4_xc : mult4 (c_Cx j i) (ctrl_ji K).
    Proof.
      eapply mult_ext; [|apply mult_held; [exact Hi| |]].
      - eapply meq_trans; [apply meq_sym, hold_perm; [exact Hi|]|apply hold_at2'; assumption]. intros [X | []]; congruence.
      - intros k [<- | []]. exact Hj.
      - intros [X | []]; congruence.
    Qed.
  End Pair.

  Ltac seq4 :=
    repeat first
      [ eapply mult4_app; [assumption|assumption|assumption| |]
      | apply mult4_cx; assumption
      | apply mult4_xc; assumption
      | apply mult4_j; assumption
      | apply mult4_i; assumption ].
  Ltac unf := unfold mul4, on_j, on_i, ctrl_ji, ctrl, exchange, ctrl0; cbn [Bool.eqb xorb andb pauli1 m2 fst snd neg_angle].

  Variable rt : K.
  Hypothesis rt_sq : rt * rt = chalf.

  Lemma rt2 : rt * rt + rt * rt = 1.
  Proof. rewrite rt_sq. exact (chalf_dbl K). Qed.
  (** Close an equation up to a multiple of [rt2]. *)
  Ltac rr p := match goal with |- ?L = ?R => transitivity (R + p * (rt * rt + rt * rt - 1)); [ring|rewrite rt2; ring] end.
  Ltac rr' := first [ring | rr (1 : K) | rr (- (1) : K) | rr (ci : K) | rr (- ci : K) ].

  Lemma Cz_spec n i j : (i < n)%nat -> (j < n)%nat -> i <> j -> multiplies n (c_Cz rt i j) (at2 n i j (ctrl (pauli1 PZ))).
  Proof.
    intros Hi Hj D. eapply (mult4_ext n i j); [|unfold c_Cz, c_h; seq4].
    intros a b c d. destruct a, b, c, d; unf; rr'.
  Qed.

  Ltac norm t N := let c := fresh "c" in let s := fresh "s" in destruct t as [c s]; unfold unit_angle in N; cbn [fst snd] in N;
    assert (N' : c * c = 1 - s * s) by (rewrite <- N; ring); pose proof (ci_sq K) as I2'.

  Lemma Cy_spec n i j : (i < n)%nat -> (j < n)%nat -> i <> j -> multiplies n (c_Cy rt i j) (at2 n i j (ctrl (pauli1 PY))).
  Proof.
    intros Hi Hj D. eapply (mult4_ext n i j); [|unfold c_Cy, c_s, c_si, c_ph; seq4].
    pose proof (ci_sq K) as I2'. unfold cos_of, sin_of. 
    assert (E1 : fst (a_pi2 rt) * fst (a_pi2 rt) - snd (a_pi2 rt) * snd (a_pi2 rt) + ci * ((1 + 1) * (fst (a_pi2 rt) * snd (a_pi2 rt))) = ci).
    { unfold a_pi2. cbn [fst snd]. rr (ci : K). }
    assert (E2 : fst (neg_angle (a_pi2 rt)) * fst (neg_angle (a_pi2 rt)) - snd (neg_angle (a_pi2 rt)) * snd (neg_angle (a_pi2 rt))
       + ci * ((1 + 1) * (fst (neg_angle (a_pi2 rt)) * snd (neg_angle (a_pi2 rt)))) = - ci).
    { unfold a_pi2, neg_angle. cbn [fst snd]. rr (- ci : K). }
    rewrite E1, E2. intros a b c d. destruct a, b, c, d; unf; first [ring | ring [I2']].
  Qed.

  Lemma Cxr_spec n i j : (i < n)%nat -> (j < n)%nat -> i <> j -> multiplies n (c_Cxr i j) (at2 n i j (ctrl0 (@pauli1 K PX))).
  Proof.
    intros Hi Hj D. eapply (mult4_ext n i j); [|unfold c_Cxr, c_x; seq4]. intros a b c d. destruct a, b, c, d; unf; ring.
  Qed.

  Lemma Cs_spec n i j (t : angle K) : unit_angle t -> (i < n)%nat -> (j < n)%nat -> i <> j ->
    let e := cos_of t + ci * sin_of t in multiplies n (c_Cs t i j) (at2 n i j (ctrl (m2 1 0 0 (e * e)))).
  Proof.
    intros N Hi Hj D e. eapply (mult4_ext n i j); [|unfold c_Cs, c_Rz, c_ph; seq4].
    unfold e, cos_of, sin_of. norm t N. intros a b x d. destruct a, b, x, d; unf; first [ring | ring [I2' N']].
  Qed.

  Lemma CRy_spec n i j (t : angle K) : unit_angle t -> (i < n)%nat -> (j < n)%nat -> i <> j ->
    multiplies n (c_CRy i j t) (at2 n i j (ctrl (ry2 (cos_of t, sin_of t)))).
  Proof.
    intros N Hi Hj D. eapply (mult4_ext n i j); [|unfold c_CRy, c_Ry; seq4].
    unfold ry2, cos_of, sin_of. norm t N. intros a b x d. destruct a, b, x, d; unf; first [ring | ring [N']].
  Qed.

  (** The two halves of the two-CNOT sequence. *)
  Lemma Ch2_left n i j (t : angle K) : unit_angle t -> (i < n)%nat -> (j < n)%nat -> i <> j ->
    multiplies n (c_Rz j a_pi ++ c_Ry j t ++ c_Cx i j ++ c_Ry j (neg_angle t))
      (at2 n i j (fun a b x d => if Bool.eqb a x then
          if a then m2 (- (ci * sin_of t)) (ci * cos_of t) (- (ci * cos_of t)) (- (ci * sin_of t)) b d
          else m2 (- ci) 0 0 ci b d else 0)).
  Proof.
    intros N Hi Hj D. eapply (mult4_ext n i j); [|unfold c_Ry, c_Rz; seq4].
    unfold a_pi, cos_of, sin_of. norm t N. intros a b x d. destruct a, b, x, d; unf; first [ring | ring [N']].
  Qed.
  Lemma Ch2_right n i j : (i < n)%nat -> (j < n)%nat -> i <> j ->
    multiplies n (c_Rz j (neg_angle (a_pi2 rt)) ++ c_Cx i j ++ c_Rz j (neg_angle (a_pi2 rt)))
      (at2 n i j (fun a b x d => if Bool.eqb a x then if a then pauli1 PX b d else m2 ci 0 0 (- ci) b d else 0)).
  Proof.
    intros Hi Hj D. eapply (mult4_ext n i j); [|unfold c_Rz; seq4].
    pose proof (ci_sq K) as I2'. unfold a_pi2.
    assert (E1 : (rt - ci * - rt) * (rt - ci * - rt) = ci).
    { transitivity ((1 + ci * ci + (1 + 1) * ci) * (rt * rt)); [ring|]. rewrite I2'. rr (ci : K). }
    assert (E2 : (rt + ci * - rt) * (rt + ci * - rt) = - ci).
    { transitivity ((1 + ci * ci - (1 + 1) * ci) * (rt * rt)); [ring|]. rewrite I2'. rr (- ci : K). }
    assert (E3 : (rt - ci * - rt) * (rt + ci * - rt) = 1).
    { transitivity ((1 - ci * ci) * (rt * rt)); [ring|]. rewrite I2'. rr (1 : K). }
    intros a b x d. destruct a, b, x, d; unf.
    all: try ring.
    all: match goal with |- _ = ci => transitivity ((rt - ci * - rt) * (rt - ci * - rt)); [ring|exact E1]
         | |- _ = - ci => transitivity ((rt + ci * - rt) * (rt + ci * - rt)); [ring|exact E2]
         | |- _ = 1 => transitivity ((rt - ci * - rt) * (rt + ci * - rt)); [ring|exact E3] end.
  Qed.
  Lemma s_value : cos_of (a_pi2 rt) + ci * sin_of (a_pi2 rt) = ci.
  Proof. unfold cos_of, sin_of, a_pi2. cbn [fst snd]. rr (ci : K). Qed.
  Lemma si_value : cos_of (neg_angle (a_pi2 rt)) + ci * sin_of (neg_angle (a_pi2 rt)) = - ci.
  Proof. unfold cos_of, sin_of, a_pi2, neg_angle. cbn [fst snd]. rr (- ci : K). Qed.
  Lemma Ch2_spec n i j (t : angle K) : unit_angle t -> (i < n)%nat -> (j < n)%nat -> i <> j ->
    multiplies n (c_Ch rt t 2 i j) (at2 n i j (ctrl (reflect (cos_of t) (sin_of t)))).
  Proof.
    intros N Hi Hj D. unfold c_Ch.
    replace (c_Rz j a_pi ++ c_Ry j t ++ c_Cx i j ++ c_Ry j (neg_angle t) ++ c_Rz j (neg_angle (a_pi2 rt)) ++ c_Cx i j
           ++ c_Rz j (neg_angle (a_pi2 rt)) ++ c_ph i (a_pi2 rt))
      with ((c_Rz j a_pi ++ c_Ry j t ++ c_Cx i j ++ c_Ry j (neg_angle t)) ++
            (c_Rz j (neg_angle (a_pi2 rt)) ++ c_Cx i j ++ c_Rz j (neg_angle (a_pi2 rt))) ++ c_ph i (a_pi2 rt)) by (rewrite <- !app_assoc; reflexivity).
    eapply (mult4_ext n i j); [|eapply mult4_app; [assumption|assumption|assumption|apply Ch2_left; assumption|
      eapply mult4_app; [assumption|assumption|assumption|apply Ch2_right; assumption|unfold c_ph; apply mult4_i; assumption]]].
    rewrite s_value. unfold reflect. pose proof (ci_sq K) as I2'. intros a b x d. destruct a, b, x, d; unf; first [ring | ring [I2']].
  Qed.
  Lemma Ch1_spec n i j (t : angle K) : unit_angle t -> (i < n)%nat -> (j < n)%nat -> i <> j ->
    multiplies n (c_Ch rt t 1 i j) (at2 n i j (ctrl (reflect (sin_of t) (cos_of t)))).
  Proof.
    intros N Hi Hj D. eapply (mult4_ext n i j); [|unfold c_Ch, c_Ry; seq4].
    unfold reflect, cos_of, sin_of. norm t N. intros a b x d. destruct a, b, x, d; unf; first [ring | ring [N']].
  Qed.

  (** Conjugation by Cx(j,i) and X on j: from the second qubit controlled by the first to an exchange. *)
  Lemma conj_exchange n i j l (g : mat2 K) : (i < n)%nat -> (j < n)%nat -> i <> j -> multiplies n l (at2 n i j (ctrl g)) ->
    multiplies n (c_Cx j i ++ c_x j ++ l ++ c_x j ++ c_Cx j i) (at2 n i j (exchange g)).
  Proof.
    intros Hi Hj D H. eapply (mult4_ext n i j).
    2:{ eapply mult4_app; [assumption|assumption|assumption|apply mult4_xc; assumption|].
        eapply mult4_app; [assumption|assumption|assumption|unfold c_x; apply mult4_j; assumption|].
        eapply mult4_app; [assumption|assumption|assumption|exact H|].
        eapply mult4_app; [assumption|assumption|assumption|unfold c_x; apply mult4_j; assumption|apply mult4_xc; assumption]. }
    intros a b x d. destruct a, b, x, d; unf; ring.
  Qed.
  Lemma SRy_spec n i j (t : angle K) : unit_angle t -> (i < n)%nat -> (j < n)%nat -> i <> j ->
    multiplies n (c_SRy i j t) (at2 n i j (exchange (ry2 (cos_of t, sin_of t)))).
  Proof. intros. unfold c_SRy. apply conj_exchange; auto. now apply CRy_spec. Qed.
  Lemma Sh_spec n i j (t : angle K) : unit_angle t -> (i < n)%nat -> (j < n)%nat -> i <> j ->
    multiplies n (c_Sh rt t 2 i j) (at2 n i j (exchange (reflect (cos_of t) (sin_of t)))) /\
    multiplies n (c_Sh rt t 1 i j) (at2 n i j (exchange (reflect (sin_of t) (cos_of t)))).
  Proof. intros. unfold c_Sh. split; apply conj_exchange; auto; [now apply Ch2_spec|now apply Ch1_spec]. Qed.

  (** * Swaps *)
  Lemma flip_length cs j b : length (flip_if cs j b) = length b.
  Proof. unfold flip_if. destruct (forallb _ cs); [apply upd_length|reflexivity]. Qed.
  Lemma controls_upd cs j v (b : bits) n : length b = n -> ~ In j cs ->
    forallb (fun i => nth i (upd j v b) false) cs = forallb (fun i => nth i b false) cs.
  Proof.
    intros L Hn. induction cs as [|i cs IH]; [reflexivity|]. cbn [forallb]. rewrite IH by (intro X; apply Hn; now right). f_equal.
    destruct (Nat.lt_ge_cases i (length b)) as [H | H]; [|rewrite !nth_overflow by (rewrite ?upd_length; lia); reflexivity].
    rewrite nth_upd by exact H. destruct (Nat.eqb_spec j i) as [-> | _]; [exfalso; apply Hn; now left|reflexivity].
  Qed.
  Lemma three_flips n cs i j b : length b = n -> (i < n)%nat -> (j < n)%nat -> i <> j -> ~ In i cs -> ~ In j cs ->
    flip_if (cs ++ [j]) i (flip_if (cs ++ [i]) j (flip_if (cs ++ [j]) i b)) = swap_if cs i j b.
  Proof.
    intros L Hi Hj D Ni Nj.
    assert (A : forall q x, forallb (fun i => nth i x false) (cs ++ [q]) = forallb (fun i => nth i x false) cs && nth q x false).
    { intros q x. rewrite forallb_app. cbn. now rewrite andb_true_r. }
    unfold swap_if. destruct (forallb (fun i => nth i b false) cs) eqn:F.
    2:{ assert (Z : forall q q', flip_if (cs ++ [q]) q' b = b) by (intros q q'; unfold flip_if; rewrite A, F; reflexivity). now rewrite !Z. }
    assert (S1 : forall q q' x, length x = n -> (q < n)%nat -> (q' < n)%nat -> ~ In q' cs -> forallb (fun i => nth i x false) cs = true ->
       flip_if (cs ++ [q]) q' x = upd q' (xorb (nth q' x false) (nth q x false)) x).
    { intros q q' x Lx Hq Hq' Nq' Fx. unfold flip_if. rewrite A, Fx. cbn [andb]. destruct (nth q x false); [now rewrite xorb_true_r|].
      rewrite xorb_false_r. apply bits_ext; [now rewrite upd_length|]. intros k Hk. rewrite nth_upd by lia. destruct (Nat.eqb_spec q' k); [now subst|reflexivity]. }
    rewrite (S1 j i b) by auto.
    rewrite (S1 i j) by (rewrite ?upd_length; auto; rewrite (controls_upd cs i _ b n); auto).
    rewrite (S1 j i).
    2-5: rewrite ?upd_length; auto.
    2:{ rewrite (controls_upd cs j _ _ n), (controls_upd cs i _ b n); rewrite ?upd_length; auto. }
    apply bits_ext; [rewrite !upd_length; reflexivity|]. intros k Hk. rewrite !upd_length in Hk.
    repeat (rewrite !nth_upd by (rewrite ?upd_length; lia)). rewrite !Nat.eqb_refl.
    assert (E1 : (i =? j)%nat = false) by (apply Nat.eqb_neq; lia). assert (E2 : (j =? i)%nat = false) by (apply Nat.eqb_neq; lia).
    rewrite ?E1, ?E2. destruct (Nat.eqb_spec i k) as [-> | Di].
    - rewrite ?E1, ?E2. destruct (nth k b false), (nth j b false); reflexivity.
    - destruct (Nat.eqb_spec j k) as [-> | Dj]; [|reflexivity]. destruct (nth i b false), (nth k b false); reflexivity.
  Qed.
  Lemma three_held n cs i j : (i < n)%nat -> (j < n)%nat -> i <> j -> (forall k, In k cs -> k < n)%nat -> ~ In i cs -> ~ In j cs ->
    multiplies n ([Held (cs ++ [j]) i] ++ [Held (cs ++ [i]) j] ++ [Held (cs ++ [j]) i]) (@perm_mat K (swap_if cs i j)).
  Proof.
    intros Hi Hj D Hc Ni Nj.
    assert (M1 : multiplies n [Held (cs ++ [j]) i] (@perm_mat K (flip_if (cs ++ [j]) i))).
    { apply mult_held; [exact Hi| |].
      - intros k Hk. apply in_app_iff in Hk. destruct Hk as [Hk | [<- | []]]; auto.
      - intro X. apply in_app_iff in X. destruct X as [X | [X | []]]; [contradiction|congruence]. }
    assert (M2 : multiplies n [Held (cs ++ [i]) j] (@perm_mat K (flip_if (cs ++ [i]) j))).
    { apply mult_held; [exact Hj| |].
      - intros k Hk. apply in_app_iff in Hk. destruct Hk as [Hk | [<- | []]]; auto.
      - intro X. apply in_app_iff in X. destruct X as [X | [X | []]]; [contradiction|congruence]. }
    eapply mult_ext; [|eapply mult_app; [exact M1|eapply mult_app; [exact M2|exact M1]]].
    eapply meq_trans; [apply mmul_meq; [apply perm_mul; intros; now rewrite flip_length|apply meq_refl]|].
    eapply meq_trans; [apply perm_mul; intros; now rewrite flip_length|].
    apply perm_ext. intros b Lb. now apply (three_flips n).
  Qed.
  Lemma swap_if_sym cs i j b : i <> j -> swap_if cs i j b = swap_if cs j i b.
  Proof.
    intro D. unfold swap_if. destruct (forallb _ cs); [|reflexivity]. apply bits_ext; [now rewrite !upd_length|].
    intros k Hk. rewrite !upd_length in Hk. repeat (rewrite !nth_upd by (rewrite ?upd_length; lia)).
    destruct (Nat.eqb_spec i k), (Nat.eqb_spec j k); try reflexivity. congruence.
  Qed.
  Lemma Sw_spec n i j : (i < n)%nat -> (j < n)%nat -> i <> j -> multiplies n (c_Sw i j) (@perm_mat K (swap_if [] i j)).
  Proof.
    intros Hi Hj D. eapply mult_ext; [apply perm_ext; intros b _; apply swap_if_sym; exact (not_eq_sym D)|].
    apply (three_held n [] j i); auto. intros k [].

  Qed.
  Lemma Fred_spec n i j k : (i < n)%nat -> (j < n)%nat -> (k < n)%nat -> i <> j -> i <> k -> j <> k ->
    multiplies n (c_Fred i j k) (@perm_mat K (swap_if [i] j k)).
  Proof.
    intros Hi Hj Hk D1 D2 D3. apply (three_held n [i] j k); auto.
    - intros q [<- | []]. exact Hi.
    - intros [X | []]. congruence.
    - intros [X | []]. congruence.
  Qed.
  Lemma CCS_spec n i j k l : (i < n)%nat -> (j < n)%nat -> (k < n)%nat -> (l < n)%nat ->
    i <> k -> i <> l -> j <> k -> j <> l -> k <> l ->
    multiplies n (c_CCS i j k l) (@perm_mat K (swap_if [i; j] k l)).
  Proof.
    intros Hi Hj Hk Hl D1 D2 D3 D4 D5. apply (three_held n [i; j] k l); auto.
    - intros q [<- | [<- | []]]; assumption.
    - intros [X | [X | []]]; congruence.
    - intros [X | [X | []]]; congruence.
  Qed.

  (** * Unitarity *)
  Lemma cconj_0 : cconj (0 : K) = 0.
  Proof. pose proof (cconj_add K 0 0) as H. assert (E : (0 + 0 : K) = 0) by ring. rewrite E in H.
    transitivity (cconj (0 : K) + cconj 0 - cconj 0); [ring|]. rewrite <- H. ring. Qed.
  Lemma cconj_1 : cconj (1 : K) = 1.
  Proof. pose proof (cconj_mul K (cconj 1) 1) as H. rewrite cconj_inv in H. assert (E : (cconj (1 : K) * 1) = cconj 1) by ring.
    rewrite E, cconj_inv in H. transitivity (1 * cconj (1 : K)); [ring|]. symmetry. exact H. Qed.
  Lemma at1_adj n i (g : mat2 K) : (i < n)%nat -> meq n (madj (at1 n i g)) (at1 n i (fun a b => cconj (g b a))).
  Proof.
    intros Hi r c Hr Hc. unfold madj. rewrite !at1_entry by assumption.
    assert (E : agree_off n [i] c r = agree_off n [i] r c).
    { apply bool_iff. rewrite !agree_spec. split; intros H k Hk G; symmetry; now apply H. }
    rewrite E. destruct (agree_off n [i] r c); [reflexivity|apply cconj_0].
  Qed.
  Lemma at1_mul n i (g h : mat2 K) : (i < n)%nat -> meq n (mmul n (at1 n i g) (at1 n i h)) (at1 n i (mul2 g h)).
  Proof.
    intro Hi. unfold at1. eapply meq_trans; [apply kron_mul; rewrite app_length; cbn [length]; rewrite !repeat_length; lia|].
    intros r c _ _. apply kron_eqk. rewrite zip2_app by now rewrite !repeat_length. apply eqk_app.
    - apply zip2_I_l. apply repeat_length.
    - cbn [zip2]. constructor; [intros a b; reflexivity|]. apply zip2_I_l. apply repeat_length.
  Qed.
  Lemma at1_one n i : (i < n)%nat -> meq n (at1 n i (pauli1 PI)) (@mone K).
  Proof.
    intros Hi r c Hr Hc. rewrite at1_entry by assumption. unfold mone. rewrite <- (agree_nil n r c Hr Hc), (agree_cons n i []) by auto.
    destruct (agree_off n [i] r c); [|reflexivity]. destruct (nth i r false), (nth i c false); reflexivity.
  Qed.
  Lemma at1_unitary n i (g : mat2 K) : (i < n)%nat -> unitary2 g -> unitary n (at1 n i g).
  Proof.
    intros Hi [H G]. split.
    - eapply meq_trans; [apply mmul_meq; [now apply at1_adj|apply meq_refl]|]. eapply meq_trans; [now apply at1_mul|].
      eapply meq_trans; [apply at1_ext; exact H|]. now apply at1_one.
    - eapply meq_trans; [apply mmul_meq; [apply meq_refl|now apply at1_adj]|]. eapply meq_trans; [now apply at1_mul|].
      eapply meq_trans; [apply at1_ext; exact G|]. now apply at1_one.
  Qed.
  Lemma flip_twice n cs j b : length b = n -> (j < n)%nat -> ~ In j cs -> flip_if cs j (flip_if cs j b) = b.
  Proof.
    intros L Hj Nj. unfold flip_if at 2. destruct (forallb (fun i => nth i b false) cs) eqn:F.
    - unfold flip_if. rewrite (controls_upd cs j _ b n L Nj), F. apply bits_ext; [now rewrite !upd_length|]. intros k Hk.
      rewrite !upd_length in Hk. rewrite !nth_upd by (rewrite ?upd_length; lia). rewrite Nat.eqb_refl.
      destruct (Nat.eqb_spec j k) as [-> | _]; [apply negb_involutive|reflexivity].
    - unfold flip_if. now rewrite F.
  Qed.
  Lemma perm_adj n f : (forall b, length b = n -> length (f b) = n) -> (forall b, length b = n -> f (f b) = b) ->
    meq n (madj (perm_mat f)) (@perm_mat K f).
  Proof.
    intros L H r c Hr Hc. unfold madj, perm_mat. assert (E : bits_eqb c (f r) = bits_eqb r (f c)).
    { apply bool_iff. rewrite !bits_eqb_spec. split; intros ->; symmetry; apply H; assumption. }
    rewrite E. destruct (bits_eqb r (f c)); [apply cconj_1|apply cconj_0].
  Qed.
  Lemma perm_unitary n f : (forall b, length b = n -> length (f b) = n) -> (forall b, length b = n -> f (f b) = b) ->
    unitary n (@perm_mat K f).
  Proof.
    intros L H.
    assert (E : meq n (mmul n (perm_mat f) (perm_mat f)) (@mone K)).
    { eapply meq_trans; [now apply perm_mul|]. intros r c _ Hc. unfold perm_mat, mone. now rewrite H. }
    split.
    - eapply meq_trans; [apply mmul_meq; [now apply perm_adj|apply meq_refl]|exact E].
    - eapply meq_trans; [apply mmul_meq; [apply meq_refl|now apply perm_adj]|exact E].
  Qed.
  Lemma madj_mul n (A B : mat K) : meq n (madj (mmul n A B)) (mmul n (madj B) (madj A)).
  Proof.
    intros r c _ _. unfold madj, mmul. rewrite sumbits_conj. apply sumbits_ext. intros k _. rewrite cconj_mul. ring.
  Qed.
  Lemma madj_ext n (A B : mat K) : meq n A B -> meq n (madj A) (madj B).
  Proof. intros H r c Hr Hc. unfold madj. now rewrite H. Qed.
  Lemma unitary_mul n (A B : mat K) : unitary n A -> unitary n B -> unitary n (mmul n A B).
  Proof.
    intros [A1 A2] [B1 B2]. split.
    - eapply meq_trans; [apply mmul_meq; [apply madj_mul|apply meq_refl]|].
      eapply meq_trans; [apply meq_sym, mmul_assoc|].
      eapply meq_trans; [apply mmul_meq; [apply meq_refl|]; eapply meq_trans; [apply mmul_assoc|]; apply mmul_meq; [exact A1|apply meq_refl]|].
      eapply meq_trans; [apply mmul_meq; [apply meq_refl|apply mmul_one_l]|exact B1].
    - eapply meq_trans; [apply mmul_meq; [apply meq_refl|apply madj_mul]|].
      eapply meq_trans; [apply meq_sym, mmul_assoc|].
      eapply meq_trans; [apply mmul_meq; [apply meq_refl|]; eapply meq_trans; [apply mmul_assoc|]; apply mmul_meq; [exact B2|apply meq_refl]|].
      eapply meq_trans; [apply mmul_meq; [apply meq_refl|apply mmul_one_l]|exact A2].
  Qed.
  Lemma unitary_ext n (A B : mat K) : meq n A B -> unitary n A -> unitary n B.
  Proof.
    intros E [H G]. split.
    - eapply meq_trans; [apply meq_sym, mmul_meq; [apply madj_ext; exact E|exact E]|exact H].
    - eapply meq_trans; [apply meq_sym, mmul_meq; [exact E|apply madj_ext; exact E]|exact G].
  Qed.
  Lemma unitary_one n : unitary n (@mone K).
  Proof.
    assert (E : meq n (madj mone) (@mone K)).
    { intros r c _ _. unfold madj, mone. rewrite bits_eqb_sym. destruct (bits_eqb r c); [apply cconj_1|apply cconj_0]. }
    split.
    - eapply meq_trans; [apply mmul_meq; [exact E|apply meq_refl]|apply mmul_one_l].
    - eapply meq_trans; [apply mmul_meq; [apply meq_refl|exact E]|apply mmul_one_l].
  Qed.
  Lemma run_unitary n (l : list (cgate K)) : (forall g, In g l -> gate_unitary n g) -> forall m, unitary n m ->
    exists m', apply_all n l (Some m) = Some m' /\ unitary n m'.
  Proof.
    induction l as [|g l IH]; intros H m U; [exists m; split; [reflexivity|exact U]|].
    assert (G : exists m1, apply n m g = Some m1 /\ unitary n m1).
    { specialize (H g (or_introl eq_refl)). destruct g as [g i | cs j].
      - destruct H as [Hi Hg]. destruct (mult_sqg n i g Hi m) as [m1 [E M]]. exists m1. split; [exact E|].
        eapply unitary_ext; [apply meq_sym; exact M|]. apply unitary_mul; [now apply at1_unitary|exact U].
      - destruct H as [Hj [Hc Hn]]. destruct (mult_held n cs j Hj Hc Hn m) as [m1 [E M]]. exists m1. split; [exact E|].
        eapply unitary_ext; [apply meq_sym; exact M|]. apply unitary_mul; [|exact U].
        apply perm_unitary; [intros b Lb; now rewrite flip_length|intros b Lb; now apply (flip_twice n)]. }
    destruct G as [m1 [E1 U1]]. destruct (IH (fun g' Hg' => H g' (or_intror Hg')) m1 U1) as [m' [E' U']].
    exists m'. split; [|exact U']. unfold apply_all in *. cbn [fold_left]. rewrite E1. exact E'.
  Qed.
End Methods.
