(** Gradients of the two solvers, and the excitation chosen by the adaptive solver. *)
From Coq Require Import Bool List Arith QArith Reals Lra Lia.
From Verif Require Import Coeff MatSpec MatLemmas AdjProofs OpSpec FockSpec CircuitSpec CircuitModel CircuitProofs CircuitProofs2 ComplexR PauliModel TomoModel
  QuantSpec QuantProofs QuantProofs2 RdmModel RdmSpec HamModel HamSpec TransformModel VqeModel VqeSpec StoreModel StoreProofs PlanModel PlanSpec PlanProofs2 PlanProofs3 PlanProofs4 PlanProofs5 ConsSpec ConsModel ConsProofs ConsProofs3 ConsProofs4 EulerProofs EulerProofs3 AdaptModel AdaptProofs AdCircModel AdCircSpec AdaptProofs4 RotSpec RotProofs RotProofs2 TrigSpec TrigProofs GradModel TrigProofs2.
Import ListNotations.
Local Open Scope nat_scope.
Local Open Scope R_scope.

Lemma proper_sized simp : proper simp -> sized simp.
Proof. destruct simp as [rel colour|]; [intros [_ H] ps; apply H|trivial]. Qed.
Section Gradients.
  Variables (depth No a b : nat) (tiny : Cx -> bool) (simp : simplify_option) (imag : bool) (w : Cx) (h : nat -> nat -> Cx) (V : nat -> nat -> nat -> nat -> Cx) (en_c : Cx).
  Hypothesis D0 : (0 < depth)%nat.
  Hypothesis HA : (a <= No)%nat.
  Hypothesis HB : (b <= No)%nat.
  Hypothesis Ht : forall x, tiny x = true -> x = c0.
  Hypothesis Sz : proper simp.
  Hypothesis RD : real_data (a + b) w h V.
  Let en := ansatz_energy (2 * No) depth (ham (2 * No) h V) (reference_bits No a b).
  Lemma ref_length : length (reference_bits No a b) = (2 * No)%nat.
  Proof. unfold reference_bits. rewrite !app_length, !repeat_length. lia. Qed.
  Theorem adapt_gradient (terms : list (list nat)) (E : list R -> R) x i :
    (forall k, In k terms -> ansatz_term No k) -> length terms = length x -> (i < length x)%nat ->
    (forall y prep t, ad_circuit depth No a b terms (reals y) = Some prep -> tomography Crt tiny jw_operator simp 2 true imag No prep = Some t ->
       E y = fst (evaluate (2 * No) (build_K2 (2 * No) w h V) en_c t)) ->
    exists d C, derivable_pt_lim (fun y => en (combine terms (reals (put i y x)))) (nth i x 0) d /\
      forall diff, 0 < diff ->
        (usable (2 * No) (combine terms (reals x)) -> usable (2 * No) (combine terms (reals (put i (nth i x 0 + diff) x))) ->
         Rabs (nth i (real_gradient E true diff x) 0 - d) <= C * diff) /\
        (usable (2 * No) (combine terms (reals (put i (nth i x 0 + diff) x))) -> usable (2 * No) (combine terms (reals (put i (nth i x 0 - diff) x))) ->
         Rabs (nth i (real_gradient E false diff x) 0 - d) <= C * (diff * diff)).
  Proof.
    intros HK LL Li HE.
    destruct RD as [Hw [Iw [Ih [Sh [IV [S1 S2]]]]]].
    assert (EV : forall y, usable (2 * No) (combine terms (reals y)) -> E y = en (combine terms (reals y)) + fst en_c).
    { intros y U. destruct (adapt_rotations depth No a b terms (reals y) D0 HA HB (usable_small _ _ U) (fun t I => term_length No t (HK t I))) as [prep [z [EP _]]].
      destruct (tomography_returns Cx Crt Crt_sq crt_real tiny Ht cx_exact simp 2 true imag No prep ltac:(lia) eq_refl Sz) as [t T].
      rewrite (HE y prep t EP T). exact (adapt_energy depth No a b tiny simp imag w h V en_c D0 HA HB Ht (proper_sized _ Sz) Hw Iw Ih Sh IV S1 S2 terms y prep t HK U EP T). }
    destruct (gradient_close (2 * No) depth (ham (2 * No) h V) (reference_bits No a b) terms E (fst en_c) x i D0 ref_length Li ltac:(lia)) as [d [C [D B]]].
    exists d, C. split; [exact D|]. intros diff Hd. destruct (B diff Hd) as [B1 B2]. rewrite (rbump_put i diff x Li) in B1, B2. rewrite (rbump_put i (- diff) x Li) in B2.
    replace (nth i x 0 + - diff) with (nth i x 0 - diff) in B2 by ring.
    split; intros U1 U2; [apply B1|apply B2]; apply EV; assumption.
  Qed.
  Theorem vqe_gradient s d tr q (L : list (list nat)) (E : list R -> R) x i : ucc s d tr q (seq 0 No) (seq No No) (seq 0 a ++ seq No b) = Some L ->
    length L = length x -> (i < length x)%nat ->
    (forall y prep t, vqe_circuit depth s d tr q No a b (reals y) = Some prep -> tomography Crt tiny jw_operator simp 2 true imag No prep = Some t ->
       E y = fst (evaluate (2 * No) (build_K2 (2 * No) w h V) en_c t)) ->
    let above (l : list R) := forall y, In y l -> y = 0 \/ / 10 ^ 10 <= Rabs y in
    exists d C, derivable_pt_lim (fun y => en (combine L (reals (put i y x)))) (nth i x 0) d /\
      forall diff, 0 < diff ->
        (above x -> above (put i (nth i x 0 + diff) x) -> Rabs (nth i (real_gradient E true diff x) 0 - d) <= C * diff) /\
        (above (put i (nth i x 0 + diff) x) -> above (put i (nth i x 0 - diff) x) -> Rabs (nth i (real_gradient E false diff x) 0 - d) <= C * (diff * diff)).
  Proof.
    intros HU LL Li HE above.
    destruct RD as [Hw [Iw [Ih [Sh [IV [S1 S2]]]]]].
    assert (O : negb s && (tr || q) = false) by (unfold ucc in HU; destruct (negb s && (tr || q)); [discriminate|reflexivity]).
    assert (EV : forall y, above y -> E y = en (combine L (reals y)) + fst en_c).
    { intros y U. destruct (vqe_rotations depth s d tr q No a b (reals y) D0 HA HB O (reals_ok y)) as [L' [prep [z [_ [EP _]]]]].
      destruct (tomography_returns Cx Crt Crt_sq crt_real tiny Ht cx_exact simp 2 true imag No prep ltac:(lia) eq_refl Sz) as [t T].
      rewrite (HE y prep t EP T). exact (vqe_energy depth No a b tiny simp imag w h V en_c D0 HA HB Ht (proper_sized _ Sz) Hw Iw Ih Sh IV S1 S2 s d tr q y L prep t HU U EP T). }
    destruct (gradient_close (2 * No) depth (ham (2 * No) h V) (reference_bits No a b) L E (fst en_c) x i D0 ref_length Li ltac:(lia)) as [d' [C [D B]]].
    exists d', C. split; [exact D|]. intros diff Hd. destruct (B diff Hd) as [B1 B2]. rewrite (rbump_put i diff x Li) in B1, B2. rewrite (rbump_put i (- diff) x Li) in B2.
    replace (nth i x 0 + - diff) with (nth i x 0 - diff) in B2 by ring.
    split; intros U1 U2; [apply B1|apply B2]; apply EV; assumption.
  Qed.
End Gradients.

(** The excitation chosen by the adaptive solver. *)
Lemma combine_app_last {A B} (l : list A) (m : list B) x y : length l = length m -> combine (l ++ [x]) (m ++ [y]) = combine l m ++ [(x, y)].
Proof. revert m. induction l as [|u l IH]; intros [|v m] H; try discriminate; [reflexivity|]. cbn [app combine]. f_equal. apply IH. cbn in H. lia. Qed.
Theorem steepest N depth (H : mat Cx) ref keys r (s s' : adapt Cx) : (0 < depth)%nat -> length ref = N -> meq N (madj H) H ->
  length (ad_terms s) = length (ad_para s) -> length (re_abs r) = length keys ->
  let l := combine (ad_terms s) (ad_para s) in
  let res k := fst (expect N (comm N (excite (Nat.div2 (length k)) k) H) (ansatz_state N depth ref l)) in
  (forall i j, (i < length keys)%nat -> (j < length keys)%nat -> (nth j (re_abs r) 0 <= nth i (re_abs r) 0)%Q -> Rabs (res (nth j keys [])) <= Rabs (res (nth i keys []))) ->
  ad_grow true keys r s = Some s' ->
  exists k d, In k keys /\ combine (ad_terms s') (ad_para s') = l ++ [(k, c0)] /\
    derivable_pt_lim (fun y => ansatz_energy N depth H ref (l ++ [(k, ((y, 0) : Cx))])) 0 d /\
    forall k' d', In k' keys -> derivable_pt_lim (fun y => ansatz_energy N depth H ref (l ++ [(k', ((y, 0) : Cx))])) 0 d' -> Rabs d' <= Rabs d.
Proof.
  intros D0 Lr Hh LL LK l res RK G. unfold ad_grow in G. destruct (argmax (re_abs r)) as [i|] eqn:EA; [|discriminate]. destruct (nth_error keys i) as [k|] eqn:EK; [|discriminate].
  injection G as <-. cbn [ad_terms ad_para]. destruct (argmax_spec _ _ EA) as [Li [MX _]]. rewrite LK in Li, MX.
  exists k, (- (2 * res k) / INR depth). split; [eapply nth_error_In; exact EK|]. split; [apply combine_app_last; exact LL|]. split; [exact (slope N depth H ref l k D0 Lr Hh)|].
  intros k' d' I D. assert (U : d' = - (2 * res k') / INR depth) by exact (uniqueness_limite _ _ _ _ D (slope N depth H ref l k' D0 Lr Hh)).
  destruct (In_nth _ _ [] I) as [j [Lj Ej]]. pose proof (RK i j Li Lj (MX j Lj)) as X. rewrite (nth_error_nth _ _ [] EK), Ej in X.
  rewrite U. unfold Rdiv. rewrite !Rabs_mult, !Rabs_Ropp, !Rabs_mult. apply Rmult_le_compat_r; [apply Rabs_pos|]. apply Rmult_le_compat_l; [apply Rabs_pos|exact X].
Qed.
(** A nonzero slope is a descent direction. *)
Lemma descent (f : R -> R) d : derivable_pt_lim f 0 d -> d <> 0 -> exists e, 0 < e /\ forall y, Rabs y < e -> y * d < 0 -> f y < f 0.
Proof.
  intros D Hd. destruct (D (Rabs d)) as [[e He] Q]; [apply Rabs_pos_lt; exact Hd|]. exists e. split; [exact He|]. intros y Y S.
  assert (Y0 : y <> 0) by (intros ->; lra). specialize (Q y Y0 Y). rewrite Rplus_0_l in Q.
  set (g := (f y - f 0) / y) in *. assert (F : f y - f 0 = g * y) by (unfold g; field; exact Y0).
  assert (g * y < 0); [|lra]. revert Q. unfold Rabs. destruct (Rcase_abs (g - d)), (Rcase_abs d); intro Q; nra.
Qed.
Theorem new_descent N depth (H : mat Cx) ref l k : (0 < depth)%nat -> length ref = N -> meq N (madj H) H ->
  fst (expect N (comm N (excite (Nat.div2 (length k)) k) H) (ansatz_state N depth ref l)) <> 0 ->
  exists e, 0 < e /\ forall y, Rabs y < e -> 0 < y * fst (expect N (comm N (excite (Nat.div2 (length k)) k) H) (ansatz_state N depth ref l)) ->
    ansatz_energy N depth H ref (l ++ [(k, ((y, 0) : Cx))]) < ansatz_energy N depth H ref l.
Proof.
  intros D0 Lr Hh NZ. set (c := fst (expect N (comm N (excite (Nat.div2 (length k)) k) H) (ansatz_state N depth ref l))) in *. pose proof (slope N depth H ref l k D0 Lr Hh) as S. fold c in S.
  assert (P : 0 < / INR depth) by (apply Rinv_0_lt_compat, lt_0_INR; exact D0).
  destruct (descent _ _ S) as [e [He Q]]; [unfold Rdiv; intro Z; apply Rmult_integral in Z; destruct Z as [Z|Z]; [apply NZ; lra|lra]|].
  exists e. split; [exact He|]. intros y Y Pos. specialize (Q y Y).
  assert (X : ansatz_energy N depth H ref (l ++ [(k, ((0, 0) : Cx))]) = ansatz_energy N depth H ref l).
  { unfold ansatz_energy. f_equal. apply EulerProofs.expect_state. intros x Lx. unfold ansatz_state. refine (un _ _ _ _ x ref Lx Lr).
    rewrite rotations_app. cbn [rotations fst]. rewrite <- (mul1l N (rotations N depth l)) at 2. apply mmul_proper; [|reflexivity].
    transitivity (mmul N (mone (K := Cx)) mone); [|apply mul1l]. apply mmul_proper; [reflexivity|]. constructor. intros r c0' _ _.
    unfold Rdiv. rewrite Rmult_0_l. unfold rotation, madd, mscal. rewrite sin_0, cos_0, Rminus_diag_eq by reflexivity. apply C_eq; cbn [Cx cadd cmul Cadd Cmul fst snd]; ring. }
  rewrite <- X. apply Q. unfold Rdiv. replace (y * (- (2 * c) * / INR depth)) with (- (2 * (y * c * / INR depth))) by ring. assert (0 < y * c * / INR depth) by (apply Rmult_lt_0_compat; assumption). lra.
Qed.
