(** The BFGS step and run, and the L-BFGS direction. *)
From Coq Require Import Bool List Arith QArith Qabs Qminmax Lia Lqa Setoid.
From Verif Require Import AcseModel AcseSpec AcseProofs2 BfgsModel BfgsSpec BfgsProofs.
Import ListNotations.
Local Open Scope Q_scope.

Lemma entry_vsub a b i : length a = length b -> entry (vsub a b) i == entry a i - entry b i.
Proof.
  unfold entry. revert b i. induction a; intros [|y b] [|i] L; cbn [length] in L; try discriminate; cbn [vsub nth]; try ring.
  apply IHa. lia.
Qed.
Lemma entry_vscale c a i : entry (vscale c a) i == c * entry a i.
Proof. unfold entry, vscale. revert i. induction a; intros [|i]; cbn [map nth]; try ring. apply IHa. Qed.
Lemma veq_entry a b i : veq a b -> entry a i == entry b i.
Proof. unfold entry. intro H. revert i. induction H; intros [|i]; cbn [nth]; try reflexivity; [assumption|apply IHForall2]. Qed.

Lemma update_upd iter Bi g0 p alp g1 Bi' : bfgs_update iter Bi g0 p alp g1 = Some Bi' ->
  let y := vsub g1 g0 in let s := vscale alp p in let n := length y in
  ~ dot y s == 0 /\
  Bi' = upd n (if Nat.eqb iter 0 then mscale (dot y s / dot y y) (ident n) else Bi) s y.
Proof.
  unfold bfgs_update. cbn zeta. destruct (Nat.eqb iter 0).
  - destruct (Qeq_bool (dot (vsub g1 g0) (vsub g1 g0)) 0); [discriminate|].
    destruct (Qeq_bool (dot (vsub g1 g0) (vscale alp p)) 0) eqn:E; [discriminate|]. intro H.
    assert (SI : forall x y : mat, Some x = Some y -> x = y) by congruence. apply SI in H. split; [|symmetry; exact H].
    intro Z. apply Qeq_bool_iff in Z. congruence.
  - destruct (Qeq_bool (dot (vsub g1 g0) (vscale alp p)) 0) eqn:E; [discriminate|]. intro H.
    assert (SI : forall x y : mat, Some x = Some y -> x = y) by congruence. apply SI in H. split; [|symmetry; exact H].
    intro Z. apply Qeq_bool_iff in Z. congruence.
Qed.

Lemma square_scaled n c : square n (mscale c (ident n)).
Proof. apply square_mscale, square_ident. Qed.
Lemma form_scaled n c u v : length u = n -> length v = n -> dot u (mv (mscale c (ident n)) v) == c * dot u v.
Proof.
  intros Lu Lv. rewrite (dot_veq u u _ (vscale c v) (veq_refl u)); [apply dot_vscale_r|].
  eapply veq_trans; [apply mv_mscale|]. apply vscale_veq; [reflexivity|]. apply mv_ident. exact Lv.
Qed.
Lemma symmetric_scaled n c : symmetric n (mscale c (ident n)).
Proof.
  intros u v Lu Lv. rewrite !form_dot by (try apply square_scaled; assumption). rewrite !form_scaled by assumption.
  rewrite dot_comm. reflexivity.
Qed.
Lemma positive_scaled n c : 0 < c -> positive n (mscale c (ident n)).
Proof.
  intros Hc v Lv Nv. rewrite form_dot by (try apply square_scaled; assumption). rewrite form_scaled by assumption.
  assert (H := nonzero_pos n v Lv Nv). nra.
Qed.
Lemma ident_scaled n u v : length u = n -> length v = n -> dot u (mv (ident n) v) == dot u v.
Proof. intros Lu Lv. apply dot_veq; [apply veq_refl|apply mv_ident; exact Lv]. Qed.

Lemma upd_symmetric n B s y : square n B -> length s = n -> length y = n -> symmetric n B -> symmetric n (upd n B s y).
Proof.
  intros HB Ls Ly HS u v Lu Lv.
  rewrite !form_dot by (try apply square_upd; assumption). rewrite !dot_upd by assumption.
  set (rho := 1 / dot y s).
  assert (L1 : length (shear rho s y u) = n) by (rewrite shear_length; congruence).
  assert (L2 : length (shear rho s y v) = n) by (rewrite shear_length; congruence).
  assert (E := HS _ _ L1 L2). rewrite !form_dot in E by assumption. rewrite E. ring.
Qed.
Lemma upd_positive n B s y : square n B -> length s = n -> length y = n -> positive n B -> 0 < dot y s ->
  positive n (upd n B s y).
Proof.
  intros HB Ls Ly HP C v Lv Nv. rewrite form_dot by (try apply square_upd; assumption). rewrite dot_upd by assumption.
  set (rho := 1 / dot y s). assert (R : 0 < rho) by (unfold rho; apply Qlt_shift_div_l; lra).
  set (w := shear rho s y v). assert (Lw : length w = n) by (unfold w; rewrite shear_length; congruence).
  assert (NN : 0 <= dot w (mv B w)).
  { destruct (Qlt_le_dec 0 (dot w w)) as [P|P].
    - assert (H := HP w Lw (pos_nonzero n w Lw P)). rewrite form_dot in H by assumption. lra.
    - assert (Z : dot w w == 0) by (assert (N := dot_nonneg w); lra). rewrite (dot_zero_r w _ (dot_zero w Z)). lra. }
  destruct (Qeq_dec (dot s v) 0) as [E|E].
  - assert (V : veq w v).
    { unfold w, shear. apply veq_nth; [apply vsub_length; rewrite vscale_length; congruence|]. intros i _.
      change (entry (vsub v (vscale (rho * dot s v) y)) i == entry v i).
      rewrite entry_vsub by (rewrite vscale_length; congruence). rewrite entry_vscale, E. ring. }
    assert (H := HP v Lv Nv). rewrite form_dot in H by assumption.
    rewrite (dot_veq w v _ _ V (mv_veq B w v V)), E. assert (rho * 0 * 0 == 0) by ring. lra.
  - assert (0 < dot s v * dot s v).
    { assert (N := Qsquare (dot s v)). destruct (Qeq_dec (dot s v * dot s v) 0) as [Z|Z]; [|lra].
      apply Qmult_integral in Z. tauto. }
    assert (0 < rho * dot s v * dot s v) by nra. lra.
Qed.

Section Step.
  Variables (n iter : nat) (Bi : mat) (g0 p : vec) (alp : Q) (g1 : vec) (Bi' : mat).
  Hypotheses (HB : square n Bi) (L0 : length g0 = n) (Lp : length p = n) (L1 : length g1 = n)
    (HU : bfgs_update iter Bi g0 p alp g1 = Some Bi').
  Let y := vsub g1 g0.
  Let s := vscale alp p.
  Let B0 := if Nat.eqb iter 0 then mscale (dot y s / dot y y) (ident n) else Bi.
  Lemma step_y : length y = n. Proof. unfold y. rewrite vsub_length; congruence. Qed.
  Lemma step_s : length s = n. Proof. unfold s. rewrite vscale_length; congruence. Qed.
  Lemma step_upd : ~ dot y s == 0 /\ Bi' = upd n B0 s y.
  Proof. destruct (update_upd _ _ _ _ _ _ _ HU) as [A E]. fold y s in A, E. rewrite step_y in E. split; assumption. Qed.
  Lemma step_B0 : square n B0.
  Proof. unfold B0. destruct (Nat.eqb iter 0); [apply square_scaled|exact HB]. Qed.
  Lemma step_square : square n Bi'.
  Proof. rewrite (proj2 step_upd). apply square_upd; [exact step_B0|exact step_s|exact step_y]. Qed.
  Lemma step_secant : maps_to n Bi' (fun i => entry g1 i - entry g0 i) (fun i => alp * entry p i).
  Proof.
    intros i Hi. destruct step_upd as [N E]. assert (V := upd_secant n B0 s y step_B0 step_s step_y N).
    rewrite <- E in V. apply (veq_entry _ _ i) in V. unfold s in V. rewrite entry_vscale in V. rewrite <- V.
    rewrite (mv_entry n) by (try exact step_square; try exact step_y; exact Hi). apply inner_congr; intros j Hj; [reflexivity|].
    unfold y. rewrite entry_vsub by congruence. reflexivity.
  Qed.
  Lemma step_symmetric : symmetric n Bi \/ iter = 0%nat -> symmetric n Bi'.
  Proof.
    intro H. rewrite (proj2 step_upd). apply upd_symmetric; [exact step_B0|exact step_s|exact step_y|].
    unfold B0. destruct (Nat.eqb_spec iter 0); [apply symmetric_scaled|]. tauto.
  Qed.
  Lemma step_positive : positive n Bi \/ iter = 0%nat -> 0 < dot y s -> positive n Bi'.
  Proof.
    intros H C. rewrite (proj2 step_upd). apply upd_positive; [exact step_B0|exact step_s|exact step_y| |exact C].
    unfold B0. destruct (Nat.eqb_spec iter 0); [|tauto]. apply positive_scaled. apply Qlt_shift_div_l; [|lra].
    assert (N := dot_nonneg y). destruct (Qeq_dec (dot y y) 0) as [Z|Z]; [|lra].
    assert (X := dot_zero_r y s (dot_zero y Z)). lra.
  Qed.
End Step.

Lemma update_defined iter Bi g0 p alp g1 : 0 < dot (vsub g1 g0) (vscale alp p) ->
  exists Bi', bfgs_update iter Bi g0 p alp g1 = Some Bi'.
Proof.
  intro C. unfold bfgs_update. cbn zeta.
  replace (Qeq_bool (dot (vsub g1 g0) (vscale alp p)) 0) with false.
  2:{ symmetry. apply not_true_is_false. intro H. apply Qeq_bool_iff in H. lra. }
  destruct (Nat.eqb iter 0); [|eexists; reflexivity].
  replace (Qeq_bool (dot (vsub g1 g0) (vsub g1 g0)) 0) with false; [eexists; reflexivity|].
  symmetry. apply not_true_is_false. intro H. apply Qeq_bool_iff in H.
  assert (X := dot_zero_r (vsub g1 g0) (vscale alp p) (dot_zero _ H)). lra.
Qed.

Section Run.
  Variables (n : nat) (c2 : Q) (trunc : vec -> vec -> vec) (line : nat -> vec -> vec -> line_out).
  Hypothesis Hc2 : c2 < 1.
  Hypothesis Htrunc : forall p g, length p = n -> length g = n -> ip n g p < 0 ->
    length (trunc p g) = n /\ ip n g (trunc p g) < 0.
  Hypothesis Hline : forall k g p, length g = n -> length p = n -> ip n g p < 0 -> l_err (line k g p) = false ->
    weak_step n c2 (l_alp (line k g p)) g p (l_grad (line k g p)).
  Definition good (a : bfgs) : Prop :=
    square n (b_Bi a) /\ symmetric n (b_Bi a) /\ positive n (b_Bi a) /\ length (b_grad a) = n /\ nonzero n (b_grad a).
  Lemma good_init g : length g = n -> nonzero n g -> good (bfgs_init g).
  Proof.
    intros L N. unfold good, bfgs_init. cbn [b_Bi b_grad]. rewrite L. split; [apply square_ident|]. split; [|split; [|split; [first [reflexivity|assumption]|assumption]]].
    - intros u v Lu Lv. rewrite !form_dot by (first [assumption | apply square_ident]). rewrite !ident_scaled by assumption.
      apply dot_comm.
    - intros v Lv Nv. rewrite form_dot by (first [assumption | apply square_ident]). rewrite ident_scaled by assumption.
      apply (nonzero_pos n); assumption.
  Qed.
  Lemma good_dir a : good a -> length (bfgs_dir trunc a) = n /\ ip n (b_grad a) (bfgs_dir trunc a) < 0.
  Proof.
    intros (HB & HS & HP & L & N). unfold bfgs_dir.
    assert (Lm : length (mv (b_Bi a) (b_grad a)) = n) by (rewrite mv_length; apply HB).
    apply Htrunc; [rewrite vopp_length; exact Lm|exact L|].
    rewrite <- dot_ip by (rewrite ?vopp_length; assumption). rewrite dot_vopp_r.
    assert (H := HP _ L N). rewrite form_dot in H by assumption. lra.
  Qed.
  Lemma curvature_pos alp g p g1 : length g = n -> length p = n -> ip n g p < 0 -> weak_step n c2 alp g p g1 ->
    0 < dot (vsub g1 g) (vscale alp p).
  Proof.
    intros Lg Lp D (A & L1 & _ & W). unfold weak_curvature in W. rewrite dot_vscale_r, dot_vsub by congruence.
    rewrite !(dot_ip n) by assumption. assert (0 < (c2 - 1) * ip n g p) by nra. assert (0 < ip n g1 p - ip n g p) by lra. nra.
  Qed.
  Lemma good_step a : good a -> exists a', bfgs_step trunc line a = Some a' /\ good a'.
  Proof.
    intro Ga. destruct (good_dir a Ga) as [Lp D]. destruct Ga as (HB & HS & HP & L & N).
    unfold bfgs_step. set (p := bfgs_dir trunc a) in *. cbn zeta.
    destruct (l_err (line (b_iter a) (b_grad a) p)) eqn:E.
    - eexists. split; [reflexivity|]. unfold good. cbn [b_Bi b_grad]. tauto.
    - assert (W := Hline (b_iter a) (b_grad a) p L Lp D E).
      assert (C := curvature_pos _ _ _ _ L Lp D W). destruct W as (A & L1 & N1 & _).
      destruct (update_defined (b_iter a) (b_Bi a) (b_grad a) p _ _ C) as [B' HU]. rewrite HU. eexists. split; [reflexivity|].
      unfold good. cbn [b_Bi b_grad].
      split; [exact (step_square n _ _ _ _ _ _ _ HB L Lp L1 HU)|].
      split; [exact (step_symmetric n _ _ _ _ _ _ _ HB L Lp L1 HU (or_introl HS))|].
      split; [exact (step_positive n _ _ _ _ _ _ _ HB L Lp L1 HU (or_introl HP) C)|]. split; assumption.
  Qed.
  Lemma good_run k a : good a -> exists a' log, bfgs_run trunc line k a = Some (a', log) /\ good a' /\
    (forall g p, In (g, p) log -> length p = n /\ ip n g p < 0).
  Proof.
    revert a. induction k as [|k IH]; intros a Ga; cbn [bfgs_run].
    - exists a, []. split; [reflexivity|]. split; [exact Ga|intros g p []].
    - destruct (b_done a). { exists a, []. split; [reflexivity|]. split; [exact Ga|intros g p []]. }
      destruct (good_step a Ga) as (a' & E & Ga'). rewrite E. destruct (IH a' Ga') as (a'' & log & E2 & G2 & H).
      rewrite E2. exists a''. eexists. split; [reflexivity|]. split; [exact G2|].
      intros g p [X | I]; [|apply H; exact I]. injection X as <- <-. apply good_dir. exact Ga.
  Qed.
End Run.

(** * First trial step *)
Lemma first_trial_range lo eps hist : 0 < lo <= 1 -> lo <= first_trial lo eps hist <= 1.
Proof.
  intros [Hl H1]. assert (C : forall a, lo <= Qmax lo (Qmin 1 a) <= 1).
  { intro a. split; [apply Q.le_max_l|]. apply Q.max_lub; [exact H1|apply Q.le_min_l]. }
  unfold first_trial. destruct hist as [[de d1]|]; [|apply C]. destruct (Qeq_bool d1 0); [|apply C].
  destruct (Qltb 0 de); [|apply C]. split; [apply Q.le_max_l|]. apply Q.max_lub; lra.
Qed.

(** * L-BFGS with at most one stored pair *)
Lemma lb_none m g1 s_k y_k r : lb_direction m (MkLb [] [] []) g1 s_k y_k = Some r ->
  r = vscale (1 / (1 / dot s_k y_k * dot y_k y_k)) g1.
Proof.
  unfold lb_direction. cbn [lb_s lb_y lb_rho combine rev firstn lb_first]. rewrite firstn_nil. cbn [lb_first].
  destruct (_ || _); [discriminate|]. cbn [combine rev lb_second]. congruence.
Qed.
Lemma lb_one n m g1 s_k y_k s y r : length g1 = n -> length s = n -> length y = n ->
  (1 <= m)%nat -> 0 < dot y s -> 0 < dot s_k y_k ->
  lb_direction m (MkLb [s] [y] [1 / dot y s]) g1 s_k y_k = Some r ->
  let c := 1 / (1 / dot s_k y_k * dot y_k y_k) in
  0 < c /\ veq r (mv (upd n (mscale c (ident n)) s y) g1).
Proof.
  intros Lg Ls Ly Hm C Ck. destruct m as [|m]; [lia|]. unfold lb_direction.
  cbn [lb_s lb_y lb_rho combine rev app firstn last]. rewrite firstn_nil. cbn [lb_first].
  destruct (Qeq_bool (dot s_k y_k) 0 || Qeq_bool (dot y_k y_k) 0) eqn:Z; [discriminate|].
  apply orb_false_iff in Z. destruct Z as [_ Z]. cbn [rev app lb_second]. intro H.
  assert (SI : forall x y : vec, Some x = Some y -> x = y) by congruence. apply SI in H. cbn zeta.
  set (c := 1 / (1 / dot s_k y_k * dot y_k y_k)) in *. set (rho := 1 / dot y s) in *.
  assert (Y : 0 < dot y_k y_k).
  { assert (N := dot_nonneg y_k). destruct (Qeq_dec (dot y_k y_k) 0) as [E|E]; [|lra]. apply Qeq_bool_iff in E. congruence. }
  assert (Hc : 0 < c).
  { unfold c. apply Qlt_shift_div_l; [|lra]. assert (0 < 1 / dot s_k y_k) by (apply Qlt_shift_div_l; lra). nra. }
  split; [exact Hc|]. apply veq_sym. eapply veq_trans; [apply mv_upd; try assumption; apply square_scaled|]. fold rho.
  set (q := shear rho s y g1). assert (Lq : length q = n) by (unfold q; rewrite shear_length; congruence).
  assert (E1 : veq (mv (mscale c (ident n)) q) (vscale c q)).
  { eapply veq_trans; [apply mv_mscale|]. apply vscale_veq; [reflexivity|]. apply mv_ident. exact Lq. }
  subst r. change (vsub g1 (vscale (rho * dot s g1) y)) with q. set (a := rho * dot s g1).
  set (w := vscale c q) in *. assert (Lw : length w = n) by (unfold w; rewrite vscale_length; exact Lq).
  assert (Lm : length (mv (mscale c (ident n)) q) = n) by (rewrite mv_length; apply square_scaled).
  apply veq_nth.
  { rewrite !vadd_length; rewrite ?shear_length, ?vscale_length; congruence. }
  intros i _.
  assert (EA : forall u v j, length u = length v -> nth j (vadd u v) 0 == nth j u 0 + nth j v 0).
  { clear. intros u. induction u; intros [|b v] [|j] L; cbn [length] in L; try discriminate; cbn [vadd nth]; try ring. apply IHu. lia. }
  rewrite !EA by (rewrite ?shear_length, ?vscale_length; congruence).
  assert (X1 := entry_vscale a s i). assert (X2 := entry_vscale (a - rho * dot y w) s i).
  unfold shear. assert (X3 := entry_vsub (mv (mscale c (ident n)) q) (vscale (rho * dot y (mv (mscale c (ident n)) q)) s) i).
  rewrite vscale_length in X3. specialize (X3 ltac:(congruence)).
  assert (X4 := entry_vscale (rho * dot y (mv (mscale c (ident n)) q)) s i). unfold entry in *.
  rewrite X1, X2, X3, X4. assert (X5 := veq_entry _ _ i E1). unfold entry in X5. rewrite X5.
  rewrite (dot_veq y y _ _ (veq_refl y) E1). ring.
Qed.
