(** The BFGS update with guarded denominators. *)
From Coq Require Import Bool List Arith QArith Qabs Lia Lqa Setoid.
From Verif Require Import AcseModel AcseSpec AcseProofs2 BfgsModel BfgsSpec BfgsProofs BfgsProofs2 GBfgsModel.
Import ListNotations.
Local Open Scope Q_scope.

Lemma guard_pos d : 0 <= d -> 0 < guard d.
Proof.
  intro H. unfold guard. destruct (Qltb (Qabs d) tiny) eqn:E.
  - destruct (Qltb d 0) eqn:F; [apply Qltb_lt in F; lra|reflexivity].
  - apply Qltb_ge in E. rewrite Qabs_pos in E by exact H. apply Qlt_le_trans with tiny; [reflexivity|exact E].
Qed.
Lemma guard_id d : tiny <= Qabs d -> guard d = d.
Proof. intro H. unfold guard. apply Qltb_ge in H. rewrite H. reflexivity. Qed.
Lemma tiny_pos : 0 < tiny. Proof. reflexivity. Qed.

(** The inverse update with an arbitrary factor. *)
Section Inv.
  Variables (n : nat) (B : mat) (s y : vec) (rho : Q).
  Hypotheses (HB : square n B) (Ls : length s = n) (Ly : length y = n).
  Definition updr : mat :=
    madd (mm n (msub (ident n) (mscale rho (outer s y))) (mm n B (msub (ident n) (mscale rho (outer y s)))))
      (mscale rho (outer s s)).
  Lemma r_square_shear a b : length a = n -> length b = n -> square n (msub (ident n) (mscale rho (outer a b))).
  Proof. intros. apply square_msub; [apply square_ident|apply square_mscale, square_outer; assumption]. Qed.
  Lemma r_mv_shear a b v : length a = n -> length b = n -> length v = n ->
    veq (mv (msub (ident n) (mscale rho (outer a b))) v) (shear rho b a v).
  Proof.
    intros La Lb Lv. eapply veq_trans.
    { apply (mv_msub n); [apply square_ident|apply square_mscale, square_outer; assumption]. }
    apply vsub_veq; [apply mv_ident; exact Lv|]. eapply veq_trans; [apply mv_mscale|].
    eapply veq_trans; [apply vscale_veq; [reflexivity|apply mv_outer]|]. unfold vscale. rewrite map_map.
    clear. induction a; constructor; [ring|assumption].
  Qed.
  Lemma r_square : square n updr.
  Proof.
    unfold updr. apply square_madd; [|apply square_mscale, square_outer; assumption].
    apply square_mm; [apply r_square_shear; assumption|]. apply square_mm; [exact HB|apply r_square_shear; assumption].
  Qed.
  Lemma r_mv v : length v = n ->
    veq (mv updr v) (vadd (shear rho y s (mv B (shear rho s y v))) (vscale (rho * dot s v) s)).
  Proof.
    intro Lv. unfold updr. eapply veq_trans.
    { apply (mv_madd n); [|apply square_mscale, square_outer; assumption].
      apply square_mm; [apply r_square_shear; assumption|]. apply square_mm; [exact HB|apply r_square_shear; assumption]. }
    apply vadd_veq.
    - eapply veq_trans; [apply mv_mm; apply square_mm; [exact HB|apply r_square_shear; assumption]|].
      assert (E : veq (mv (mm n B (msub (ident n) (mscale rho (outer y s)))) v) (mv B (shear rho s y v))).
      { eapply veq_trans; [apply mv_mm, r_square_shear; assumption|]. apply mv_veq, r_mv_shear; assumption. }
      eapply veq_trans; [apply mv_veq; exact E|]. apply r_mv_shear; try assumption. rewrite mv_length. apply HB.
    - eapply veq_trans; [apply mv_mscale|].
      eapply veq_trans; [apply vscale_veq; [reflexivity|apply mv_outer]|]. unfold vscale. rewrite map_map.
      generalize (dot s v). intro d. generalize s as l. clear. intro l. induction l; constructor; [ring|assumption].
  Qed.
  Lemma r_dot u v : length u = n -> length v = n ->
    dot u (mv updr v) == dot (shear rho s y u) (mv B (shear rho s y v)) + rho * dot s u * dot s v.
  Proof.
    intros Lu Lv. rewrite (dot_veq u u _ _ (veq_refl u) (r_mv v Lv)).
    assert (Lw : length (mv B (shear rho s y v)) = n) by (rewrite mv_length; apply HB).
    set (w := mv B (shear rho s y v)) in *.
    rewrite dot_vadd_r by (rewrite shear_length, vscale_length; congruence). unfold shear at 1 2.
    rewrite dot_vsub_r by (rewrite vscale_length; congruence). rewrite dot_vsub by (rewrite vscale_length; congruence).
    rewrite !dot_vscale_r, !dot_vscale, (dot_comm u s). ring.
  Qed.
  Lemma r_symmetric : symmetric n B -> symmetric n updr.
  Proof.
    intros HS u v Lu Lv.
    rewrite (form_dot n updr u v), (form_dot n updr v u) by (assumption || apply r_square). rewrite !r_dot by assumption.
    assert (L1 : length (shear rho s y u) = n) by (rewrite shear_length; congruence).
    assert (L2 : length (shear rho s y v) = n) by (rewrite shear_length; congruence).
    assert (E := HS _ _ L1 L2). rewrite !form_dot in E by assumption. rewrite E. ring.
  Qed.
  Lemma r_positive : positive n B -> 0 < rho -> positive n updr.
  Proof.
    intros HP R v Lv Nv. rewrite (form_dot n updr) by (assumption || apply r_square). rewrite r_dot by assumption.
    set (w := shear rho s y v). assert (Lw : length w = n) by (unfold w; rewrite shear_length; congruence).
    assert (NN : 0 <= dot w (mv B w)).
    { destruct (Qlt_le_dec 0 (dot w w)) as [P|P].
      - assert (H := HP w Lw (pos_nonzero n w Lw P)). rewrite form_dot in H by assumption. lra.
      - assert (Z : dot w w == 0) by (assert (N := dot_nonneg w); lra). rewrite (dot_zero_r w _ (dot_zero w Z)). lra. }
    destruct (Qeq_dec (dot s v) 0) as [E|E].
    - assert (V : veq w v).
      { unfold w, shear. apply veq_nth; [apply vsub_length; rewrite vscale_length; congruence|]. intros i _.
        change (entry (vsub v (vscale (rho * dot s v) y)) i == entry v i).
        rewrite entry_vsub by (rewrite vscale_length; congruence). rewrite entry_vscale, E. ring. }
      assert (H := HP v Lv Nv). rewrite form_dot in H by assumption.
      rewrite (dot_veq w v _ _ V (mv_veq B w v V)), E. assert (rho * 0 * 0 == 0) by ring. lra.
    - assert (0 < dot s v * dot s v).
      { assert (N := Qsquare (dot s v)). destruct (Qeq_dec (dot s v * dot s v) 0) as [Z|Z]; [|lra].
        apply Qmult_integral in Z. tauto. }
      assert (0 < rho * dot s v * dot s v) by nra. lra.
  Qed.
End Inv.

Lemma gb_inv_updr n B s y : gb_inv n B s y = updr n B s y (1 / guard (dot y s)).
Proof. reflexivity. Qed.

Lemma inv_facts n B s y : square n B -> length s = n -> length y = n -> 0 <= dot y s ->
  square n (gb_inv n B s y) /\ (symmetric n B -> symmetric n (gb_inv n B s y)) /\ (positive n B -> positive n (gb_inv n B s y)).
Proof.
  intros HB Ls Ly C. rewrite gb_inv_updr. split; [apply r_square; assumption|]. split; [apply r_symmetric; assumption|].
  intro P. apply r_positive; try assumption. apply Qlt_shift_div_l; [apply guard_pos; exact C|lra].
Qed.

Lemma inv_secant n B s y : square n B -> length s = n -> length y = n -> tiny <= dot y s ->
  veq (mv (gb_inv n B s y) y) s.
Proof.
  intros HB Ls Ly C. assert (T := tiny_pos). rewrite gb_inv_updr, guard_id by (rewrite Qabs_pos; lra).
  change (updr n B s y (1 / dot y s)) with (upd n B s y). apply upd_secant; try assumption. lra.
Qed.
