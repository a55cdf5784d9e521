(** The conjugate gradient run. *)
From Coq Require Import Bool List Arith QArith Qabs Qminmax Lia Lqa Setoid.
From Verif Require Import AcseModel AcseSpec AcseProofs2 BfgsModel BfgsSpec BfgsProofs BfgsProofs2.
Import ListNotations.
Local Open Scope Q_scope.

Lemma abs_bounds x b : Qabs x <= b <-> - b <= x <= b.
Proof. apply Qabs_Qle_condition. Qed.
Lemma abs_cases x : (0 <= x /\ Qabs x == x) \/ (x <= 0 /\ Qabs x == - x).
Proof.
  destruct (Qlt_le_dec x 0) as [H|H]; [right|left]; (split; [lra|]); [apply Qabs_neg; lra|apply Qabs_pos; exact H].
Qed.
Lemma prod_bound a b A B : Qabs a <= A -> Qabs b <= B -> Qabs (a * b) <= A * B.
Proof.
  intros Ha Hb. rewrite Qabs_Qmult. assert (0 <= Qabs a) by apply Qabs_nonneg. assert (0 <= Qabs b) by apply Qabs_nonneg. nra.
Qed.
Lemma frac_bound a b d k : 0 < d -> Qabs (a * b) <= k * d -> Qabs (a / d * b) <= k.
Proof.
  intros Hd H. apply abs_bounds in H. apply abs_bounds. assert (E : a / d * b == a * b / d) by (field; lra). rewrite E.
  split; [apply Qle_shift_div_l; [exact Hd|lra]|apply Qle_shift_div_r; [exact Hd|lra]].
Qed.

(** [G0], [G1]: squared norms; [t] = g1.p; [u] = g0.p; [x] = g1.g0. *)
Lemma beta_bounds k (g0 g1 p : vec) : length g0 = length g1 -> length p = length g1 ->
  0 < dot g0 g0 -> 0 < dot g1 g1 ->
  (2 # 5) * dot g0 g0 <= - dot g0 p <= (8 # 5) * dot g0 g0 ->
  Qabs (dot g1 p) <= (1 # 4) * Qabs (dot g0 p) -> Qabs (dot g1 g0) <= (1 # 2) * dot g1 g1 ->
  exists b, cg_beta k g0 g1 p = Some b /\ Qabs (b * dot g1 p) <= (3 # 5) * dot g1 g1.
Proof.
  intros L Lp P0 P1 D S X.
  assert (Eu : Qabs (dot g0 p) == - dot g0 p) by (apply Qabs_neg; lra). rewrite Eu in S.
  assert (Y : dot g1 (vsub g1 g0) == dot g1 g1 - dot g1 g0) by (apply dot_vsub_r; congruence).
  assert (Z : dot p (vsub g1 g0) == dot g1 p - dot g0 p)
    by (rewrite dot_vsub_r, (dot_comm p g1), (dot_comm p g0) by congruence; reflexivity).
  assert (N0 : Qeq_bool (dot g0 g0) 0 = false).
  { apply not_true_is_false. intro H. apply Qeq_bool_iff in H. lra. }
  apply abs_bounds in X. assert (S' := S). apply abs_bounds in S'.
  assert (BY : Qabs (dot g1 (vsub g1 g0)) <= (3 # 2) * dot g1 g1) by (apply abs_bounds; lra).
  assert (ST : Qabs (dot g1 p) <= (2 # 5) * dot g0 g0) by lra.
  assert (BPR : Qabs (dot g1 (vsub g1 g0) / dot g0 g0 * dot g1 p) <= (3 # 5) * dot g1 g1).
  { apply frac_bound; [exact P0|]. eapply Qle_trans; [apply prod_bound; eassumption|]. lra. }
  unfold cg_beta. cbn zeta. destruct k.
  - rewrite N0. eexists. split; [reflexivity|]. apply frac_bound; [exact P0|]. eapply Qle_trans.
    + apply prod_bound; [|exact ST]. rewrite Qabs_pos by lra. apply Qle_refl.
    + nra.
  - replace (Qeq_bool (dot p (vsub g1 g0)) 0) with false.
    2:{ symmetry. apply not_true_is_false. intro H. apply Qeq_bool_iff in H. lra. }
    eexists. split; [reflexivity|]. apply frac_bound; [lra|]. rewrite Qabs_Qmult.
    assert (Dp : 3 * Qabs (dot g1 p) <= dot p (vsub g1 g0)).
    { rewrite Z. destruct (abs_cases (dot g1 p)) as [[A E]|[A E]]; rewrite E in *; lra. }
    assert (0 <= Qabs (dot g1 p)) by apply Qabs_nonneg. assert (0 <= Qabs (dot g1 (vsub g1 g0))) by apply Qabs_nonneg. nra.
  - rewrite N0. eexists. split; [reflexivity|exact BPR].
  - rewrite N0. eexists. split; [reflexivity|]. set (b := dot g1 (vsub g1 g0) / dot g0 g0) in *.
    destruct (Qlt_le_dec b 0) as [H|H].
    + rewrite Q.max_r by lra. rewrite Qmult_0_l. cbn. nra.
    + rewrite Q.max_l by lra. exact BPR.
  - eexists. split; [reflexivity|]. rewrite Qmult_0_l. cbn. nra.
Qed.
Lemma next_bounds k (g0 g1 p : vec) : length g0 = length g1 -> length p = length g1 ->
  0 < dot g0 g0 -> 0 < dot g1 g1 ->
  (2 # 5) * dot g0 g0 <= - dot g0 p <= (8 # 5) * dot g0 g0 ->
  Qabs (dot g1 p) <= (1 # 4) * Qabs (dot g0 p) ->
  exists p', cg_next k g0 g1 p = Some p' /\ length p' = length g1 /\
    (2 # 5) * dot g1 g1 <= - dot g1 p' <= (8 # 5) * dot g1 g1.
Proof.
  intros L Lp P0 P1 D S. unfold cg_next.
  assert (N1 : Qeq_bool (dot g1 g1) 0 = false).
  { apply not_true_is_false. intro H. apply Qeq_bool_iff in H. lra. }
  assert (DIR : forall b, Qabs (b * dot g1 p) <= (3 # 5) * dot g1 g1 ->
    length (vadd (vopp g1) (vscale b p)) = length g1 /\
    (2 # 5) * dot g1 g1 <= - dot g1 (vadd (vopp g1) (vscale b p)) <= (8 # 5) * dot g1 g1).
  { intros b H. assert (LL : length (vopp g1) = length (vscale b p)) by (rewrite vopp_length, vscale_length; congruence).
    split; [rewrite vadd_length, vopp_length by exact LL; reflexivity|].
    rewrite dot_vadd_r by exact LL. rewrite dot_vopp_r, dot_vscale_r. apply abs_bounds in H. lra. }
  assert (Z : exists b, cg_beta k g0 g1 p = Some b).
  { destruct (Qlt_le_dec (Qabs (dot g1 g0)) (Qabs (dot g1 g0) + 1)) as [_|]; [|lra].
    assert (N0 : Qeq_bool (dot g0 g0) 0 = false).
    { apply not_true_is_false. intro H. apply Qeq_bool_iff in H. lra. }
    unfold cg_beta. cbn zeta. destruct k; rewrite ?N0; try (eexists; reflexivity).
    assert (Y : dot p (vsub g1 g0) == dot g1 p - dot g0 p)
      by (rewrite dot_vsub_r, (dot_comm p g1), (dot_comm p g0) by congruence; reflexivity).
    assert (Eu : Qabs (dot g0 p) == - dot g0 p) by (apply Qabs_neg; lra). rewrite Eu in S. apply abs_bounds in S.
    replace (Qeq_bool (dot p (vsub g1 g0)) 0) with false; [eexists; reflexivity|].
    symmetry. apply not_true_is_false. intro H. apply Qeq_bool_iff in H. lra. }
  destruct Z as [b0 Hb0]. rewrite Hb0, N1. destruct (Qltb (1 # 2) (Qabs (dot g1 g0) / dot g1 g1)) eqn:R.
  - eexists. split; [reflexivity|]. apply DIR. rewrite Qmult_0_l. cbn. nra.
  - assert (X : Qabs (dot g1 g0) <= (1 # 2) * dot g1 g1).
    { apply Qltb_ge in R. apply (Qmult_le_compat_r _ _ (dot g1 g1)) in R; [|lra].
      assert (E : Qabs (dot g1 g0) / dot g1 g1 * dot g1 g1 == Qabs (dot g1 g0)) by (field; lra). rewrite E in R. exact R. }
    destruct (beta_bounds k g0 g1 p L Lp P0 P1 D S X) as (b & Hb & B).
    assert (b0 = b) by congruence. subst b0. eexists. split; [reflexivity|]. apply DIR. exact B.
Qed.

Section Run.
  Variables (n : nat) (kind : cg_kind) (line : nat -> vec -> vec -> line_out).
  Hypothesis Hline : forall k g p, length g = n -> length p = n -> ip n g p < 0 -> l_err (line k g p) = false ->
    strong_step n (1 # 4) g p (l_grad (line k g p)).
  Definition fine (g p : vec) : Prop :=
    length g = n /\ length p = n /\ nonzero n g /\ (2 # 5) * ip n g g <= - ip n g p <= (8 # 5) * ip n g g.
  Lemma fine_init g : length g = n -> nonzero n g -> fine g (vopp g).
  Proof.
    intros L N. assert (P := nonzero_pos n g L N). split; [exact L|]. split; [rewrite vopp_length; exact L|]. split; [exact N|].
    rewrite <- !dot_ip by (rewrite ?vopp_length; exact L). rewrite dot_vopp_r. lra.
  Qed.
  Let tr : vec -> vec -> vec := fun p _ => p.
  Lemma fine_step a : fine (cg_grad a) (cg_p a) ->
    exists a', cg_step kind tr line a = Some a' /\ fine (cg_grad a') (cg_p a').
  Proof.
    intros F. assert (F' := F). destruct F' as (L & Lp & N & D). unfold cg_step, tr.
    destruct (l_err (line (cg_iter a) (cg_grad a) (cg_p a))) eqn:E.
    - eexists. split; [reflexivity|]. exact F.
    - assert (P0 := nonzero_pos n _ L N). rewrite <- !dot_ip in D by assumption.
      assert (DN : ip n (cg_grad a) (cg_p a) < 0) by (rewrite <- dot_ip by assumption; lra).
      destruct (Hline (cg_iter a) (cg_grad a) (cg_p a) L Lp DN E) as (L1 & N1 & C). unfold strong_curvature in C.
      set (g1 := l_grad (line (cg_iter a) (cg_grad a) (cg_p a))) in *. assert (P1 := nonzero_pos n _ L1 N1).
      rewrite <- !dot_ip in C by assumption.
      destruct (next_bounds kind (cg_grad a) g1 (cg_p a)) as (p' & E' & L' & D'); try assumption; try congruence.
      rewrite E'. eexists. split; [reflexivity|]. unfold fine. cbn [cg_grad cg_p]. split; [exact L1|]. split; [congruence|].
      split; [exact N1|]. rewrite <- !dot_ip by congruence. exact D'.
  Qed.
  Lemma fine_run k a : fine (cg_grad a) (cg_p a) -> exists a' log, cg_run kind tr line k a = Some (a', log) /\
    fine (cg_grad a') (cg_p a') /\ (forall g p, In (g, p) log -> fine g p).
  Proof.
    revert a. induction k as [|k IH]; intros a Ga; cbn [cg_run].
    - exists a, []. split; [reflexivity|]. split; [exact Ga|intros g p []].
    - destruct (cg_done a). { exists a, []. split; [reflexivity|]. split; [exact Ga|intros g p []]. }
      destruct (fine_step a Ga) as (a' & E & Ga'). rewrite E. destruct (IH a' Ga') as (a'' & log & E2 & G2 & H).
      rewrite E2. exists a''. eexists. split; [reflexivity|]. split; [exact G2|].
      intros g p [X | I]; [|apply H; exact I]. injection X as <- <-. exact Ga.
  Qed.
End Run.
(** Exact line searches: every update gives a descent direction. *)
Lemma exact_next k (g0 g1 p p' : vec) : length p = length g1 -> 0 < dot g1 g1 -> dot g1 p == 0 ->
  cg_next k g0 g1 p = Some p' -> dot g1 p' == - dot g1 g1.
Proof.
  intros Lp P1 Z. unfold cg_next. destruct (cg_beta k g0 g1 p) as [b|]; [|discriminate]. intro H.
  assert (SI : forall x y : vec, Some x = Some y -> x = y) by congruence. apply SI in H. subst p'.
  rewrite dot_vadd_r by (rewrite vopp_length, vscale_length; congruence). rewrite dot_vopp_r, dot_vscale_r, Z. ring.
Qed.
Lemma next_spec kind (g0 g1 p p' : vec) : kind <> HZ -> 0 < dot g1 g1 -> cg_next kind g0 g1 p = Some p' ->
  let y := vsub g1 g0 in
  ((1 # 2) * dot g1 g1 < Qabs (dot g1 g0) /\ p' = vadd (vopp g1) (vscale 0 p)) \/
  (Qabs (dot g1 g0) <= (1 # 2) * dot g1 g1 /\ exists beta, p' = vadd (vopp g1) (vscale beta p) /\
     match kind with
     | FR => beta * dot g0 g0 == dot g1 g1
     | HS => beta * dot p y == dot g1 y
     | PR => beta * dot g0 g0 == dot g1 y
     | PRplus => (0 <= beta /\ beta * dot g0 g0 == dot g1 y) \/ (beta == 0 /\ dot g1 y <= 0)
     | HZ => False
     end).
Proof.
  intros NH P1 H. cbn zeta. unfold cg_next in H. destruct (cg_beta kind g0 g1 p) as [b|] eqn:B; [|discriminate].
  assert (N1 : Qeq_bool (dot g1 g1) 0 = false).
  { apply not_true_is_false. intro Z. apply Qeq_bool_iff in Z. lra. }
  rewrite N1 in H. assert (SI : forall x y : vec, Some x = Some y -> x = y) by congruence. apply SI in H.
  assert (EQ : Qabs (dot g1 g0) / dot g1 g1 * dot g1 g1 == Qabs (dot g1 g0)) by (field; lra).
  destruct (Qltb (1 # 2) (Qabs (dot g1 g0) / dot g1 g1)) eqn:R.
  - left. split; [|symmetry; exact H]. apply Qltb_lt in R. apply (Qmult_lt_compat_r _ _ (dot g1 g1)) in R; [|exact P1].
    rewrite EQ in R. exact R.
  - right. split.
    { apply Qltb_ge in R. apply (Qmult_le_compat_r _ _ (dot g1 g1)) in R; [|lra]. rewrite EQ in R. exact R. }
    exists b. split; [symmetry; exact H|].
    assert (NB : forall d, Qeq_bool d 0 = false -> ~ d == 0) by (intros d E Z; apply Qeq_bool_iff in Z; congruence).
    assert (SQ : forall x y : Q, Some x = Some y -> x = y) by congruence.
    unfold cg_beta in B. cbn zeta in B. destruct kind; [| | | |congruence].
    + destruct (Qeq_bool (dot g0 g0) 0) eqn:Z; [discriminate|]. apply SQ in B. subst b. field. apply NB. exact Z.
    + destruct (Qeq_bool (dot p (vsub g1 g0)) 0) eqn:Z; [discriminate|]. apply SQ in B. subst b. field. apply NB. exact Z.
    + destruct (Qeq_bool (dot g0 g0) 0) eqn:Z; [discriminate|]. apply SQ in B. subst b. field. apply NB. exact Z.
    + destruct (Qeq_bool (dot g0 g0) 0) eqn:Z; [discriminate|]. apply NB in Z. apply SQ in B. subst b.
      assert (P0 : 0 < dot g0 g0) by (assert (N := dot_nonneg g0); destruct (Qeq_dec (dot g0 g0) 0); [contradiction|lra]).
      set (q := dot g1 (vsub g1 g0) / dot g0 g0).
      assert (EQ2 : q * dot g0 g0 == dot g1 (vsub g1 g0)) by (unfold q; field; exact Z).
      destruct (Qlt_le_dec q 0) as [L|L].
      * right. split; [apply Q.max_r; lra|]. rewrite <- EQ2. nra.
      * left. rewrite (Q.max_l q 0) by exact L. split; [exact L|exact EQ2].
Qed.
