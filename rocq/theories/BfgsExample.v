(** A concrete line search meeting the hypotheses of C67 and C69. *)
From Coq Require Import Bool List Arith QArith Qabs Lia Lqa.
From Verif Require Import AcseModel AcseSpec BfgsModel BfgsSpec BfgsProofs.
Import ListNotations.
Local Open Scope Q_scope.

(** Exact line search on (x^2 + 2 y^2)/2, failing at a stationary point. *)
Definition quad_line (k : nat) (g p : list Q) : line_out :=
  let p1 := entry p 0 in let p2 := entry p 1 in
  let alp := - ip 2 g p / (p1 * p1 + 2 * p2 * p2) in
  let g1 := [entry g 0 + alp * p1; entry g 1 + alp * 2 * p2] in
  MkLine (Qeq_bool (entry g1 0) 0 && Qeq_bool (entry g1 1) 0) alp g1.
Lemma quad_line_exact k g p : length g = 2%nat -> length p = 2%nat -> ip 2 g p < 0 -> l_err (quad_line k g p) = false ->
  0 < l_alp (quad_line k g p) /\ length (l_grad (quad_line k g p)) = 2%nat /\ nonzero 2 (l_grad (quad_line k g p)) /\
  ip 2 (l_grad (quad_line k g p)) p == 0.
Proof.
  intros Lg Lp D E. destruct g as [|a [|b [|]]]; try discriminate. destruct p as [|p1 [|p2 [|]]]; try discriminate.
  unfold quad_line, ip in *. cbn [inner entry nth l_err l_alp l_grad] in *.
  assert (P : 0 < p1 * p1 + 2 * p2 * p2).
  { assert (S1 := Qsquare p1). assert (S2 := Qsquare p2).
    destruct (Qeq_dec (p1 * p1 + 2 * p2 * p2) 0) as [Z|Z]; [|nra]. exfalso.
    assert (Z1 : p1 * p1 == 0) by nra. assert (Z2 : p2 * p2 == 0) by nra.
    apply Qmult_integral in Z1. apply Qmult_integral in Z2.
    assert (Y1 : p1 == 0) by tauto. assert (Y2 : p2 == 0) by tauto. rewrite Y1, Y2 in D. lra. }
  split; [apply Qlt_shift_div_l; [exact P|lra]|]. split; [reflexivity|]. split.
  - apply andb_false_iff in E. destruct E as [E|E]; [exists 0%nat|exists 1%nat]; (split; [lia|]); intro Z; apply Qeq_bool_iff in Z; cbn [entry nth] in Z; unfold entry in Z; cbn [nth] in Z; congruence.
  - set (m := p1 * p1 + 2 * p2 * p2) in *. set (d := 0 + a * p1 + b * p2) in *.
    assert (X : forall al, 0 + (a + al * p1) * p1 + (b + al * 2 * p2) * p2 == d + al * m) by (intro; unfold d, m; ring).
    unfold entry. cbn [nth]. rewrite X. field. lra.
Qed.
Lemma quad_line_weak k g p : length g = 2%nat -> length p = 2%nat -> ip 2 g p < 0 -> l_err (quad_line k g p) = false ->
  weak_step 2 (9 # 10) (l_alp (quad_line k g p)) g p (l_grad (quad_line k g p)).
Proof.
  intros Lg Lp D E. destruct (quad_line_exact k g p Lg Lp D E) as (H1 & H2 & H3 & H4).
  split; [exact H1|]. split; [exact H2|]. split; [exact H3|]. unfold weak_curvature. rewrite H4. lra.
Qed.
Lemma quad_line_strong k g p : length g = 2%nat -> length p = 2%nat -> ip 2 g p < 0 -> l_err (quad_line k g p) = false ->
  strong_step 2 (1 # 4) g p (l_grad (quad_line k g p)).
Proof.
  intros Lg Lp D E. destruct (quad_line_exact k g p Lg Lp D E) as (H1 & H2 & H3 & H4).
  split; [exact H2|]. split; [exact H3|]. unfold strong_curvature. rewrite H4. change (Qabs 0) with 0.
  assert (N := Qabs_nonneg (ip 2 g p)). lra.
Qed.
