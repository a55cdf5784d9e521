(** The line search of the BFGS optimizer. *)
From Coq Require Import Bool List Arith QArith Qabs Lia Lqa.
From Verif Require Import AcseSpec AcseModel AcseProofs2 BfgsModel GBfgsModel GBfgsSpec.
Import ListNotations.
Local Open Scope Q_scope.

Section Line.
  Variable f : vec -> Q.
  Variable g : vec -> vec.
  Variables (x p : vec) (fz gz : Q).
  Notation phi := (phi f x p).
  Notation dphi := (dphi g x p).

  Definition accepted (a v : Q) : Prop :=
    0 < a < 5 /\ v = phi a /\ v <= fz + gb_c1 * a * gz /\ Qabs (dphi a) <= - gb_c2 * gz.

  Lemma zoom_ok k : forall al ah fl a v, 0 <= al < 5 -> 0 <= ah < 5 -> ~ al == ah ->
    gb_zoom f g x p fz gz k al ah fl = Some (a, v) -> accepted a v.
  Proof.
    induction k as [|k IH]; intros al ah fl a v Hl Hh Hn; cbn [gb_zoom]; [discriminate|].
    set (aj := (1 # 2) * (al + ah)).
    destruct (Qltb (fz + gb_c1 * aj * gz) (phi aj) || Qle_bool fl (phi aj)) eqn:T.
    - apply IH; unfold aj; [lra|lra|]. intro E. apply Hn. lra.
    - apply orb_false_elim in T. destruct T as [T _]. apply Qltb_ge in T.
      destruct (Qle_bool (Qabs (dphi aj)) (- gb_c2 * gz)) eqn:C.
      + intro E. injection E as <- <-. apply Qle_bool_iff in C. unfold accepted.
        split; [|split; [reflexivity|split; assumption]]. unfold aj.
        destruct (Qlt_le_dec 0 (al + ah)); [lra|]. exfalso. apply Hn. lra.
      + destruct (Qle_bool 0 (dphi aj * (ah - al))); apply IH; unfold aj; try lra; intro E; apply Hn; lra.
  Qed.

  Lemma bracket_ok fuel : forall a0 a1 f0 a v, 0 <= a0 < 5 -> 0 < a1 < 5 -> ~ a0 == a1 ->
    gb_bracket f g x p fz gz fuel a0 a1 f0 = Some (Some (a, v)) -> accepted a v.
  Proof.
    induction fuel as [|fuel IH]; intros a0 a1 f0 a v H0 H1 Hn; cbn [gb_bracket]; [discriminate|].
    rewrite andb_false_r, orb_false_r.
    destruct (Qltb (fz + gb_c1 * a1 * gz) (phi a1)) eqn:T.
    - intro E. assert (SI : forall u w : option (Q * Q), Some u = Some w -> u = w) by congruence. apply SI in E.
      apply (zoom_ok 20 a0 a1 f0 a v); try assumption. lra.
    - apply Qltb_ge in T. destruct (Qle_bool (Qabs (dphi a1)) (- gb_c2 * gz)) eqn:C.
      + intro E. injection E as <- <-. apply Qle_bool_iff in C.
        split; [assumption|]. split; [reflexivity|]. split; assumption.
      + destruct (Qle_bool 0 (dphi a1)).
        * intro E. assert (SI : forall u w : option (Q * Q), Some u = Some w -> u = w) by congruence. apply SI in E.
          apply (zoom_ok 20 a0 a1 f0 a v); try assumption. lra.
        * apply IH; [lra|lra|]. intro E. lra.
  Qed.

  Lemma line_ok fuel a v : gb_line f g x p fz gz fuel = Some (Some (a, v)) -> accepted a v.
  Proof. apply bracket_ok; [lra|lra|]. intro E. lra. Qed.

  (** ** Termination *)
  Definition stops (a : Q) : bool :=
    Qltb (fz + gb_c1 * a * gz) (phi a) || Qle_bool (Qabs (dphi a)) (- gb_c2 * gz) || Qle_bool 0 (dphi a).
  Lemma bracket_turn fuel a0 a1 f0 : gb_bracket f g x p fz gz (S fuel) a0 a1 f0 <> None <->
    stops a1 = true \/ gb_bracket f g x p fz gz fuel a1 ((1 # 2) * (a1 + 5)) (phi a1) <> None.
  Proof.
    cbn [gb_bracket]. rewrite andb_false_r, orb_false_r. unfold stops.
    destruct (Qltb (fz + gb_c1 * a1 * gz) (phi a1)); cbn [orb]; [split; [auto|discriminate]|].
    destruct (Qle_bool (Qabs (dphi a1)) (- gb_c2 * gz)); cbn [orb]; [split; [auto|discriminate]|].
    destruct (Qle_bool 0 (dphi a1)); [split; [auto|discriminate]|].
    split; [auto|]. intros [E|E]; [discriminate|exact E].
  Qed.
  Lemma bracket_done fuel : forall k a0 f0, gb_bracket f g x p fz gz fuel a0 (trial k) f0 <> None <->
    exists j, (k <= j < k + fuel)%nat /\ stops (trial j) = true.
  Proof.
    induction fuel as [|fuel IH]; intros k a0 f0.
    - cbn [gb_bracket]. split; [congruence|]. intros (j & Hj & _). lia.
    - rewrite bracket_turn. change ((1 # 2) * (trial k + 5)) with (trial (S k)). rewrite IH. split.
      + intros [E|(j & Hj & E)]; [exists k; split; [lia|exact E]|exists j; split; [lia|exact E]].
      + intros (j & Hj & E). destruct (Nat.eq_dec j k) as [-> |N]; [left; exact E|right; exists j; split; [lia|exact E]].
  Qed.
  Lemma line_done fuel : gb_line f g x p fz gz fuel <> None <-> exists j, (j < fuel)%nat /\ stops (trial j) = true.
  Proof.
    unfold gb_line. change 1 with (trial 0). rewrite bracket_done. split; intros (j & Hj & E); exists j; (split; [lia|exact E]).
  Qed.
  Lemma stops_spec a : gz <= 0 -> stops a = true <-> ~ phi a <= fz + gb_c1 * a * gz \/ gb_c2 * gz <= dphi a.
  Proof.
    intro Hg. unfold stops. rewrite !orb_true_iff. rewrite !Qle_bool_iff. split.
    - intros [[H|H]|H].
      + left. intro L. apply Qltb_ge in L. congruence.
      + right. apply Qabs_Qle_condition in H. lra.
      + right. unfold gb_c2. lra.
    - intros [H|H].
      + left. left. destruct (Qltb (fz + gb_c1 * a * gz) (phi a)) eqn:E; [reflexivity|]. apply Qltb_ge in E. tauto.
      + destruct (Qlt_le_dec (dphi a) 0); [|right; assumption]. left. right. rewrite Qabs_neg by lra. unfold gb_c2 in *. lra.
  Qed.
End Line.

Lemma trial_eq k : inject_Z (2 ^ Z.of_nat k) * (5 - trial k) == 4.
Proof.
  induction k as [|k IH]; [reflexivity|]. rewrite Nat2Z.inj_succ, Z.pow_succ_r by lia. rewrite inject_Z_mult. cbn [trial].
  change (inject_Z 2) with 2. transitivity (inject_Z (2 ^ Z.of_nat k) * (5 - trial k)); [ring|exact IH].
Qed.
