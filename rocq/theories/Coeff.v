(** Coefficients of operators.

    The code (every file of /repo/hqca/operators and /repo/hqca/transforms) computes with Python
    complex numbers.  The model is parametric in a commutative ring with the constants the code
    uses: [ci] for [1j], [chalf] for [0.5], a conjugation for [c.real-1j*c.imag], decidable
    equality for [coeff==0] and [small c] for the test [abs(c)<=1e-12] of
    hqca/operators/_operator.py l.164.  Rounding is not modelled. *)
From Coq Require Import Ring Bool QArith Qcanon List Lia.
Import ListNotations.

Record CoefRing : Type := MkCoef {
  car :> Type;
  c0 : car; c1 : car;
  cadd : car -> car -> car;
  cmul : car -> car -> car;
  csub : car -> car -> car;
  copp : car -> car;
  ci : car;
  chalf : car;
  cconj : car -> car;
  ceqb : car -> car -> bool;
  small : car -> bool;
  c_ring : ring_theory c0 c1 cadd cmul csub copp (@eq car);
  ci_sq : cmul ci ci = copp c1;
  chalf_dbl : cadd chalf chalf = c1;
  c1_neq0 : c1 <> c0;
  ceqb_spec : forall a b, ceqb a b = true <-> a = b;
  cconj_add : forall a b, cconj (cadd a b) = cadd (cconj a) (cconj b);
  cconj_mul : forall a b, cconj (cmul a b) = cmul (cconj a) (cconj b);
  cconj_inv : forall a, cconj (cconj a) = a;
  cconj_i : cconj ci = copp ci;
  small_0 : small c0 = true;
  small_opp : forall a, small (copp a) = small a;
  small_i : forall a, small (cmul ci a) = small a;
  small_half_mul : forall a, small a = true -> small (cmul chalf a) = true;
  small_half : small chalf = false;
}.

Arguments c0 {_}. Arguments c1 {_}. Arguments cadd {_}. Arguments cmul {_}. Arguments csub {_}.
Arguments copp {_}. Arguments ci {_}. Arguments chalf {_}. Arguments cconj {_}.
Arguments ceqb {_}. Arguments small {_}.

Declare Scope coef_scope.
Delimit Scope coef_scope with K.
Notation "0" := c0 : coef_scope.
Notation "1" := c1 : coef_scope.
Notation "a + b" := (cadd a b) : coef_scope.
Notation "a * b" := (cmul a b) : coef_scope.
Notation "a - b" := (csub a b) : coef_scope.
Notation "- a" := (copp a) : coef_scope.
Bind Scope coef_scope with car.

Section CoefLemmas.
  Variable K : CoefRing.
  Add Ring KRing : (c_ring K).
  Local Open Scope coef_scope.

  Lemma cadd_cancel_l (a b c : K) : a + b = a + c -> b = c.
  Proof.
    intro H. replace b with (- a + (a + b)) by ring. rewrite H. ring.
  Qed.

  Lemma cconj_0 : cconj (0:K) = 0.
  Proof.
    apply (cadd_cancel_l (cconj (0:K))). rewrite <- cconj_add.
    replace ((0:K) + 0) with (0:K) by ring. ring.
  Qed.

  Lemma cconj_opp (a : K) : cconj (- a) = - cconj a.
  Proof.
    apply (cadd_cancel_l (cconj a)). rewrite <- cconj_add.
    replace (a + - a) with (0:K) by ring. rewrite cconj_0. ring.
  Qed.

  Lemma cconj_1 : cconj (1:K) = 1.
  Proof.
    assert (H : cconj (cconj (1:K)) = cconj 1 * cconj (cconj 1)).
    { rewrite <- cconj_mul. f_equal. ring. }
    rewrite !cconj_inv in H. rewrite H at 2. ring.
  Qed.

  Lemma ceqb_refl (a : K) : ceqb a a = true.
  Proof. apply ceqb_spec. reflexivity. Qed.

  Lemma ceqb_false (a b : K) : ceqb a b = false <-> a <> b.
  Proof.
    split.
    - intros H E. apply ceqb_spec in E. rewrite E in H. discriminate.
    - intro H. destruct (ceqb a b) eqn:E; [|reflexivity]. apply ceqb_spec in E. contradiction.
  Qed.

  Lemma half_cancel (a : K) : chalf * a + chalf * a = a.
  Proof.
    replace (chalf * a + chalf * a) with ((chalf + chalf) * a) by ring.
    rewrite chalf_dbl. ring.
  Qed.

  Lemma dbl_cancel (a b : K) : a + a = b + b -> a = b.
  Proof.
    intro H. rewrite <- (half_cancel a), <- (half_cancel b).
    replace (chalf * a + chalf * a) with (chalf * (a + a)) by ring.
    rewrite H. ring.
  Qed.

  Lemma small_neq0 (a : K) : small a = false -> a <> 0.
  Proof. intros H E. subst a. rewrite small_0 in H. discriminate. Qed.

  (** [cpow a n] is the n-th power. *)
  Fixpoint cpow (a : K) (n : nat) : K := match n with O => 1 | S m => a * cpow a m end.
End CoefLemmas.
Arguments cpow {_}.

(** * The Gaussian rationals: a concrete instance *)
Local Open Scope Qc_scope.

Definition GQ : Type := (Qc * Qc)%type.
Definition gq0 : GQ := (0, 0).
Definition gq1 : GQ := (1, 0).
Definition gqi : GQ := (0, 1).
Definition qhalf : Qc := Q2Qc (1#2).
Definition gqhalf : GQ := (qhalf, 0).
Definition gqadd (a b : GQ) : GQ := (fst a + fst b, snd a + snd b).
Definition gqopp (a : GQ) : GQ := (- fst a, - snd a).
Definition gqsub (a b : GQ) : GQ := (fst a - fst b, snd a - snd b).
Definition gqmul (a b : GQ) : GQ :=
  (fst a * fst b - snd a * snd b, fst a * snd b + snd a * fst b).
Definition gqconj (a : GQ) : GQ := (fst a, - snd a).
Definition qceqb (a b : Qc) : bool := Qeq_bool (this a) (this b).
Definition gqeqb (a b : GQ) : bool := qceqb (fst a) (fst b) && qceqb (snd a) (snd b).
Definition gqnorm2 (a : GQ) : Qc := fst a * fst a + snd a * snd a.
(** [abs(c)<=1e-12], squared. *)
Definition smallQ : Q := 1 # 1000000000000000000000000.
Definition gqsmall (a : GQ) : bool :=
  Qle_bool (this (gqnorm2 a)) smallQ.

Lemma qceqb_spec a b : qceqb a b = true <-> a = b.
Proof.
  unfold qceqb. rewrite Qeq_bool_iff. split.
  - apply Qc_is_canon.
  - intros ->. reflexivity.
Qed.

Lemma gq_ring : ring_theory gq0 gq1 gqadd gqmul gqsub gqopp (@eq GQ).
Proof.
  constructor; unfold gq0, gq1, gqadd, gqmul, gqsub, gqopp; intros;
    repeat match goal with x : GQ |- _ => destruct x end; cbn [fst snd]; f_equal; ring.
Qed.

Lemma qhalf_dbl : qhalf + qhalf = 1.
Proof. apply Qc_is_canon. reflexivity. Qed.

Lemma gqsmall_le a : gqsmall a = true <-> (gqnorm2 a <= Q2Qc smallQ)%Qc.
Proof.
  unfold gqsmall. rewrite Qle_bool_iff. unfold Qcle. reflexivity.
Qed.

Lemma gqnorm2_half a : gqnorm2 (gqmul gqhalf a) = qhalf * qhalf * gqnorm2 a.
Proof. destruct a; unfold gqnorm2, gqmul, gqhalf; cbn [fst snd]; ring. Qed.

Lemma Qc_sq_nonneg (a : Qc) : 0 <= a * a.
Proof.
  unfold Qcle. change (this (a * a)) with (Qred (this a * this a)). rewrite Qred_correct.
  change (this 0) with 0%Q. unfold Qle. cbn [Qnum Qden Qmult]. rewrite Z.mul_0_l.
  apply Z.mul_nonneg_nonneg; [apply Z.square_nonneg|lia].
Qed.

Lemma gqnorm2_nonneg a : 0 <= gqnorm2 a.
Proof.
  unfold gqnorm2. replace (0:Qc) with ((0:Qc) + 0) by ring.
  apply Qcplus_le_compat; apply Qc_sq_nonneg.
Qed.

Definition GaussQ : CoefRing.
Proof.
  refine (MkCoef GQ gq0 gq1 gqadd gqmul gqsub gqopp gqi gqhalf gqconj gqeqb gqsmall
            gq_ring _ _ _ _ _ _ _ _ _ _ _ _ _).
  - unfold gqmul, gqi, gqopp, gq1; cbn [fst snd]; f_equal; ring.
  - unfold gqadd, gqhalf, gq1; cbn [fst snd]; rewrite qhalf_dbl; f_equal; ring.
  - intro H. apply (f_equal fst) in H. discriminate H.
  - intros [a b] [c d]. unfold gqeqb; cbn [fst snd].
    rewrite andb_true_iff, !qceqb_spec. split; [intros [-> ->]; reflexivity|].
    intro H; inversion H; split; reflexivity.
  - intros [a b] [c d]. unfold gqconj, gqadd; cbn [fst snd]; f_equal; ring.
  - intros [a b] [c d]. unfold gqconj, gqmul; cbn [fst snd]; f_equal; ring.
  - intros [a b]. unfold gqconj; cbn [fst snd]; f_equal; ring.
  - unfold gqconj, gqi, gqopp; cbn [fst snd]; f_equal; ring.
  - reflexivity.
  - intros [a b]. unfold gqsmall.
    replace (gqnorm2 (gqopp (a, b))) with (gqnorm2 (a, b)); [reflexivity|].
    unfold gqnorm2, gqopp; cbn [fst snd]; ring.
  - intros [a b]. unfold gqsmall.
    replace (gqnorm2 (gqmul gqi (a, b))) with (gqnorm2 (a, b)); [reflexivity|].
    unfold gqnorm2, gqmul, gqi; cbn [fst snd]; ring.
  - intros a Ha. rewrite gqsmall_le in *. rewrite gqnorm2_half.
    apply Qcle_trans with (gqnorm2 a); [|exact Ha].
    replace (gqnorm2 a) with (1 * gqnorm2 a) at 2 by ring.
    apply Qcmult_le_compat_r; [|apply gqnorm2_nonneg].
    vm_compute. discriminate.
  - reflexivity.
Defined.

(** Handy constants for examples. *)
Definition gz (z : Z) : GaussQ := (Q2Qc (inject_Z z), 0).
Definition gzi (a b : Z) : GaussQ := (Q2Qc (inject_Z a), Q2Qc (inject_Z b)).
