(** A coefficient ring with an element 1/sqrt 2, for the concrete cases of the circuit theorems: pairs
    (a, b) standing for a + b sqrt 2 with a, b Gaussian rationals.  Here [small] is equality with zero. *)
From Coq Require Import Ring Bool ZArith QArith Qcanon.
From Verif Require Import Coeff.

Section Adjoin.
  Variable K : CoefRing.
  Add Ring KRing : (c_ring K).
  Local Open Scope coef_scope.
  Definition S2 : Type := (K * K)%type.
  Definition s0 : S2 := (0, 0).
  Definition s1 : S2 := (1, 0).
  Definition sadd (x y : S2) : S2 := (fst x + fst y, snd x + snd y).
  Definition smul (x y : S2) : S2 :=
    (fst x * fst y + (snd x * snd y + snd x * snd y), fst x * snd y + snd x * fst y).
  Definition ssub (x y : S2) : S2 := (fst x - fst y, snd x - snd y).
  Definition sopp (x : S2) : S2 := (- fst x, - snd x).
  Definition si : S2 := (ci, 0).
  Definition shalf : S2 := (chalf, 0).
  Definition sconj (x : S2) : S2 := (cconj (fst x), cconj (snd x)).
  Definition seqb (x y : S2) : bool := ceqb (fst x) (fst y) && ceqb (snd x) (snd y).
  Definition ssmall (x : S2) : bool := seqb x s0.
  Definition srt : S2 := (0, chalf).
  Lemma seqb_spec x y : seqb x y = true <-> x = y.
  Proof.
    destruct x as [a b], y as [c d]. unfold seqb. cbn [fst snd]. rewrite andb_true_iff, !ceqb_spec.
    split; [intros [-> ->]; reflexivity|]. intro H. inversion H. auto.
  Qed.
  Lemma s_ring : ring_theory s0 s1 sadd smul ssub sopp (@eq S2).
  Proof.
    constructor; intros; unfold s0, s1, sadd, smul, ssub, sopp; repeat match goal with x : S2 |- _ => destruct x end; cbn [fst snd];
      f_equal; ring.
  Qed.
  Lemma ssmall_iff (x y : S2) : (x = s0 <-> y = s0) -> ssmall x = ssmall y.
  Proof. intro H. apply eq_true_iff_eq. unfold ssmall. rewrite !seqb_spec. exact H. Qed.
  Definition WithSqrt2 : CoefRing.
  Proof.
    refine (MkCoef S2 s0 s1 sadd smul ssub sopp si shalf sconj seqb ssmall s_ring _ _ _ seqb_spec _ _ _ _ _ _ _ _ _).
    - unfold smul, si, sopp, s1; cbn [fst snd]. f_equal; [|ring]. rewrite ci_sq. ring.
    - unfold sadd, shalf, s1; cbn [fst snd]. rewrite chalf_dbl. f_equal. ring.
    - intro H. apply (f_equal fst) in H. apply (c1_neq0 K H).
    - intros [a b] [c d]. unfold sconj, sadd; cbn [fst snd]. rewrite !cconj_add. reflexivity.
    - intros [a b] [c d]. unfold sconj, smul; cbn [fst snd]. rewrite !cconj_add, !cconj_mul. reflexivity.
    - intros [a b]. unfold sconj; cbn [fst snd]. rewrite !cconj_inv. reflexivity.
    - unfold sconj, si, sopp; cbn [fst snd]. rewrite cconj_i, cconj_0. f_equal. ring.
    - unfold ssmall. apply seqb_spec. reflexivity.
    - intros [a b]. apply ssmall_iff. unfold sopp, s0; cbn [fst snd]. split; intro H; injection H as H1 H2.
      + f_equal; [replace a with (- - a) by ring; rewrite H1|replace b with (- - b) by ring; rewrite H2]; ring.
      + rewrite H1, H2. f_equal; ring.
    - intros [a b]. apply ssmall_iff. unfold smul, si, s0; cbn [fst snd].
      pose proof (ci_sq K) as Ci. split; intro H; injection H as H1 H2.
      + f_equal.
        * transitivity (- (ci * (ci * a + (0 * b + 0 * b)))); [ring [Ci]|]. rewrite H1. ring.
        * transitivity (- (ci * (ci * b + 0 * a))); [ring [Ci]|]. rewrite H2. ring.
      + rewrite H1, H2. f_equal; ring.
    - intros a Ha. unfold ssmall in *. rewrite seqb_spec in *. subst. unfold smul, shalf, s0; cbn [fst snd]. f_equal; ring.
    - unfold ssmall. destruct (seqb shalf s0) eqn:E; [|reflexivity]. apply seqb_spec in E. injection E as E. exfalso.
      apply (c1_neq0 K). rewrite <- (chalf_dbl K), E. ring.
  Defined.
  Lemma srt_sq : smul srt srt = shalf.
  Proof.
    unfold smul, srt, shalf; cbn [fst snd]. f_equal; [|ring].
    transitivity ((chalf : K) * (chalf + chalf)); [ring|]. rewrite chalf_dbl. ring.
  Qed.
  Lemma cconj_half : cconj (chalf : K) = chalf.
  Proof.
    assert (H : cconj (chalf : K) + cconj chalf = 1) by (rewrite <- cconj_add, chalf_dbl; apply cconj_1).
    transitivity (cconj (chalf : K) * (chalf + chalf)); [rewrite chalf_dbl; ring|].
    transitivity (chalf * (cconj (chalf : K) + cconj chalf)); [ring|]. rewrite H. ring.
  Qed.
  Lemma srt_real : sconj srt = srt.
  Proof. unfold sconj, srt; cbn [fst snd]. rewrite cconj_0, cconj_half. reflexivity. Qed.
End Adjoin.
Definition GaussR : CoefRing := WithSqrt2 GaussQ.
Definition rrt : GaussR := srt GaussQ.
Lemma rrt_sq : (rrt * rrt = chalf)%K. Proof. exact (srt_sq GaussQ). Qed.
Lemma rrt_real : cconj rrt = rrt. Proof. exact (srt_real GaussQ). Qed.
(** For examples: the rational a/b, and two facts used in a refutation. *)
Definition gq (a : Z) (b : positive) : GaussQ := (Q2Qc (a # b), 0%Qc).
Lemma mul_opp_r (a b : GaussR) : (a * - b = - (a * b))%K.
Proof. pose proof (c_ring GaussR) as R. destruct R. 
  assert (H : (a * b + a * - b = c0)%K).
  { rewrite (Rmul_comm a b), (Rmul_comm a (- b)%K), <- Rdistr_l, Ropp_def. rewrite Rmul_comm.
    apply (cadd_cancel_l GaussR (a * c0)%K). rewrite (Radd_comm _ c0), Radd_0_l. rewrite (Rmul_comm a c0), <- Rdistr_l, Radd_0_l. reflexivity. }
  apply (cadd_cancel_l GaussR (a * b)%K). rewrite H, Ropp_def. reflexivity.
Qed.
Lemma opposite_ones : ~ exists x : GaussR, x = c1 /\ c1 = (- x)%K.
Proof. intros [x [-> H]]. vm_compute in H. discriminate. Qed.
