(** The run of the ACSE solver: what is measured. *)
From Coq Require Import Bool List Arith ZArith Reals Lra Lia Ring Permutation Sorted.
From Verif Require Import Coeff ComplexR MatSpec MatLemmas AdjProofs FockSpec OpSpec OpTotal OperatorModel OperatorProofs FermiModel FermiProofs TransformModel
  CircuitSpec CircuitModel CircuitProofs CircuitProofs2 HamModel HamSpec HamProofs HamProofs3 InvModel InvSpec InvProofs RdmSpec RdmModel RdmProofs RdmFock TomoModel TomoProofs PlanModel PlanSpec PlanProofs2 PlanProofs3 PlanProofs5
  QuantSpec QuantProofs QuantProofs2 QuantProofs3 StoreModel StoreProofs InitProofs ResSpec ResModel ResProofs ResProofs2 ResProofs3 ResProofs4 VqeSpec ConsSpec ConsModel ConsProofs3 EulerSpec AcseModel EulerModel EulerProofs2 EulerProofs3 EulerProofs4
  ShapeSpec LayerSpec LayerProofs LayerProofs2 LayerProofs3 IterModel IterSpec LayerProofs4 PauliModel EulerModel.
Import ListNotations.

Section ReOnly.
  Variable K : CoefRing.
  Add Ring KRing : (c_ring K).
  Local Open Scope coef_scope.
  Lemma conj_ofnat n : cconj (ofnat n : K) = ofnat n.
  Proof. induction n as [|n IH]; cbn [ofnat]; [apply cconj_0|]. now rewrite cconj_add, cconj_1, IH. Qed.
  Lemma inverse_real n (w : K) : ofnat n * w = 1 -> cconj w = w.
  Proof.
    intro H. assert (H' : ofnat n * cconj w = 1) by (rewrite <- (conj_ofnat n), <- cconj_mul, H; apply cconj_1).
    transitivity (cconj w * (ofnat n * w)); [rewrite H; ring|]. transitivity (w * (ofnat n * cconj w)); [ring|]. rewrite H'. ring.
  Qed.
  (** Only the real part of the measured array matters. *)
  Theorem class_residual_re R Ne p (w : K) so (t : tensor K) (K2 : nat -> nat -> nat -> nat -> K) (psi : bits -> K) :
    Permutation so (seq 0 R) -> real_symmetric K2 -> has_particles R Ne psi ->
    (p = 2%nat /\ (Ne < 3)%nat) \/ (p = 3%nat /\ (3 <= Ne)%nat /\ ofnat (Ne - 2) * w = 1) ->
    (forall c a, length c = p -> length a = p -> Forall (fun x => (x < R)%nat) c -> Forall (fun x => (x < R)%nat) a -> re (t (c ++ a)) = re (rdm_of R psi c a)) ->
    exists A, class_residual Ne p R w so t K2 = Some A /\
      forall i k j l, (i < R)%nat -> (k < R)%nat -> (j < R)%nat -> (l < R)%nat -> A i k j l = residual_of R K2 psi i k j l.
  Proof.
    intros Hso HK HN Hp Ht. unfold class_residual.
    assert (G : exists D2 D3, class_rdms Ne p R w t = Some (D2, D3)
      /\ (forall a b c d, (a < R)%nat -> (b < R)%nat -> (c < R)%nat -> (d < R)%nat -> re (D2 [a; b; c; d]) = re (rdm_of R psi [a; b] [c; d]))
      /\ (forall a b c d e f, (a < R)%nat -> (b < R)%nat -> (c < R)%nat -> (d < R)%nat -> (e < R)%nat -> (f < R)%nat -> re (D3 [a; b; c; d; e; f]) = re (rdm_of R psi [a; b; c] [d; e; f]))).
    { unfold class_rdms. destruct Hp as [[-> H3]|[-> [H3 Hw]]].
      - exists t, (fun _ => 0). rewrite (proj2 (Nat.ltb_lt _ _) H3). split; [reflexivity|]. split.
        + intros a b c d Ha Hb Hc Hd. apply (Ht [a; b] [c; d]); repeat constructor; assumption.
        + intros. f_equal. symmetry. apply (few_particles K R Ne); [exact HN|exact H3].
      - pose proof (inverse_real _ _ Hw) as Cw. exists (reduce_order 3 R w t), t. replace (Ne <? 3) with false by (symmetry; apply Nat.ltb_ge; exact H3). split; [reflexivity|]. split.
        + intros a b c d Ha Hb Hc Hd. assert (E := reduce_order_contract K 3 R w t [a; b] [c; d] ltac:(auto) eq_refl eq_refl). cbn [app] in E. rewrite E, (re_real K w _ Cw).
          assert (C := rdm_contract K R Ne psi [a; b] [c; d] HN). cbn [app length] in C.
          transitivity (w * re (lsum (seq 0 R) (fun x => rdm_of R psi [a; b; x] [c; d; x]))).
          * f_equal. clear E C. unfold lsum. assert (L : forall x, In x (seq 0 R) -> (x < R)%nat) by (intros x Hx; apply in_seq in Hx; lia).
            revert L. generalize (seq 0 R). intro s0. induction s0 as [|x s IH]; intro L; [reflexivity|]. cbn [map sumK fold_right]. rewrite !re_add. rewrite <- IH by (intros y Hy; apply L; now right).
            assert (Hx := L x (or_introl eq_refl)). rewrite <- (Ht [a; b; x] [c; d; x]) by (repeat constructor; assumption). reflexivity.
          * rewrite C, <- (re_real K w _ Cw). f_equal. transitivity ((ofnat (Ne - 2) * w) * rdm_of R psi [a; b] [c; d]); [ring|]. rewrite Hw. ring.
        + intros a b c d e f Ha Hb Hc Hd He Hf. apply (Ht [a; b; c] [d; e; f]); repeat constructor; assumption. }
    destruct G as [D2 [D3 [E [G2 G3]]]]. rewrite E. eexists. split; [reflexivity|]. intros i k j l Hi Hk Hj Hl.
    rewrite (class_updates_at K R so Hso) by assumption. rewrite (residual_value K R psi K2 i k j l HK Hi Hk Hj Hl). cbn [app].
    assert (E2 : forall c d e f, (e < R)%nat -> (f < R)%nat -> S2 K R (fun a b => re (D2 [a; b; e; f]) * antisymmetrised K2 a b c d) =
      S2 K R (fun a b => rw K R psi [(Cre, a); (Cre, b); (Ann, f); (Ann, e)] * antisymmetrised K2 a b c d)).
    { intros c d e f He Hf. apply S2_ext. intros a b Ha Hb. rewrite (G2 a b e f Ha Hb He Hf). reflexivity. }
    assert (E3 : forall x y, (x < R)%nat -> S3 K R (fun a r b => re (D3 [a; r; x; j; l; b]) * antisymmetrised K2 a r y b) =
      S3 K R (fun a r b => rw K R psi [(Cre, a); (Cre, r); (Cre, x); (Ann, b); (Ann, l); (Ann, j)] * antisymmetrised K2 a r y b)).
    { intros x y Hx. apply S3_ext. intros a r b Ha Hr Hb. rewrite (G3 a r x j l b) by assumption. reflexivity. }
    assert (E4 : forall x y, (x < R)%nat -> S3 K R (fun a r b => re (D3 [i; k; a; r; b; x]) * antisymmetrised K2 a y r b) =
      S3 K R (fun a r b => rw K R psi [(Cre, i); (Cre, k); (Cre, a); (Ann, x); (Ann, b); (Ann, r)] * antisymmetrised K2 a y r b)).
    { intros x y Hx. apply S3_ext. intros a r b Ha Hr Hb. rewrite (G3 i k a r b x) by assumption. reflexivity. }
    rewrite (E2 i k j l Hj Hl), (E2 j l i k Hi Hk), (E3 k i Hk), (E3 i k Hi), (E4 j l Hj), (E4 l j Hl). reflexivity.
  Qed.
End ReOnly.

Local Open Scope R_scope.
Add Ring CxRingI : (c_ring Cx).
Lemma ipow_unit1 z : cmul (cconj (@ipow Cx z)) (ipow z) = c1.
Proof. unfold ipow. repeat match goal with |- context [match ?x with _ => _ end] => destruct x end; apply C_eq; cbn; lra. Qed.
Lemma expect_det1 N (M : mat Cx) psi d z : length d = N -> (forall x, length x = N -> psi x = if bits_eqb x d then ipow z else c0) -> expect N M psi = M d d.
Proof.
  intros L H. unfold expect. transitivity (sumbits N (fun r => if bits_eqb r d then cmul (cconj (ipow z)) (cmul (M r d) (ipow z)) else c0 : Cx)).
  - apply sumbits_ext. intros r Lr. rewrite (H r Lr). destruct (bits_eqb r d); [|rewrite cconj_0; ring]. f_equal. unfold mvec.
    transitivity (sumbits N (fun c => if bits_eqb c d then cmul (M r c) (ipow z) else c0 : Cx)); [|apply (sumbits_pick Cx N d (fun c => cmul (M r c) (ipow z)) L)].
    apply sumbits_ext. intros c Lc. rewrite (H c Lc). destruct (bits_eqb c d); ring.
  - rewrite (sumbits_pick Cx N d (fun r => cmul (cconj (ipow z)) (cmul (M r d) (ipow z))) L). transitivity (cmul (cmul (cconj (ipow z)) (ipow z)) (M d d)); [ring|]. rewrite ipow_unit1. ring.
Qed.
Lemma fst_part imag (x : Cx) : fst (part true imag x) = fst x.
Proof. destruct imag; cbn [part]; [reflexivity|]. destruct x as [u v]. cbn [Cx cmul cadd cconj chalf Cmul Cadd Cconj Chalf fst snd]. lra. Qed.
Lemma re_part imag (x : Cx) : re (part true imag x) = re x.
Proof. destruct imag; cbn [part]; [reflexivity|]. change (re (re x) = re x). apply re_id, re_is_real. Qed.

Lemma observable_two_body r (V : tensor4) psi : (forall p q s t, V p q s t = V s t p q) -> observable r V (fun a b c d => rdm_of r psi [a; b] [c; d]) = expect r (two_body r V) psi.
Proof.
  intro S. rewrite observable_eq, (two_body_expect Cx r V psi), (two_swap4 Cx r (fun p q s t => cmul (V p q s t) (rdm_of r psi [p; q] [s; t]))).
  apply upto_ext. intros i _. apply upto_ext. intros k _. apply upto_ext. intros j _. apply upto_ext. intros l _. now rewrite S.
Qed.
Lemma energy_part c imag (t : tensor Cx) psi : real_symmetric (rc_K2 c) ->
  (forall x y, length x = 2%nat -> length y = 2%nat -> Forall (fun i => (i < 2 * rc_N c)%nat) x -> Forall (fun i => (i < 2 * rc_N c)%nat) y -> t (x ++ y) = part true imag (rdm_of (2 * rc_N c) psi x y)) ->
  energy_of c t = fst (expect (2 * rc_N c) (two_body (2 * rc_N c) (rc_K2 c)) psi) + fst (rc_en c).
Proof.
  intros [CR [_ S]] H. unfold energy_of, evaluate. rewrite <- (observable_two_body _ _ psi S). set (r := (2 * rc_N c)%nat) in *.
  set (D := fun a b c d => rdm_of r psi [a; b] [c; d]).
  rewrite (observable_ext Cx r (rc_K2 c) _ (fun a b c d => part true imag (D a b c d))).
  - cbn [Cx cadd Cadd fst]. f_equal. destruct imag; [reflexivity|]. cbn [part]. rewrite observable_part, (observable_conj Cx r (rc_K2 c) D CR). change (fst (part true false (observable r (rc_K2 c) D)) = fst (observable r (rc_K2 c) D)). apply fst_part.
  - intros a b x y Ha Hb Hx Hy. apply (H [a; b] [x; y]); repeat constructor; assumption.
Qed.
