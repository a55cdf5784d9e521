(** The energy after a sequence of rotations, to second order: an error bound valid for all angles. *)
From Coq Require Import Bool List Arith Reals Lra Lia Ring.
From Verif Require Import Coeff MatSpec MatLemmas AdjProofs OpSpec CircuitSpec CircuitModel CircuitProofs2 CircSpec2 ComplexR TaperProofs2 QuantSpec QuantProofs RdmFock PlanSpec PlanProofs2 PlanProofs3 PlanProofs5
  ConsProofs ConsProofs3.
Import ListNotations.
Local Open Scope R_scope.
Add Ring CxRingE : (c_ring Cx).

(** ** Sine and cosine *)
Lemma sin_abs x : Rabs (sin x) <= Rabs x.
Proof.
  assert (P : forall y, 0 <= y -> Rabs (sin y) <= y).
  { intros y Hy. destruct (Req_dec y 0) as [->|Ny]; [rewrite sin_0, Rabs_R0; lra|]. assert (Y : 0 < y) by lra. apply Rabs_le. split; [|left; apply sin_lt_x; exact Y].
    destruct (Rle_lt_dec y 1) as [L|L]; [|pose proof (SIN_bound y); lra]. pose proof (sin_ge_0 y Hy) as G. assert (3 < Rtrigo1.PI * 2) by (pose proof PI2_3_2; lra). pose proof PI2_3_2. lra. }
  destruct (Rle_lt_dec 0 x) as [H|H]; [rewrite (Rabs_right x) by lra; apply P; exact H|].
  rewrite <- (Rabs_Ropp (sin x)), <- sin_neg, <- (Rabs_Ropp x), (Rabs_right (- x)) by lra. apply P. lra.
Qed.
Lemma sin_sqr x : sin x * sin x <= x * x.
Proof. pose proof (sin_abs x) as H. pose proof (Rabs_pos (sin x)) as P. assert (A : forall y, y * y = Rabs y * Rabs y) by (intro y; rewrite <- Rabs_mult, Rabs_right; [reflexivity|nra]). rewrite (A (sin x)), (A x). nra. Qed.
Lemma sin_cos_abs x : Rabs (sin x * cos x) <= Rabs x.
Proof.
  rewrite Rabs_mult. pose proof (sin_abs x). pose proof (Rabs_pos (sin x)). pose proof (Rabs_pos (cos x)).
  assert (Rabs (cos x) <= 1) by (apply Rabs_le; pose proof (COS_bound x); lra). nra.
Qed.
Lemma sin_cos_near x : Rabs (sin x * cos x - x) <= x * x.
Proof.
  assert (P : forall y, 0 <= y -> Rabs (sin y * cos y - y) <= y * y).
  { intros y Hy. assert (S : sin y * cos y <= y). { pose proof (sin_cos_abs y) as H. rewrite (Rabs_right y) in H by lra. pose proof (Rle_abs (sin y * cos y)). lra. }
    rewrite Rabs_left1 by lra. destruct (Req_dec y 0) as [->|Ny]; [rewrite sin_0; lra|].
    destruct (MVT_cor2 (fun t => t * t + sin t * cos t - t) (fun t => 2 * t - 2 * (sin t * sin t)) 0 y ltac:(lra)) as [c [E [Hc _]]].
    - intros t _. replace (2 * t - 2 * (sin t * sin t)) with ((1 * t + t * 1) + (cos t * cos t + sin t * (- sin t)) - 1) by (pose proof (sin2_cos2 t) as Q; unfold Rsqr in Q; lra).
      apply (derivable_pt_lim_minus (fun t => t * t + sin t * cos t) id); [|apply derivable_pt_lim_id].
      apply (derivable_pt_lim_plus (fun t => t * t) (fun t => sin t * cos t)).
      + apply (derivable_pt_lim_mult id id); apply derivable_pt_lim_id.
      + apply (derivable_pt_lim_mult sin cos); [apply derivable_pt_lim_sin|apply derivable_pt_lim_cos].
    - rewrite sin_0 in E. assert (D : 0 <= 2 * c - 2 * (sin c * sin c)).
      { pose proof (sin_abs c) as A. rewrite (Rabs_right c) in A by lra. assert (sin c * sin c <= c); [|lra].
        assert (B : Rabs (sin c) <= 1) by (apply Rabs_le; pose proof (SIN_bound c); lra). pose proof (Rabs_pos (sin c)).
        assert (Q : sin c * sin c = Rabs (sin c) * Rabs (sin c)) by (rewrite <- Rabs_mult, Rabs_right; [reflexivity|nra]). rewrite Q. nra. }
      nra. }
  destruct (Rle_lt_dec 0 x) as [H|H]; [apply P; exact H|]. pose proof (P (- x) ltac:(lra)) as Q. rewrite sin_neg, cos_neg in Q.
  replace (- sin x * cos x - - x) with (- (sin x * cos x - x)) in Q by ring. rewrite Rabs_Ropp in Q. lra.
Qed.

(** ** One rotation *)
Definition within (N : nat) (H : mat Cx) (lo hi : R) : Prop := forall phi, norm2 N phi = c1 -> lo <= fst (expect N H phi) <= hi.
Definition slope (N : nat) (H P : mat Cx) (phi : bits -> Cx) : R := fst (cmul ci (expect N (comm N H P) phi)).
Definition turn (x : R) (s : list pauli) : mat Cx := madd (mscal ((cos x, 0) : Cx) mone) (mscal ((0, sin x) : Cx) (pmat s)).
Lemma item_turn w s t : existsb (fun p => negb (pauli_eqb p PI)) s = true -> item w s t = turn (w * t) s.
Proof.
  intro E. unfold item, exp_item, turn. rewrite E, cos_of_half, sin_of_half. cbn [fst]. f_equal. f_equal. apply C_eq; cbn; ring.
Qed.
Lemma turn_adj N x s : length s = N -> madj (turn x s) =[N]= turn (- x) s.
Proof.
  intro L. constructor. intros r c Lr Lc. unfold turn, madj, madd, mscal. rewrite cconj_add, !cconj_mul.
  pose proof (mone_adj Cx N r c Lr Lc) as Q0. unfold madj in Q0. rewrite Q0. pose proof (pmat_adj Cx s N L r c Lr Lc) as Q. unfold madj in Q. rewrite Q, cos_neg, sin_neg. f_equal; f_equal; apply C_eq; cbn; ring.
Qed.
Lemma pauli_sq N s : length s = N -> mmul N (pmat s) (pmat s) =[N]= @mone Cx.
Proof. intro L. constructor. intros r c Lr Lc. exact (pmat_sq Cx s N L r c Lr Lc). Qed.
Lemma turn_inv N x s : length s = N -> mmul N (turn (- x) s) (turn x s) =[N]= mone.
Proof.
  intro L. unfold turn. rewrite (addl N), !(addr N), !(scall N), !(scalr N), (mul1l N mone), (mul1l N (pmat s)), (mul1r N (pmat s)), (pauli_sq N s L).
  constructor. intros r c Lr Lc. unfold madd, mscal. rewrite cos_neg, sin_neg. pose proof (sin2_cos2 x) as Q. unfold Rsqr in Q.
  generalize (@mone Cx r c) (@pmat Cx s r c). intros [m m'] [p p']. apply C_eq; cbn.
  - transitivity ((sin x * sin x + cos x * cos x) * m); [ring|rewrite Q; ring].
  - transitivity ((sin x * sin x + cos x * cos x) * m'); [ring|rewrite Q; ring].
Qed.
Lemma norm_iso N (U : mat Cx) psi : mmul N (madj U) U =[N]= mone -> norm2 N (mvec N U psi) = norm2 N psi.
Proof.
  intros [H]. rewrite <- !expect_mone. transitivity (expect N (mmul N (madj U) U) psi); [|apply CircuitProofs2.expect_meq; exact H].
  rewrite CircuitProofs2.expect_adj, expect_mone. reflexivity.
Qed.
Lemma turn_norm N x s psi : length s = N -> norm2 N (mvec N (turn x s) psi) = norm2 N psi.
Proof. intro L. apply norm_iso. rewrite (turn_adj N x s L). apply turn_inv. exact L. Qed.
Lemma pauli_norm N s psi : length s = N -> norm2 N (mvec N (pmat s) psi) = @norm2 Cx N psi.
Proof. intro L. apply norm_iso. assert (A : madj (pmat s) =[N]= @pmat Cx s) by (constructor; apply (pmat_adj Cx s N L)). rewrite A. apply pauli_sq. exact L. Qed.
Lemma expect_conj N (U H : mat Cx) psi : expect N H (mvec N U psi) = expect N (mmul N (madj U) (mmul N H U)) psi.
Proof. rewrite CircuitProofs2.expect_adj. unfold expect. apply sumbits_ext. intros b _. now rewrite mvec_mmul. Qed.
Lemma expect_plus N (A B : mat Cx) psi : expect N (madd A B) psi = cadd (expect N A psi) (expect N B psi).
Proof.
  unfold expect. rewrite <- sumbits_add. apply sumbits_ext. intros b _. unfold mvec, madd.
  transitivity (cmul (cconj (psi b)) (cadd (sumbits N (fun c => cmul (A b c) (psi c))) (sumbits N (fun c => cmul (B b c) (psi c))))); [|ring].
  f_equal. rewrite <- sumbits_add. apply sumbits_ext. intros c _. ring.
Qed.
(** The energy along one rotation. *)
Lemma turn_energy N (H : mat Cx) x s psi : length s = N ->
  fst (expect N H (mvec N (turn x s) psi)) =
    cos x * cos x * fst (expect N H psi) + sin x * sin x * fst (expect N H (mvec N (pmat s) psi)) + sin x * cos x * slope N H (pmat s) psi.
Proof.
  intro L. rewrite !expect_conj.
  assert (E : mmul N (madj (turn x s)) (mmul N H (turn x s)) =[N]=
    madd (madd (mscal ((cos x * cos x, 0) : Cx) H) (mscal ((sin x * sin x, 0) : Cx) (mmul N (pmat s) (mmul N H (pmat s))))) (mscal ((sin x * cos x, 0) : Cx) (mscal ci (comm N H (pmat s))))).
  { rewrite (turn_adj N x s L). unfold turn. rewrite (addr N _ _ H), !(scalr N), (mul1r N H), (addl N), !(addr N), !(scall N), !(scalr N), !(mul1l N).
    constructor. intros r c Lr Lc. unfold madd, mscal, comm. rewrite cos_neg, sin_neg.
    generalize (H r c) (mmul N H (pmat s) r c) (mmul N (pmat s) H r c) (mmul N (pmat s) (mmul N H (pmat s)) r c). intros h u v w. apply C_eq; cbn; ring. }
  rewrite (CircuitProofs2.expect_meq Cx N _ _ psi (un _ _ _ E)), !expect_plus, !(expect_scal Cx).
  assert (A : expect N (mmul N (madj (pmat s)) (mmul N H (pmat s))) psi = expect N (mmul N (pmat s) (mmul N H (pmat s))) psi).
  { apply CircuitProofs2.expect_meq. apply (mmul_meq Cx N); [apply (pmat_adj Cx s N L)|apply meq_refl]. }
  rewrite A. unfold slope. generalize (expect N H psi) (expect N (mmul N (pmat s) (mmul N H (pmat s))) psi) (expect N (comm N H (pmat s)) psi).
  intros [a a'] [b b'] [d d']. cbn. ring.
Qed.
Definition qu : R := Rtrigo1.PI / 4.
Lemma slope_shift N H s psi : length s = N ->
  slope N H (pmat s) psi = fst (expect N H (mvec N (turn qu s) psi)) - fst (expect N H (mvec N (turn (- qu) s) psi)).
Proof.
  intro L. rewrite !(turn_energy N H _ s psi L), cos_neg, sin_neg. assert (Q : sin qu * cos qu = / 2).
  { unfold qu. rewrite sin_PI4, cos_PI4. pose proof (sqrt_sqrt 2 ltac:(lra)) as S. assert (sqrt 2 <> 0) by (intro Z; rewrite Z in S; lra).
    transitivity (/ (sqrt 2 * sqrt 2)); [field; assumption|rewrite S; reflexivity]. }
  transitivity (2 * (sin qu * cos qu) * slope N H (pmat s) psi); [rewrite Q; field|ring].
Qed.
Section Bound.
  Variables (N : nat) (H : mat Cx) (lo hi : R).
  Implicit Types psi p q : bits -> Cx.
  Hypothesis B : within N H lo hi.
  Notation En := (fun psi => fst (expect N H psi)).
  Notation W := (hi - lo).
  Lemma W_pos psi : norm2 N psi = c1 -> 0 <= W.
  Proof. intro U. pose proof (B psi U). lra. Qed.
  Lemma diff_bound p q : norm2 N p = c1 -> norm2 N q = c1 -> Rabs (En p - En q) <= W.
  Proof. intros U V. pose proof (B p U). pose proof (B q V). apply Rabs_le. lra. Qed.
  Lemma slope_bound s psi : length s = N -> norm2 N psi = c1 -> Rabs (slope N H (pmat s) psi) <= W.
  Proof. intros L U. rewrite (slope_shift N H s psi L). apply diff_bound; rewrite turn_norm; assumption. Qed.
  Lemma turn_diff x s psi : length s = N -> En (mvec N (turn x s) psi) - En psi = sin x * sin x * (En (mvec N (pmat s) psi) - En psi) + sin x * cos x * slope N H (pmat s) psi.
  Proof.
    intro L. cbv beta. rewrite (turn_energy N H x s psi L). pose proof (sin2_cos2 x) as Q. unfold Rsqr in Q.
    replace (cos x * cos x) with (1 - sin x * sin x) by lra. ring.
  Qed.
  Lemma lipschitz x s psi : length s = N -> norm2 N psi = c1 -> Rabs (En (mvec N (turn x s) psi) - En psi) <= 2 * W * Rabs x.
  Proof.
    intros L U. cbv beta. rewrite (turn_diff x s psi L). eapply Rle_trans; [apply Rabs_triang|]. rewrite !Rabs_mult.
    pose proof (diff_bound (mvec N (pmat s) psi) psi ltac:(rewrite pauli_norm; assumption) U) as D. pose proof (slope_bound s psi L U) as G. pose proof (W_pos psi U) as P. cbv beta in D.
    pose proof (sin_abs x) as S. pose proof (Rabs_pos (sin x)). pose proof (Rabs_pos (cos x)). pose proof (Rabs_pos x).
    assert (S1 : Rabs (sin x) <= 1) by (apply Rabs_le; pose proof (SIN_bound x); lra). assert (C1' : Rabs (cos x) <= 1) by (apply Rabs_le; pose proof (COS_bound x); lra).
    assert (Rabs (sin x) * Rabs (sin x) <= Rabs x) by nra. assert (Rabs (sin x) * Rabs (cos x) <= Rabs x) by nra.
    assert (0 <= Rabs (sin x) * Rabs (sin x)) by nra. assert (0 <= Rabs (sin x) * Rabs (cos x)) by nra.
    pose proof (Rabs_pos (fst (expect N H (mvec N (pmat s) psi)) - fst (expect N H psi))). pose proof (Rabs_pos (slope N H (pmat s) psi)). nra.
  Qed.
  Lemma second x s psi : length s = N -> norm2 N psi = c1 -> Rabs (En (mvec N (turn x s) psi) - En psi - x * slope N H (pmat s) psi) <= 2 * W * (x * x).
  Proof.
    intros L U. cbv beta. rewrite (turn_diff x s psi L).
    match goal with |- Rabs ?a <= _ => replace a with (sin x * sin x * (fst (expect N H (mvec N (pmat s) psi)) - fst (expect N H psi)) + (sin x * cos x - x) * slope N H (pmat s) psi) by ring end.
    eapply Rle_trans; [apply Rabs_triang|]. rewrite (Rabs_mult (sin x * sin x)), (Rabs_mult (sin x * cos x - x)).
    pose proof (diff_bound (mvec N (pmat s) psi) psi ltac:(rewrite pauli_norm; assumption) U) as D. pose proof (slope_bound s psi L U) as G. pose proof (W_pos psi U) as P. cbv beta in D.
    pose proof (sin_sqr x) as S. pose proof (sin_cos_near x) as T. rewrite (Rabs_right (sin x * sin x)) by nra. pose proof (Rabs_pos (sin x * cos x - x)).
    pose proof (Rabs_pos (fst (expect N H (mvec N (pmat s) psi)) - fst (expect N H psi))). pose proof (Rabs_pos (slope N H (pmat s) psi)).
    assert (0 <= sin x * sin x) by nra. nra.
  Qed.
End Bound.
Lemma within_conj N H lo hi U : mmul N (madj U) U =[N]= mone -> within N H lo hi -> within N (mmul N (madj U) (mmul N H U)) lo hi.
Proof. intros I B phi Hp. rewrite <- expect_conj. apply B. rewrite norm_iso; assumption. Qed.
Lemma slope_lipschitz N H lo hi x s s' psi : within N H lo hi -> length s = N -> length s' = N -> norm2 N psi = c1 ->
  Rabs (slope N H (pmat s') (mvec N (turn x s) psi) - slope N H (pmat s') psi) <= 4 * (hi - lo) * Rabs x.
Proof.
  intros B L L' U. rewrite !(slope_shift N H s' _ L'), !(expect_conj N (turn _ s') H).
  assert (I : forall y, mmul N (madj (turn y s')) (turn y s') =[N]= mone) by (intro y; rewrite (turn_adj N y s' L'); apply turn_inv; exact L').
  pose proof (lipschitz N _ lo hi (within_conj N H lo hi _ (I qu) B) x s psi L U) as P.
  pose proof (lipschitz N _ lo hi (within_conj N H lo hi _ (I (- qu)) B) x s psi L U) as Q. cbv beta in P, Q.
  match goal with |- Rabs ?a <= _ => match type of P with Rabs ?b <= _ => match type of Q with Rabs ?c <= _ => replace a with (b + - c) by ring end end end.
  eapply Rle_trans; [apply Rabs_triang|]. rewrite Rabs_Ropp. lra.
Qed.

(** ** A sequence of rotations *)
Definition weight (l : list (R * list pauli)) : R := fold_right (fun e t => Rabs (fst e) + t) 0 l.
Lemma weight_pos l : 0 <= weight l.
Proof. induction l as [|e l IH]; cbn [weight fold_right]; [lra|]. fold (weight l). pose proof (Rabs_pos (fst e)). lra. Qed.
Definition slopes (N : nat) (H : mat Cx) (l : list (R * list pauli)) (psi : bits -> Cx) : R :=
  fold_right (fun e t => (if existsb (fun p => negb (pauli_eqb p PI)) (snd e) then fst e * slope N H (pmat (snd e)) psi else 0) + t) 0 l.
Lemma slopes_lipschitz N H lo hi x s psi l : within N H lo hi -> length s = N -> (forall w s', In (w, s') l -> length s' = N) -> norm2 N psi = c1 ->
  Rabs (slopes N H l (mvec N (turn x s) psi) - slopes N H l psi) <= 4 * (hi - lo) * Rabs x * weight l.
Proof.
  intros B L LL U. induction l as [|[w s'] l IH]; cbn [slopes weight fold_right fst snd]; [rewrite Rminus_0_r, Rabs_R0; lra|].
  fold (slopes N H l (mvec N (turn x s) psi)) (slopes N H l psi) (weight l).
  specialize (IH (fun w s' I => LL w s' (or_intror I))). pose proof (LL w s' (or_introl eq_refl)) as L'.
  assert (P : 0 <= 4 * (hi - lo) * Rabs x) by (pose proof (W_pos N H lo hi B psi U); pose proof (Rabs_pos x); nra).
  destruct (existsb _ s').
  - pose proof (slope_lipschitz N H lo hi x s s' psi B L L' U) as G.
    match goal with |- Rabs ?a <= _ => replace a with (w * (slope N H (pmat s') (mvec N (turn x s) psi) - slope N H (pmat s') psi) + (slopes N H l (mvec N (turn x s) psi) - slopes N H l psi)) by ring end.
    eapply Rle_trans; [apply Rabs_triang|]. rewrite Rabs_mult. pose proof (Rabs_pos w). nra.
  - rewrite !Rplus_0_l. pose proof (Rabs_pos w). nra.
Qed.
Lemma mvec_one N (psi : bits -> Cx) r : length r = N -> mvec N mone psi r = psi r.
Proof.
  intro L. unfold mvec, mone. transitivity (sumbits N (fun c => if bits_eqb c r then psi c else (c0 : Cx))); [|apply (sumbits_pick Cx N r psi L)].
  apply sumbits_ext. intros c _. rewrite (bits_eqb_sym r c). destruct (bits_eqb c r); ring.
Qed.
Lemma expect_state N (A : mat Cx) f g : (forall r, length r = N -> f r = g r) -> expect N A f = expect N A g.
Proof. intro E. unfold expect. apply sumbits_ext. intros b Hb. rewrite E by exact Hb. f_equal. unfold mvec. apply sumbits_ext. intros c Hc. now rewrite E. Qed.
Theorem second_order N H lo hi l : within N H lo hi -> (forall w s, In (w, s) l -> length s = N) -> forall psi, norm2 N psi = c1 ->
  Rabs (fst (expect N H (mvec N (flow N l 1) psi)) - fst (expect N H psi) - slopes N H l psi) <= 2 * (hi - lo) * (weight l * weight l).
Proof.
  intros B. induction l as [|[w s] l IH]; intros LL psi U.
  - cbn [slopes weight fold_right]. rewrite (expect_state N H _ psi) by (intros r Hr; apply mvec_one; exact Hr).
    match goal with |- Rabs ?a <= ?b => replace a with 0 by ring; replace b with 0 by ring end. rewrite Rabs_R0. lra.
  - specialize (IH (fun w s I => LL w s (or_intror I))). pose proof (LL w s (or_introl eq_refl)) as L.
    assert (E : forall r, length r = N -> mvec N (flow N ((w, s) :: l) 1) psi r = mvec N (flow N l 1) (mvec N (item w s 1) psi) r).
    { intros r _. unfold flow. cbn [rated map exp_seq fst snd]. apply mvec_mmul. }
    rewrite (expect_state N H _ _ E). cbn [slopes weight fold_right fst snd]. fold (slopes N H l psi) (weight l).
    pose proof (W_pos N H lo hi B psi U) as P. pose proof (weight_pos l) as Wl. pose proof (Rabs_pos w) as Pw.
    destruct (existsb (fun p => negb (pauli_eqb p PI)) s) eqn:X.
    + rewrite (item_turn w s 1 X), Rmult_1_r. set (phi := mvec N (turn w s) psi).
      assert (Up : norm2 N phi = c1) by (unfold phi; rewrite turn_norm; assumption).
      pose proof (IH phi Up) as I1. pose proof (second N H lo hi B w s psi L U) as I2. cbv beta in I2. fold phi in I2.
      pose proof (slopes_lipschitz N H lo hi w s psi l B L (fun w s I => LL w s (or_intror I)) U) as I3. fold phi in I3.
      match goal with |- Rabs ?a <= _ => match type of I1 with Rabs ?x <= _ => match type of I2 with Rabs ?y <= _ => match type of I3 with Rabs ?z <= _ => replace a with (x + y + z) by ring end end end end.
      eapply Rle_trans; [apply Rabs_triang|]. eapply Rle_trans; [apply Rplus_le_compat_r, Rabs_triang|].
      assert (Q : w * w = Rabs w * Rabs w) by (rewrite <- Rabs_mult, Rabs_right; [reflexivity|nra]). rewrite Q in I2.
      replace (2 * (hi - lo) * ((Rabs w + weight l) * (Rabs w + weight l))) with (2 * (hi - lo) * (weight l * weight l) + 2 * (hi - lo) * (Rabs w * Rabs w) + 4 * (hi - lo) * Rabs w * weight l) by ring. lra.
    + assert (E1 : forall r, length r = N -> mvec N (item w s 1) psi r = psi r).
      { intros r Hr. unfold item, exp_item. rewrite X. apply mvec_one. exact Hr. }
      assert (E2 : expect N H (mvec N (flow N l 1) (mvec N (item w s 1) psi)) = expect N H (mvec N (flow N l 1) psi)).
      { apply expect_state. intros r _. unfold mvec at 1 3. apply sumbits_ext. intros c Hc. now rewrite E1. }
      rewrite E2, Rplus_0_l. eapply Rle_trans; [apply IH; exact U|]. apply Rmult_le_compat_l; [lra|]. nra.
Qed.
(** The first-order term. *)
Lemma comm_lin N (H : mat Cx) x A D : comm N H (madd (mscal x A) D) =[N]= madd (mscal x (comm N H A)) (comm N H D).
Proof.
  constructor. intros r c Lr Lc. pose proof (mmul_add_r Cx N (mscal x A) D H r c Lr Lc) as Q1. pose proof (mmul_add_l Cx N (mscal x A) D H r c Lr Lc) as Q2.
  pose proof (mmul_scal_r Cx N x H A r c Lr Lc) as Q3. pose proof (mmul_scal_l Cx N x A H r c Lr Lc) as Q4.
  etransitivity; [exact (f_equal2 csub Q1 Q2)|].
  etransitivity; [exact (f_equal2 csub (f_equal2 cadd Q3 eq_refl) (f_equal2 cadd Q4 eq_refl))|]. unfold madd, mscal, comm. ring.
Qed.
Lemma slopes_gen N H psi l : slopes N H l psi = fst (cmul ci (expect N (comm N H (gen l)) psi)).
Proof.
  induction l as [|[w s] l IH]; cbn [slopes fold_right gen fst snd].
  - assert (E : expect N (comm N H mzero) psi = (c0 : Cx)).
    { transitivity (expect N (mscal (c0 : Cx) mzero) psi).
      - apply CircuitProofs2.expect_meq. intros r c Lr Lc. unfold comm. rewrite (mmul_zero_l Cx N H r c Lr Lc), (mmul_zero_r Cx N H r c Lr Lc). unfold mscal, mzero. ring.
      - rewrite (expect_scal Cx). ring. }
    rewrite E. cbn. ring.
  - fold (slopes N H l psi). rewrite IH.
    assert (E : comm N H (madd (mscal ((w, 0) : Cx) (if existsb (fun p => negb (pauli_eqb p PI)) s then pmat s else mzero)) (gen l)) =[N]=
      madd (mscal ((w, 0) : Cx) (comm N H (if existsb (fun p => negb (pauli_eqb p PI)) s then pmat s else mzero))) (comm N H (gen l))).
    { apply comm_lin. }
    rewrite (CircuitProofs2.expect_meq Cx N _ _ psi (un _ _ _ E)), expect_plus, (expect_scal Cx).
    destruct (existsb _ s).
    + unfold slope. generalize (expect N (comm N H (pmat s)) psi) (expect N (comm N H (gen l)) psi). intros [a a'] [b b']. cbn. ring.
    + assert (Z : expect N (comm N H mzero) psi = (c0 : Cx)).
      { transitivity (expect N (mscal (c0 : Cx) mzero) psi).
        - apply CircuitProofs2.expect_meq. intros r c Lr Lc. unfold comm. rewrite (mmul_zero_l Cx N H r c Lr Lc), (mmul_zero_r Cx N H r c Lr Lc). unfold mscal, mzero. ring.
        - rewrite (expect_scal Cx). ring. }
      rewrite Z. generalize (expect N (comm N H (gen l)) psi). intros [b b']. cbn. ring.
Qed.
