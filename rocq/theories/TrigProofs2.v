(** Energies evaluated by the variational solvers, and their numerical gradients. *)
From Coq Require Import Bool List Arith Reals Lra Lia Ring.
From Verif Require Import Coeff MatSpec MatLemmas AdjProofs OpSpec FockSpec CircuitSpec CircuitModel CircuitProofs CircuitProofs2 ComplexR PauliModel TomoModel
  QuantSpec QuantProofs QuantProofs2 RdmModel RdmSpec HamModel HamSpec TransformModel VqeModel VqeSpec StoreModel StoreProofs PlanModel PlanSpec PlanProofs3 PlanProofs4 PlanProofs5 ConsSpec ConsModel ConsProofs ConsProofs3 ConsProofs4 EulerProofs EulerProofs3 AdCircModel AdCircSpec AdaptProofs4 RotSpec RotProofs RotProofs2 TrigSpec TrigProofs GradModel.
Import ListNotations.
Local Open Scope R_scope.
Add Ring CxRing8 : (c_ring Cx).

Lemma ipow_unit z : cmul (cconj (@ipow Cx z)) (ipow z) = c1.
Proof. unfold ipow. repeat match goal with |- context [match ?x with _ => _ end] => destruct x end; apply C_eq; cbn; lra. Qed.
Lemma expect_phase N (H : mat Cx) (f g : bits -> Cx) z : (forall x, length x = N -> f x = cmul (g x) (ipow z)) -> expect N H f = expect N H g.
Proof.
  intro E. transitivity (expect N H (fun x => cmul (g x) (ipow z))); [apply EulerProofs.expect_state; exact E|]. unfold expect. apply sumbits_ext. intros r _.
  assert (M : mvec N H (fun x => cmul (g x) (ipow z)) r = cmul (mvec N H g r) (ipow z)).
  { unfold mvec. rewrite <- (sumbits_scal_r Cx). apply sumbits_ext. intros c _. ring. }
  rewrite M, (cconj_mul Cx). transitivity (cmul (cmul (cconj (g r)) (mvec N H g r)) (cmul (cconj (ipow z)) (ipow z)) : Cx); [ring|]. rewrite ipow_unit. ring.
Qed.
Lemma reals_ok ps : forall p : Cx, In p (reals ps) -> snd p = 0.
Proof. intros p I. unfold reals in I. apply in_map_iff in I. destruct I as [y [<- _]]. reflexivity. Qed.

Section Energies.
  Variables (depth No a b : nat) (tiny : Cx -> bool) (simp : simplify_option) (imag : bool) (w : Cx) (h : nat -> nat -> Cx) (V : nat -> nat -> nat -> nat -> Cx) (en_c : Cx).
  Hypothesis D0 : (0 < depth)%nat.
  Hypothesis HA : (a <= No)%nat.
  Hypothesis HB : (b <= No)%nat.
  Hypothesis Ht : forall x, tiny x = true -> x = c0.
  Hypothesis Sz : sized simp.
  Hypothesis Hw : cmul (cmul (cadd (cadd (cadd c1 c1) c1) c1) w) (ofnat (a + b - 1)) = c1.
  Hypothesis Iw : snd w = 0.
  Hypothesis Ih : forall i j, snd (h i j) = 0.
  Hypothesis Sh : forall i j, h i j = h j i.
  Hypothesis IV : forall p q s t, snd (V p q s t) = 0.
  Hypothesis S1 : forall p q s t, V p q s t = V q p t s.
  Hypothesis S2 : forall p q s t, V p q s t = V s t p q.
  Let Re : forall x : Cx, snd x = 0 -> cconj x = x.
  Proof. intros x Hx. apply C_eq; cbn [Cx cconj Cconj fst snd]; [reflexivity|rewrite Hx; ring]. Qed.
  Lemma measured prep t : (forall g, In g prep -> valid (2 * No) g) -> has_up (2 * No) No a (prepared Crt (2 * No) prep) -> has_particles (2 * No) (a + b) (prepared Crt (2 * No) prep) ->
    tomography Crt tiny jw_operator simp 2 true imag No prep = Some t ->
    fst (evaluate (2 * No) (build_K2 (2 * No) w h V) en_c t) = fst (expect (2 * No) (ham (2 * No) h V) (prepared Crt (2 * No) prep)) + fst en_c.
  Proof.
    intros Va Up Pa T.
    destruct (tomography_energy_real Cx Crt Crt_sq crt_real tiny Ht cx_exact simp imag No (a + b) a w h V en_c prep t Sz Va Up Pa Hw (Re _ Iw)
      (fun i j => Re _ (Ih i j)) Sh (fun p q s t => Re _ (IV p q s t)) S1 S2 T) as [E _]. rewrite E. reflexivity.
  Qed.
  Lemma term_length n t : ansatz_term n t -> length t = 4%nat.
  Proof. intros [i [k [l [j [-> _]]]]]. reflexivity. Qed.
  Theorem adapt_energy (terms : list (list nat)) (ps : list R) prep t : (forall k, In k terms -> ansatz_term No k) -> usable (2 * No) (combine terms (reals ps)) ->
    ad_circuit depth No a b terms (reals ps) = Some prep -> tomography Crt tiny jw_operator simp 2 true imag No prep = Some t ->
    fst (evaluate (2 * No) (build_K2 (2 * No) w h V) en_c t) = ansatz_energy (2 * No) depth (ham (2 * No) h V) (reference_bits No a b) (combine terms (reals ps)) + fst en_c.
  Proof.
    intros HK U E T. destruct (ad_state depth No a b terms (reals ps) D0 HA HB HK (reals_ok ps)) as [prep' [E' [Va [Up Pa]]]]. rewrite E in E'. injection E' as <-.
    rewrite (measured prep t Va Up Pa T). f_equal.
    destruct (adapt_rotations depth No a b terms (reals ps) D0 HA HB (usable_small _ _ U) (fun t I => term_length No t (HK t I))) as [prep' [z [E' S]]]. rewrite E in E'. injection E' as <-.
    unfold ansatz_energy. f_equal. apply (expect_phase (2 * No) _ _ _ z S).
  Qed.
  (** Parameters of exactly zero are skipped by the coupled cluster solver. *)
  Lemma rotations_skip N l : (forall t p, In (t, p) l -> below10 p = true -> fst p = 0) -> rotations N depth (filter (fun e => negb (below10 (snd e))) l) =[N]= rotations N depth l.
  Proof.
    induction l as [|[t p] l IH]; intro H; [reflexivity|]. cbn [filter snd]. destruct (below10 p) eqn:B; cbn [negb rotations].
    - rewrite (IH (fun t' p' I => H t' p' (or_intror I))). rewrite (H t p (or_introl eq_refl) B).
      transitivity (mmul N (rotations N depth l) mone); [symmetry; apply mul1r|]. apply mmul_proper; [reflexivity|]. constructor. intros r c Lr Lc.
      unfold Rdiv. rewrite Rmult_0_l. unfold rotation, madd, mscal. rewrite sin_0, cos_0, Rminus_diag_eq by reflexivity. apply C_eq; cbn [Cx cadd cmul Cadd Cmul fst snd]; ring.
    - rewrite (IH (fun t' p' I => H t' p' (or_intror I))). reflexivity.
  Qed.
  Theorem vqe_energy s d tr q (ps : list R) L prep t : ucc s d tr q (seq 0 No) (seq No No) (seq 0 a ++ seq No b) = Some L ->
    (forall y, In y ps -> y = 0 \/ / 10 ^ 10 <= Rabs y) ->
    vqe_circuit depth s d tr q No a b (reals ps) = Some prep -> tomography Crt tiny jw_operator simp 2 true imag No prep = Some t ->
    fst (evaluate (2 * No) (build_K2 (2 * No) w h V) en_c t) = ansatz_energy (2 * No) depth (ham (2 * No) h V) (reference_bits No a b) (combine L (reals ps)) + fst en_c.
  Proof.
    intros HU U E T.
    assert (O : negb s && (tr || q) = false) by (unfold ucc in HU; destruct (negb s && (tr || q)); [discriminate|reflexivity]).
    destruct (vqe_state depth s d tr q No a b (reals ps) D0 HA HB O (reals_ok ps)) as [prep' [E' [Va [Up Pa]]]]. rewrite E in E'. injection E' as <-.
    rewrite (measured prep t Va Up Pa T). f_equal.
    destruct (vqe_rotations depth s d tr q No a b (reals ps) D0 HA HB O (reals_ok ps)) as [L' [prep' [z [EL [E' S]]]]]. rewrite E in E'. injection E' as <-. rewrite HU in EL. injection EL as <-.
    unfold ansatz_energy. f_equal. apply (expect_phase (2 * No) _ _ _ z). intros x Lx. rewrite (S x Lx). f_equal. unfold ansatz_state.
    assert (KK : forall t' p, In (t', p) (combine L (reals ps)) -> below10 p = true -> fst p = 0).
    { intros t' p I B. apply in_combine_r in I. unfold reals in I. apply in_map_iff in I. destruct I as [y [<- I]]. cbn [fst].
    destruct (U y I) as [Z|Z]; [exact Z|exfalso]. unfold below10 in B. cbn [fst snd] in B. destruct (Rlt_dec _ _) as [l|]; [|discriminate].
    assert (Q : / 10 ^ 20 = / 10 ^ 10 * / 10 ^ 10) by (rewrite <- Rinv_mult; f_equal; ring). assert (P : 0 < / 10 ^ 10) by (apply Rinv_0_lt_compat, pow_lt; lra).
    assert (X : y * y = Rabs y * Rabs y) by (unfold Rabs; destruct (Rcase_abs y); ring). rewrite Q, X in l. revert l Z P. generalize (Rabs y) (/ 10 ^ 10). intros u e l Z P. nra. }
    apply (un _ _ _ (rotations_skip (2 * No) (combine L (reals ps)) KK)); [exact Lx|]. unfold reference_bits. rewrite !app_length, !repeat_length. lia.
  Qed.
End Energies.

(** Gradients. *)
Lemma rbump_put i d x : (i < length x)%nat -> rbump i d x = put i (nth i x 0 + d) x.
Proof.
  unfold put. revert i. induction x as [|c x IH]; intros i L; [cbn in L; lia|]. destruct i as [|i]; cbn [rbump nth firstn skipn app]; [reflexivity|]. f_equal. apply IH. cbn in L. lia.
Qed.
Lemma put_self i x : (i < length x)%nat -> put i (nth i x 0) x = x.
Proof. intro L. rewrite <- (Rplus_0_r (nth i x 0)), <- rbump_put by exact L. clear L. revert i. induction x as [|c x IH]; intros [|i]; cbn [rbump]; [reflexivity|reflexivity|now rewrite Rplus_0_r|now rewrite IH]. Qed.
Lemma combine_put (terms : list (list nat)) i y x : (i < length x)%nat -> (i < length terms)%nat ->
  combine terms (reals (put i y x)) = combine (firstn i terms) (reals (firstn i x)) ++ (nth i terms [], ((y, 0) : Cx)) :: combine (skipn (S i) terms) (reals (skipn (S i) x)).
Proof.
  unfold put. revert i x. induction terms as [|t terms IH]; intros i x L1 L2; [cbn in L2; lia|]. destruct x as [|c x]; [cbn in L1; lia|].
  destruct i as [|i]; cbn [firstn skipn app reals map combine nth]; [reflexivity|]. f_equal. apply IH; cbn in *; lia.
Qed.
Theorem gradient_close N depth (H : mat Cx) ref (terms : list (list nat)) (E : list R -> R) (e : R) x i : (0 < depth)%nat -> length ref = N -> (i < length x)%nat -> (i < length terms)%nat ->
  exists d C, derivable_pt_lim (fun y => ansatz_energy N depth H ref (combine terms (reals (put i y x)))) (nth i x 0) d /\
    forall diff, 0 < diff ->
      (E x = ansatz_energy N depth H ref (combine terms (reals x)) + e -> E (rbump i diff x) = ansatz_energy N depth H ref (combine terms (reals (rbump i diff x))) + e ->
       Rabs (nth i (real_gradient E true diff x) 0 - d) <= C * diff) /\
      (E (rbump i diff x) = ansatz_energy N depth H ref (combine terms (reals (rbump i diff x))) + e -> E (rbump i (- diff) x) = ansatz_energy N depth H ref (combine terms (reals (rbump i (- diff) x))) + e ->
       Rabs (nth i (real_gradient E false diff x) 0 - d) <= C * (diff * diff)).
Proof.
  intros D0 Lr Li Lt.
  destruct (energy_trig N depth H ref (combine (firstn i terms) (reals (firstn i x))) (nth i terms []) (combine (skipn (S i) terms) (reals (skipn (S i) x))) Lr) as [a T].
  assert (F : forall y, ansatz_energy N depth H ref (combine terms (reals (put i y x))) = trig2 a (y / INR depth)) by (intro y; rewrite combine_put by assumption; apply T).
  assert (Hd : INR depth <> 0) by (apply not_0_INR; lia).
  assert (X : forall fw diff, nth i (real_gradient E fw diff x) 0 = if fw then (E (rbump i diff x) - E x) / diff else (E (rbump i diff x) - E (rbump i (- diff) x)) / (2 * diff)).
  { intros fw diff. unfold real_gradient. match goal with |- nth i (map ?f _) 0 = _ => set (g := f) end.
    rewrite (nth_indep _ 0 (g 0%nat)) by (rewrite map_length, seq_length; exact Li). rewrite map_nth, seq_nth by exact Li. reflexivity. }
  exists (trig2' a (nth i x 0 / INR depth) / INR depth), (fwd a / (INR depth * INR depth) + ctr a / (2 * Rabs (INR depth) * (INR depth * INR depth))).
  assert (PF : 0 <= fwd a / (INR depth * INR depth)).
  { apply Rmult_le_pos; [unfold fwd; pose proof (Rabs_pos (a 1%nat)); pose proof (Rabs_pos (a 2%nat)); pose proof (Rabs_pos (a 3%nat)); pose proof (Rabs_pos (a 4%nat)); lra|]. left. apply Rinv_0_lt_compat. nra. }
  assert (PC : 0 <= ctr a / (2 * Rabs (INR depth) * (INR depth * INR depth))).
  { apply Rmult_le_pos; [unfold ctr; pose proof (Rabs_pos (a 1%nat)); pose proof (Rabs_pos (a 2%nat)); pose proof (Rabs_pos (a 3%nat)); pose proof (Rabs_pos (a 4%nat)); lra|]. left. apply Rinv_0_lt_compat. pose proof (Rabs_pos_lt _ Hd). assert (0 < INR depth * INR depth) by nra. apply Rmult_lt_0_compat; lra. }
  split.
  - intros eps He. destruct (scaled_derivable a (INR depth) (nth i x 0) eps He) as [del Q]. exists del. intros k K0 K1. rewrite !F. exact (Q k K0 K1).
  - intros diff Hp. split.
    + intros E0 E1. rewrite X, E0, E1. rewrite rbump_put by exact Li. rewrite F. rewrite <- (put_self i x Li) at 2. rewrite F.
      replace (trig2 a ((nth i x 0 + diff) / INR depth) + e - (trig2 a (nth i x 0 / INR depth) + e)) with (trig2 a ((nth i x 0 + diff) / INR depth) - trig2 a (nth i x 0 / INR depth)) by ring.
      pose proof (scaled_forward a (INR depth) (nth i x 0) diff Hd Hp). nra.
    + intros E0 E1. rewrite X, E0, E1. rewrite !rbump_put by exact Li. rewrite !F.
      replace (trig2 a ((nth i x 0 + diff) / INR depth) + e - (trig2 a ((nth i x 0 + - diff) / INR depth) + e)) with (trig2 a ((nth i x 0 + diff) / INR depth) - trig2 a ((nth i x 0 - diff) / INR depth)) by (unfold Rminus; ring).
      pose proof (scaled_central a (INR depth) (nth i x 0) diff Hd Hp). nra.
Qed.

(** The slope of a new excitation. *)
Lemma conj_sub (x y : Cx) : cconj (csub x y) = csub (cconj x) (cconj y).
Proof. apply C_eq; cbn [Cx csub cconj Csub Cconj fst snd]; ring. Qed.
Lemma copp_expect N (A : mat Cx) psi : expect N (mscal (copp c1) A) psi = copp (expect N A psi).
Proof. rewrite (RdmFock.expect_scal Cx). ring. Qed.
Lemma conj_expect N (A : mat Cx) psi : cconj (expect N A psi) = expect N (madj A) psi.
Proof. symmetry. apply (RdmFock.expect_adj Cx). Qed.
Theorem slope N depth (H : mat Cx) ref l t : (0 < depth)%nat -> length ref = N -> meq N (madj H) H ->
  derivable_pt_lim (fun y => ansatz_energy N depth H ref (l ++ [(t, ((y, 0) : Cx))])) 0
    (- (2 * fst (expect N (comm N (excite (Nat.div2 (length t)) t) H) (ansatz_state N depth ref l))) / INR depth).
Proof.
  intros D0 Lr Hh. set (T := excite (Nat.div2 (length t)) t : mat Cx). set (G := generator (Nat.div2 (length t)) t c1 : mat Cx). set (psi := ansatz_state N depth ref l).
  set (u0 := fun x => mmul N (rotations N depth []) (rotations N depth l) x ref). set (u1 := fun x => mmul N (mmul N (rotations N depth []) G) (rotations N depth l) x ref).
  set (u2 := fun x => mmul N (mmul N (rotations N depth []) (mmul N G G)) (rotations N depth l) x ref).
  assert (F : forall y, ansatz_energy N depth H ref (l ++ [(t, ((y, 0) : Cx))]) = trig2 (coefs N H u0 u1 u2) (y / INR depth)).
  { intro y. unfold ansatz_energy. rewrite (EulerProofs.expect_state N H _ _ (fun r Lx => state_parts N depth ref l t y [] r Lr Lx)). apply form_trig. }
  assert (Q : trig2' (coefs N H u0 u1 u2) (0 / INR depth) = - (2 * fst (expect N (comm N T H) psi))).
  { unfold trig2', coefs, Rdiv. rewrite Rmult_0_l, Rmult_0_r, sin_0, cos_0.
    replace (- (- (q N H u0 u2 + q N H u2 u0) - 2 * q N H u2 u2) * 0 + (q N H u0 u1 + q N H u1 u0 + q N H u1 u2 + q N H u2 u1) * 1 - 2 * ((q N H u2 u2 - q N H u1 u1) * / 2) * 0 + 2 * (- (q N H u1 u2 + q N H u2 u1) * / 2) * 1)
      with (q N H u0 u1 + q N H u1 u0) by field.
    assert (E0 : forall x, length x = N -> u0 x = psi x) by (intros x Lx; exact (un _ _ _ (mul1l N (rotations N depth l)) x ref Lx Lr)).
    assert (E1 : forall x, length x = N -> u1 x = mvec N G psi x).
    { intros x Lx. unfold u1. assert (X : mmul N (mmul N (rotations N depth []) G) (rotations N depth l) =[N]= mmul N G (rotations N depth l)) by (cbn [rotations]; rewrite (mul1l N); reflexivity).
      rewrite (un _ _ _ X x ref Lx Lr). reflexivity. }
    assert (A : form N H u0 u1 = expect N (mmul N H G) psi).
    { unfold form, expect. apply sumbits_ext. intros r Lr'. rewrite (E0 r Lr'), mvec_mmul. f_equal. apply mvec_ext. exact E1. }
    assert (B : form N H u1 u0 = expect N (mmul N (madj G) H) psi).
    { rewrite CircuitProofs2.expect_adj. unfold form. apply sumbits_ext. intros r Lr'. rewrite (E1 r Lr'). f_equal. apply mvec_ext. exact E0. }
    unfold q. rewrite A, B.
    assert (S : cadd (expect N (mmul N H G) psi) (expect N (mmul N (madj G) H) psi) = copp (cadd (expect N (comm N T H) psi) (cconj (expect N (comm N T H) psi)))).
    { rewrite (conj_expect N). rewrite <- !expect_plus. rewrite <- (copp_expect N). apply CircuitProofs2.expect_meq. apply un.
      transitivity (madd (madd (mmul N H T) (mscal (copp c1) (mmul N H (madj T)))) (madd (mmul N (madj T) H) (mscal (copp c1) (mmul N T H)))).
      - assert (EG : G =[N]= madd T (mscal (copp c1) (madj T))) by (constructor; intros r c _ _; unfold G, generator, madd, mscal; fold T; ring).
        assert (EA : madj G =[N]= madd (madj T) (mscal (copp c1) T)).
        { constructor. intros r c _ _. unfold madj at 1. unfold G, generator. fold T. unfold madd, mscal, madj. rewrite (cconj_mul Cx), conj_sub, (cconj_1 Cx), (cconj_inv Cx). ring. }
        rewrite EA, EG, (addr N), (addl N), (scalr N), (scall N). reflexivity.
      - assert (EM : madj (comm N T H) =[N]= madd (mmul N H (madj T)) (mscal (copp c1) (mmul N (madj T) H))).
        { transitivity (madd (mmul N (madj H) (madj T)) (mscal (copp c1) (mmul N (madj T) (madj H)))).
          - constructor. intros r c Lr' Lc'. unfold madd, mscal. rewrite <- (un _ _ _ (RotProofs.madj_mul N T H) r c Lr' Lc'), <- (un _ _ _ (RotProofs.madj_mul N H T) r c Lr' Lc'). unfold madj, comm. rewrite (conj_sub). ring.
          - assert (EH : madj H =[N]= H) by (constructor; exact Hh). rewrite EH. reflexivity. }
        rewrite EM. constructor. intros r c _ _. unfold madd, mscal, comm. ring. }
    apply (f_equal fst) in S. revert S. generalize (expect N (comm N T H) psi) (expect N (mmul N H G) psi) (expect N (mmul N (madj G) H) psi). intros [c ?] [u ?] [v ?]. cbn [Cx cadd copp cconj Cadd Copp Cconj fst snd]. lra. }
  intros eps He. destruct (scaled_derivable (coefs N H u0 u1 u2) (INR depth) 0 eps He) as [del X]. exists del. intros k K0 K1. rewrite !F. specialize (X k K0 K1). rewrite Q in X. exact X.
Qed.
Lemma put_last x y : put (length x) y (x ++ [0]) = x ++ [y].
Proof. unfold put. rewrite firstn_app, firstn_all, Nat.sub_diag, skipn_all2 by (rewrite app_length; cbn; lia). cbn [firstn]. now rewrite app_nil_r. Qed.
Lemma combine_last (terms : list (list nat)) k x y : length terms = length x -> combine (terms ++ [k]) (reals (x ++ [y])) = combine terms (reals x) ++ [(k, ((y, 0) : Cx))].
Proof.
  revert x. induction terms as [|t terms IH]; intros [|c x] L; try discriminate; [reflexivity|]. cbn [app reals map combine]. f_equal. apply IH. cbn in L. lia.
Qed.
Theorem new_gradient N depth (H : mat Cx) ref (terms : list (list nat)) k (E : list R -> R) (e : R) x : (0 < depth)%nat -> length ref = N -> meq N (madj H) H -> length terms = length x ->
  exists C, forall diff, 0 < diff ->
    E (x ++ [0]) = ansatz_energy N depth H ref (combine (terms ++ [k]) (reals (x ++ [0]))) + e ->
    E (x ++ [diff]) = ansatz_energy N depth H ref (combine (terms ++ [k]) (reals (x ++ [diff]))) + e ->
    Rabs (nth (length x) (real_gradient E true diff (x ++ [0])) 0
          - - (2 * fst (expect N (comm N (excite (Nat.div2 (length k)) k) H) (ansatz_state N depth ref (combine terms (reals x))))) / INR depth) <= C * diff.
Proof.
  intros D0 Lr Hh LL. destruct (gradient_close N depth H ref (terms ++ [k]) E e (x ++ [0]) (length x) D0 Lr) as [d [C [D B]]]; try (rewrite app_length; cbn; lia).
  assert (Z : nth (length x) (x ++ [0]) 0 = 0) by (rewrite app_nth2, Nat.sub_diag by lia; reflexivity). rewrite Z in D.
  pose proof (slope N depth H ref (combine terms (reals x)) k D0 Lr Hh) as S.
  assert (U : d = - (2 * fst (expect N (comm N (excite (Nat.div2 (length k)) k) H) (ansatz_state N depth ref (combine terms (reals x))))) / INR depth).
  { refine (uniqueness_limite _ _ _ _ D _). intros eps He. destruct (S eps He) as [del Q]. exists del. intros s K0 K1. specialize (Q s K0 K1). rewrite !put_last, !combine_last by exact LL. exact Q. }
  rewrite <- U. exists C. intros diff Hd E0 E1. apply (B diff Hd); [exact E0|]. rewrite rbump_put by (rewrite app_length; cbn; lia). rewrite Z, Rplus_0_l, put_last. exact E1.
Qed.
