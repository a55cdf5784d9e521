(** The interpolated steps are stationary points of the interpolating polynomials. *)
From Coq Require Import Reals Lra Lia Psatz.
From Verif Require Import InterpModel InterpSpec.
Local Open Scope R_scope.

Lemma poly2_deriv a b c t : derivable_pt_lim (poly2 a b c) t (2 * a * t + b).
Proof.
  unfold derivable_pt_lim, poly2. intros eps He. destruct (Req_EM_T a 0) as [-> |Na].
  - exists (mkposreal 1 Rlt_0_1). intros h Hh _. replace (_ - _) with 0 by (field; exact Hh). rewrite Rabs_R0. exact He.
  - assert (Pa : 0 < Rabs a) by now apply Rabs_pos_lt. assert (D : 0 < eps / Rabs a) by now apply Rdiv_lt_0_compat.
    exists (mkposreal _ D). intros h Hh Hs. cbn [pos] in Hs. replace (_ - _) with (a * h) by (field; exact Hh). rewrite Rabs_mult.
    apply (Rmult_lt_compat_l (Rabs a)) in Hs; [|exact Pa]. replace (Rabs a * (eps / Rabs a)) with eps in Hs by (field; lra). exact Hs.
Qed.
Lemma poly3_deriv a b c d t : derivable_pt_lim (poly3 a b c d) t (3 * a * t ^ 2 + 2 * b * t + c).
Proof.
  unfold poly3. replace (3 * a * t ^ 2 + 2 * b * t + c) with (a * (INR 3 * t ^ pred 3) + (2 * b * t + c)) by (cbn; ring).
  assert (E : forall y, a * y ^ 3 + b * y ^ 2 + c * y + d = plus_fct (mult_real_fct a (fun y => y ^ 3)) (poly2 b c d) y) by (intro y; unfold plus_fct, mult_real_fct, poly2; ring).
  assert (Q : derivable_pt_lim (plus_fct (mult_real_fct a (fun y => y ^ 3)) (poly2 b c d)) t (a * (INR 3 * t ^ pred 3) + (2 * b * t + c))).
  { apply derivable_pt_lim_plus; [|apply poly2_deriv]. apply derivable_pt_lim_scal. apply derivable_pt_lim_pow. }
  intros eps He. destruct (Q eps He) as [dl Hd]. exists dl. intros h Hh Hs. rewrite !E. now apply Hd.
Qed.

(** Quadratics. *)
Lemma quad_value a b c l h : l <> h ->
  quadratic_interpolate l h (poly2 a b c l) (poly2 a b c h) (2 * a * l + b) = if Req_EM_T a 0 then None else Some (- b / (2 * a)).
Proof.
  intro N. unfold quadratic_interpolate. destruct (Req_EM_T (h - l) 0) as [Z|_]; [lra|].
  assert (E : / ((h - l) * (h - l)) * (poly2 a b c h - (2 * a * l + b) * (h - l) - poly2 a b c l) = a) by (unfold poly2; field; lra).
  rewrite E. destruct (Req_EM_T a 0) as [_|Na]; [reflexivity|]. f_equal. field. exact Na.
Qed.
Lemma poly2_square a b c t : a <> 0 -> poly2 a b c t = poly2 a b c (- b / (2 * a)) + a * (t - - b / (2 * a)) ^ 2.
Proof. intro N. unfold poly2. field. exact N. Qed.
Lemma slope2 a b c l g : derivable_pt_lim (poly2 a b c) l g -> g = 2 * a * l + b.
Proof. intro H. exact (uniqueness_limite _ _ _ _ H (poly2_deriv a b c l)). Qed.
Lemma slope3 a b c d l g : derivable_pt_lim (poly3 a b c d) l g -> g = 3 * a * l ^ 2 + 2 * b * l + c.
Proof. intro H. exact (uniqueness_limite _ _ _ _ H (poly3_deriv a b c d l)). Qed.

Lemma quad_min a b c l h fl fh gl : l <> h -> fits2 (poly2 a b c) l h fl fh gl -> 0 < a ->
  exists x, quadratic_interpolate l h fl fh gl = Some x /\ forall y, poly2 a b c x <= poly2 a b c y.
Proof.
  intros N [<- [D <-]] A. apply slope2 in D. subst gl. rewrite quad_value by exact N. destruct (Req_EM_T a 0) as [Z|Na]; [lra|]. eexists. split; [reflexivity|].
  intro y. rewrite (poly2_square a b c y Na). pose proof (pow2_ge_0 (y - - b / (2 * a))) as W. set (w := (y - - b / (2 * a)) ^ 2) in *. nra.
Qed.
Lemma quad_max a b c l h fl fh gl : l <> h -> fits2 (poly2 a b c) l h fl fh gl -> a < 0 ->
  exists x, quadratic_interpolate l h fl fh gl = Some x /\ forall y, poly2 a b c y <= poly2 a b c x.
Proof.
  intros N [<- [D <-]] A. apply slope2 in D. subst gl. rewrite quad_value by exact N. destruct (Req_EM_T a 0) as [Z|Na]; [lra|]. eexists. split; [reflexivity|].
  intro y. rewrite (poly2_square a b c y Na). pose proof (pow2_ge_0 (y - - b / (2 * a))) as W. set (w := (y - - b / (2 * a)) ^ 2) in *. nra.
Qed.
Lemma quad_line a b c l h fl fh gl : l <> h -> fits2 (poly2 a b c) l h fl fh gl -> a = 0 -> quadratic_interpolate l h fl fh gl = None.
Proof. intros N [<- [D <-]] A. apply slope2 in D. subst gl. rewrite quad_value by exact N. destruct (Req_EM_T a 0) as [Z|Na]; [reflexivity|lra]. Qed.
(** A bracket: downhill from l towards h, and h not lower than l. *)
Lemma quad_bracket l h fl fh gl : gl * (h - l) < 0 -> fl <= fh ->
  exists s, quadratic_interpolate l h fl fh gl = Some (l + s * (h - l)) /\ 0 < s <= 1 / 2.
Proof.
  intros G F. unfold quadratic_interpolate. destruct (Req_EM_T (h - l) 0) as [Z|N]; [rewrite Z in G; lra|].
  assert (S : 0 < (h - l) * (h - l)) by nra. set (D := h - l) in *. set (k := fh - gl * D - fl). assert (K : - (gl * D) <= k) by (unfold k; lra).
  assert (P : 0 < / (D * D) * k) by (apply Rmult_lt_0_compat; [now apply Rinv_0_lt_compat|lra]).
  destruct (Req_EM_T (/ (D * D) * k) 0) as [Z|_]; [lra|]. exists (- (gl * D) / (2 * k)). split.
  - f_equal. field. split; [lra|exact N].
  - split.
    + apply Rdiv_lt_0_compat; lra.
    + apply (Rmult_le_reg_r (2 * k)); [lra|]. unfold Rdiv. rewrite Rmult_assoc, Rinv_l by lra. lra.
Qed.

(** Cubics. *)
Lemma cubic_value a b c d l h m : l <> h -> l <> m -> h <> m ->
  cubic_interpolate l h m (poly3 a b c d l) (poly3 a b c d h) (poly3 a b c d m) (3 * a * l ^ 2 + 2 * b * l + c) =
  if Req_EM_T (3 * a) 0 then None
  else if Rlt_dec ((2 * b) ^ 2 - 4 * (3 * a) * c) 0 then None
  else let s := sqrt ((2 * b) ^ 2 - 4 * (3 * a) * c) in
       let p := - (2 * b) / (2 * (3 * a)) + s / (2 * (3 * a)) in
       let q := - (2 * b) / (2 * (3 * a)) - s / (2 * (3 * a)) in
       if Rlt_dec l p then if Rlt_dec p h then Some p else Some q else Some q.
Proof.
  intros N1 N2 N3. unfold cubic_interpolate, solve2.
  set (H := h - l). set (M := m - l). assert (NH : H <> 0) by (unfold H; lra). assert (NM : M <> 0) by (unfold M; lra). assert (NHM : H - M <> 0) by (unfold H, M; lra).
  assert (Dt : H ^ 3 * M ^ 2 - H ^ 2 * M ^ 3 = H ^ 2 * M ^ 2 * (H - M)) by ring.
  assert (ND : H ^ 3 * M ^ 2 - H ^ 2 * M ^ 3 <> 0) by (rewrite Dt; repeat apply Rmult_integral_contrapositive_currified; (try apply pow_nonzero); try assumption; lra).
  destruct (Req_EM_T (H ^ 3 * M ^ 2 - H ^ 2 * M ^ 3) 0) as [Z|_]; [contradiction|].
  assert (U : poly3 a b c d h - (3 * a * l ^ 2 + 2 * b * l + c) * H - poly3 a b c d l = a * H ^ 3 + (b + 3 * a * l) * H ^ 2) by (unfold poly3, H; ring).
  assert (V : poly3 a b c d m - (3 * a * l ^ 2 + 2 * b * l + c) * M - poly3 a b c d l = a * M ^ 3 + (b + 3 * a * l) * M ^ 2) by (unfold poly3, M; ring).
  rewrite U, V.
  assert (X : ((a * H ^ 3 + (b + 3 * a * l) * H ^ 2) * M ^ 2 - H ^ 2 * (a * M ^ 3 + (b + 3 * a * l) * M ^ 2)) / (H ^ 3 * M ^ 2 - H ^ 2 * M ^ 3) = a) by (field; exact ND).
  assert (Y : (H ^ 3 * (a * M ^ 3 + (b + 3 * a * l) * M ^ 2) - (a * H ^ 3 + (b + 3 * a * l) * H ^ 2) * M ^ 3) / (H ^ 3 * M ^ 2 - H ^ 2 * M ^ 3) = b + 3 * a * l) by (field; exact ND).
  rewrite X, Y. cbv zeta.
  replace (2 * (b + 3 * a * l) - 6 * l * a) with (2 * b) by ring. replace (3 * l ^ 2 * a - 2 * (b + 3 * a * l) * l + (3 * a * l ^ 2 + 2 * b * l + c)) with c by ring. reflexivity.
Qed.

(** Around a zero x of the slope. *)
Lemma poly3_around a b c d x y : 3 * a * x ^ 2 + 2 * b * x + c = 0 -> poly3 a b c d y - poly3 a b c d x = (y - x) ^ 2 * (3 * a * x + b + a * (y - x)).
Proof.
  intro H. unfold poly3. transitivity ((y - x) ^ 2 * (3 * a * x + b + a * (y - x)) + (3 * a * x ^ 2 + 2 * b * x + c) * (y - x)); [ring|]. rewrite H. ring.
Qed.
Lemma near_sign a k : 0 < k -> exists e, 0 < e /\ forall z, Rabs z < e -> 0 <= k + a * z.
Proof.
  intro K. exists (k / (Rabs a + 1)). pose proof (Rabs_pos a) as Pa. split; [apply Rdiv_lt_0_compat; lra|]. intros z Hz.
  apply (Rmult_lt_compat_r (Rabs a + 1)) in Hz; [|lra]. unfold Rdiv in Hz. rewrite Rmult_assoc, Rinv_l in Hz by lra.
  pose proof (Rle_abs (- (a * z))) as Q. rewrite Rabs_Ropp, Rabs_mult in Q. pose proof (Rabs_pos z). nra.
Qed.
Lemma valley3 a b c d x : 3 * a * x ^ 2 + 2 * b * x + c = 0 -> 0 < 3 * a * x + b -> valley (poly3 a b c d) x.
Proof.
  intros H K. destruct (near_sign a _ K) as [e [He E]]. exists e. split; [exact He|]. split; [rewrite <- H; apply poly3_deriv|]. intros y Hy.
  pose proof (poly3_around a b c d x y H). specialize (E _ Hy). pose proof (pow2_ge_0 (y - x)). nra.
Qed.
Lemma peak3 a b c d x : 3 * a * x ^ 2 + 2 * b * x + c = 0 -> 3 * a * x + b < 0 -> peak (poly3 a b c d) x.
Proof.
  intros H K. destruct (near_sign (- a) (- (3 * a * x + b)) ltac:(lra)) as [e [He E]]. exists e. split; [exact He|]. split; [rewrite <- H; apply poly3_deriv|]. intros y Hy.
  pose proof (poly3_around a b c d x y H). specialize (E _ Hy). pose proof (pow2_ge_0 (y - x)). nra.
Qed.
Lemma not_valley3 a b c d x : 3 * a * x + b < 0 -> ~ valley (poly3 a b c d) x.
Proof.
  intros K [e [He [D V]]]. apply slope3 in D. symmetry in D. destruct (near_sign (- a) (- (3 * a * x + b) / 2) ltac:(lra)) as [e' [He' E]].
  set (z := Rmin e e' / 2). assert (Z : 0 < z /\ z < e /\ z < e') by (unfold z, Rmin; destruct (Rle_dec e e'); lra). destruct Z as [Z1 [Z2 Z3]].
  specialize (V (x + z)). replace (x + z - x) with z in V by ring. rewrite Rabs_pos_eq in V by lra. specialize (V Z2).
  pose proof (poly3_around a b c d x (x + z) D) as Q. replace (x + z - x) with z in Q by ring. specialize (E z). rewrite Rabs_pos_eq in E by lra. specialize (E Z3).
  assert (0 < z ^ 2) by nra. nra.
Qed.

(** The two zeros of the slope. *)
Lemma roots a b c : a <> 0 -> 0 < (2 * b) ^ 2 - 4 * (3 * a) * c ->
  let s := sqrt ((2 * b) ^ 2 - 4 * (3 * a) * c) in
  let p := - (2 * b) / (2 * (3 * a)) + s / (2 * (3 * a)) in
  let q := - (2 * b) / (2 * (3 * a)) - s / (2 * (3 * a)) in
  3 * a * p ^ 2 + 2 * b * p + c = 0 /\ 0 < 3 * a * p + b /\ 3 * a * q ^ 2 + 2 * b * q + c = 0 /\ 3 * a * q + b < 0 /\
  forall t, 3 * a * t ^ 2 + 2 * b * t + c = 0 -> t = p \/ t = q.
Proof.
  intros Na P s p q. assert (S2 : s * s = (2 * b) ^ 2 - 4 * (3 * a) * c) by (unfold s; apply sqrt_sqrt; lra). assert (S0 : 0 < s) by (unfold s; now apply sqrt_lt_R0).
  assert (Ep : 3 * a * p + b = s / 2) by (unfold p; field; exact Na). assert (Eq : 3 * a * q + b = - s / 2) by (unfold q; field; exact Na).
  assert (Z : forall t, 3 * a * (3 * a * t ^ 2 + 2 * b * t + c) = (3 * a * t + b) ^ 2 - s * s / 4) by (intro t; rewrite S2; field).
  assert (G : forall t, (3 * a * t + b) ^ 2 = s * s / 4 -> 3 * a * t ^ 2 + 2 * b * t + c = 0).
  { intros t Ht. specialize (Z t). rewrite Ht in Z. assert (Z' : 3 * a * (3 * a * t ^ 2 + 2 * b * t + c) = 0) by lra. apply Rmult_integral in Z'. destruct Z' as [Z'|Z']; [lra|exact Z']. }
  split; [apply G; rewrite Ep; field|]. split; [rewrite Ep; lra|]. split; [apply G; rewrite Eq; field|]. split; [rewrite Eq; lra|].
  intros t Ht. specialize (Z t). rewrite Ht, Rmult_0_r in Z.
  assert (F : (3 * a * t - 3 * a * p) * (3 * a * t - 3 * a * q) = 0).
  { replace (3 * a * t - 3 * a * p) with ((3 * a * t + b) - (3 * a * p + b)) by ring. replace (3 * a * t - 3 * a * q) with ((3 * a * t + b) - (3 * a * q + b)) by ring. rewrite Ep, Eq. lra. }
  apply Rmult_integral in F. destruct F as [F|F]; [left|right]; apply (Rmult_eq_reg_l (3 * a)); lra.
Qed.

Section Cubic.
  Variables a b c d l h m fl fh fm gl : R.
  Hypothesis N1 : l <> h.
  Hypothesis N2 : l <> m.
  Hypothesis N3 : h <> m.
  Hypothesis F : fits2 (poly3 a b c d) l h fl fh gl.
  Hypothesis Fm : poly3 a b c d m = fm.
  Hypothesis Na : a <> 0.

  (** The least: a valley strictly between l and h is found when l < h; otherwise the result is the peak. *)
  Lemma cubic_cases t : valley (poly3 a b c d) t ->
    exists x, cubic_interpolate l h m fl fh fm gl = Some x /\ ((l < t < h /\ x = t) \/ (~ (l < t < h) /\ peak (poly3 a b c d) x /\ ~ valley (poly3 a b c d) x)).
  Proof.
    destruct F as [<- [D <-]]. rewrite <- Fm. apply slope3 in D. subst gl. intros V. assert (V0 := V). destruct V as [e [He [Dt Vt]]]. apply slope3 in Dt. symmetry in Dt.
    assert (DD : (2 * b) ^ 2 - 4 * (3 * a) * c = 4 * (3 * a * t + b) ^ 2) by (transitivity (4 * (3 * a * t + b) ^ 2 - 12 * a * (3 * a * t ^ 2 + 2 * b * t + c)); [ring|rewrite Dt; ring]).
    destruct (Req_EM_T (3 * a * t + b) 0) as [Z|NZ].
    { exfalso. (* an inflection is no valley *)
      set (z := - (e / 2) * (if Rlt_dec a 0 then -1 else 1)). assert (Az : Rabs (t + z - t) < e).
      { replace (t + z - t) with z by ring. unfold z. destruct (Rlt_dec a 0); [rewrite Rabs_pos_eq|rewrite Rabs_left]; lra. }
      specialize (Vt _ Az). pose proof (poly3_around a b c d t (t + z) Dt) as Q. replace (t + z - t) with z in Q by ring. rewrite Z, Rplus_0_l in Q.
      assert (0 < z ^ 2) by (unfold z; destruct (Rlt_dec a 0); nra). assert (a * z < 0) by (unfold z; destruct (Rlt_dec a 0); nra). nra. }
    assert (P : 0 < (2 * b) ^ 2 - 4 * (3 * a) * c) by (rewrite DD; assert (0 < (3 * a * t + b) ^ 2) by nra; lra).
    assert (K : 0 < 3 * a * t + b).
    { destruct (Rlt_dec (3 * a * t + b) 0) as [L|L]; [|lra]. exfalso. exact (not_valley3 a b c d t L V0). }
    destruct (roots a b c Na P) as [Rp [Kp [Rq [Kq U]]]].
    rewrite cubic_value by assumption. destruct (Req_EM_T (3 * a) 0) as [Z|_]; [lra|]. destruct (Rlt_dec _ 0) as [Z|_]; [lra|]. cbv zeta.
    set (p := - (2 * b) / (2 * (3 * a)) + sqrt ((2 * b) ^ 2 - 4 * (3 * a) * c) / (2 * (3 * a))) in *. set (q := - (2 * b) / (2 * (3 * a)) - sqrt ((2 * b) ^ 2 - 4 * (3 * a) * c) / (2 * (3 * a))) in *.
    assert (T : t = p) by (destruct (U t Dt) as [-> | ->]; [reflexivity|lra]). rewrite T.
    assert (PQ : peak (poly3 a b c d) q /\ ~ valley (poly3 a b c d) q) by (split; [now apply peak3|now apply not_valley3]).
    destruct (Rlt_dec l p) as [L1|L1].
    - destruct (Rlt_dec p h) as [L2|L2]; eexists; (split; [reflexivity|]); [left; split; [split; assumption|reflexivity]|right; split; [lra|exact PQ]].
    - eexists. split; [reflexivity|]. right. split; [lra|exact PQ].
  Qed.
  (** A monotone cubic has no result. *)
  Lemma cubic_monotone : (forall t, 3 * a * t ^ 2 + 2 * b * t + c <> 0) -> cubic_interpolate l h m fl fh fm gl = None.
  Proof.
    destruct F as [<- [D <-]]. rewrite <- Fm. apply slope3 in D. subst gl. intro M. rewrite cubic_value by assumption. destruct (Req_EM_T (3 * a) 0) as [_|_]; [reflexivity|].
    destruct (Rlt_dec ((2 * b) ^ 2 - 4 * (3 * a) * c) 0) as [_|P]; [reflexivity|]. exfalso. apply Rnot_lt_le in P.
    apply (M (- (2 * b) / (2 * (3 * a)) + sqrt ((2 * b) ^ 2 - 4 * (3 * a) * c) / (2 * (3 * a)))).
    pose proof (sqrt_sqrt _ P) as S. set (s := sqrt _) in *.
    transitivity ((s * s - ((2 * b) ^ 2 - 4 * (3 * a) * c)) / (12 * a)); [field; exact Na|]. rewrite S. field. exact Na.
  Qed.
End Cubic.
