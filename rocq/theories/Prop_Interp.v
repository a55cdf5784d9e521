(** C179: the interpolated steps of the line search. *)
From Coq Require Import Reals Lra.
From Verif Require Import InterpModel InterpSpec InterpProofs.
Local Open Scope R_scope.

(** C179. The quadratic step is the minimum of the parabola with the value and slope at one end and the value at the
    other, when it opens upwards; the maximum when it opens downwards; no number when the data lie on a line. *)
Theorem C179_quadratic :
  forall a b c l h fl fh gl : R, l <> h -> fits2 (poly2 a b c) l h fl fh gl ->
  (0 < a -> exists x, quadratic_interpolate l h fl fh gl = Some x /\ forall y, poly2 a b c x <= poly2 a b c y)
  /\ (a < 0 -> exists x, quadratic_interpolate l h fl fh gl = Some x /\ forall y, poly2 a b c y <= poly2 a b c x)
  /\ (a = 0 -> quadratic_interpolate l h fl fh gl = None).
Proof. intros a b c l h fl fh gl N F. split; [|split]; intro A; [now apply quad_min|now apply quad_max|exact (quad_line a b c l h fl fh gl N F A)]. Qed.
Print Assumptions C179_quadratic.

(** Going downhill from l towards an h that is not lower, in either direction, the step lies in the half next to l. *)
Theorem C179_quadratic_bracketed :
  forall l h fl fh gl : R, gl * (h - l) < 0 -> fl <= fh ->
  exists s, quadratic_interpolate l h fl fh gl = Some (l + s * (h - l)) /\ 0 < s <= 1 / 2.
Proof. exact quad_bracket. Qed.
Print Assumptions C179_quadratic_bracketed.

(** The cubic step is the local minimum of the interpolating cubic when it lies in (l,h) and l < h... *)
Theorem C179_cubic_partial :
  forall a b c d l h m fl fh fm gl : R, l <> h -> l <> m -> h <> m ->
  fits2 (poly3 a b c d) l h fl fh gl -> poly3 a b c d m = fm -> a <> 0 ->
  forall t, valley (poly3 a b c d) t -> l < t < h -> cubic_interpolate l h m fl fh fm gl = Some t.
Proof.
  intros a b c d l h m fl fh fm gl N1 N2 N3 F Fm Na t V L. destruct (cubic_cases a b c d l h m fl fh fm gl N1 N2 N3 F Fm Na t V) as [x [E [[_ ->] | [C _]]]]; [exact E|contradiction].
Qed.
Print Assumptions C179_cubic_partial.

(** ... and the local maximum otherwise, in particular in every bracket with h < l. *)
Theorem C179_cubic_otherwise_maximum :
  forall a b c d l h m fl fh fm gl : R, l <> h -> l <> m -> h <> m ->
  fits2 (poly3 a b c d) l h fl fh gl -> poly3 a b c d m = fm -> a <> 0 ->
  forall t, valley (poly3 a b c d) t -> ~ (l < t < h) ->
  exists x, cubic_interpolate l h m fl fh fm gl = Some x /\ peak (poly3 a b c d) x /\ ~ valley (poly3 a b c d) x.
Proof.
  intros a b c d l h m fl fh fm gl N1 N2 N3 F Fm Na t V L. destruct (cubic_cases a b c d l h m fl fh fm gl N1 N2 N3 F Fm Na t V) as [x [E [[C _] | [_ Q]]]]; [contradiction|]. exists x. split; [exact E|exact Q].
Qed.
Print Assumptions C179_cubic_otherwise_maximum.

(** The cubic t^3 - 3t in the bracket from 2 down to 0, with the third point 3: downhill from 2, the minimum at 1 lies in
    the bracket, and the step is the maximum at -1, outside of it. *)
Theorem C179_reversed_bracket_refuted :
  exists a b c d l h m t x : R,
  h < t < l /\ a <> 0 /\ valley (poly3 a b c d) t /\ (3 * a * l ^ 2 + 2 * b * l + c) * (h - l) < 0
  /\ derivable_pt_lim (poly3 a b c d) l (3 * a * l ^ 2 + 2 * b * l + c)
  /\ cubic_interpolate l h m (poly3 a b c d l) (poly3 a b c d h) (poly3 a b c d m) (3 * a * l ^ 2 + 2 * b * l + c) = Some x
  /\ peak (poly3 a b c d) x /\ ~ valley (poly3 a b c d) x /\ x < h.
Proof.
  assert (V : valley (poly3 1 0 (-3) 0) 1) by (apply valley3; lra).
  destruct (cubic_cases 1 0 (-3) 0 2 0 3 _ _ _ _ ltac:(lra) ltac:(lra) ltac:(lra) (conj eq_refl (conj (poly3_deriv 1 0 (-3) 0 2) eq_refl)) eq_refl ltac:(lra) 1 V) as [x [E [[C _] | [_ [Q1 Q2]]]]]; [lra|].
  exists 1, 0, (-3), 0, 2, 0, 3, 1, x. split; [lra|]. split; [lra|]. split; [exact V|]. split; [lra|]. split; [apply poly3_deriv|]. split; [exact E|]. split; [exact Q1|]. split; [exact Q2|].
  destruct Q1 as [e [_ [D _]]]. apply slope3 in D. assert (X : (x - 1) * (x + 1) = 0) by lra. apply Rmult_integral in X. destruct X as [X|X]; [|lra]. exfalso. apply Q2. replace x with 1 by lra. exact V.
Qed.
Print Assumptions C179_reversed_bracket_refuted.

(** Values of a parabola, and of a cubic without stationary points, give no number. *)
Theorem C179_no_number :
  forall a b c d l h m fl fh fm gl : R, l <> h -> l <> m -> h <> m ->
  fits2 (poly3 a b c d) l h fl fh gl -> poly3 a b c d m = fm ->
  a = 0 \/ (forall t, ~ derivable_pt_lim (poly3 a b c d) t 0) -> cubic_interpolate l h m fl fh fm gl = None.
Proof.
  intros a b c d l h m fl fh fm gl N1 N2 N3 F Fm [A | A].
  - destruct F as [<- [D <-]]. rewrite <- Fm. apply slope3 in D. subst gl. rewrite cubic_value by assumption. destruct (Req_EM_T (3 * a) 0) as [_|Z]; [reflexivity|lra].
  - destruct (Req_EM_T a 0) as [Z|Na].
    + destruct F as [<- [D <-]]. rewrite <- Fm. apply slope3 in D. subst gl. rewrite cubic_value by assumption. destruct (Req_EM_T (3 * a) 0) as [_|Q]; [reflexivity|lra].
    + apply (cubic_monotone a b c d); try assumption. intros t Ht. apply (A t). rewrite <- Ht. apply poly3_deriv.
Qed.
Print Assumptions C179_no_number.

(** The parabola t^2 - 2t through (0,0), slope -2, and (3,3): the step is 1.  The cubic t^3 - 3t through 0 with slope -3,
    2 and 3: the step is 1, too. *)
Example C179_case :
  quadratic_interpolate 0 3 0 3 (-2) = Some 1 /\ fits2 (poly2 1 (-2) 0) 0 3 0 3 (-2)
  /\ cubic_interpolate 0 2 3 0 2 18 (-3) = Some 1 /\ valley (poly3 1 0 (-3) 0) 1.
Proof.
  assert (V : valley (poly3 1 0 (-3) 0) 1) by (apply valley3; lra).
  split; [|split; [|split; [|exact V]]].
  - unfold quadratic_interpolate. destruct (Req_EM_T _ 0) as [Z|_]; [lra|]. destruct (Req_EM_T _ 0) as [Z|_]; [lra|]. f_equal. field.
  - split; [unfold poly2; lra|]. split; [|unfold poly2; lra]. replace (-2) with (2 * 1 * 0 + -2) at 2 by ring. apply poly2_deriv.
  - apply (C179_cubic_partial 1 0 (-3) 0 0 2 3); try lra; [|unfold poly3; lra|exact V]. split; [unfold poly3; lra|]. split; [|unfold poly3; lra]. replace (-3) with (3 * 1 * 0 ^ 2 + 2 * 0 * 0 + -3) at 2 by ring. apply poly3_deriv.
Qed.
