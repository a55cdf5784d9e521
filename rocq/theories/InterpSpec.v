(** Polynomials of degree two and three, their derivatives and stationary points.  Nothing here refers to the model. *)
From Coq Require Import Reals.
Local Open Scope R_scope.

Definition poly2 (a b c t : R) : R := a * t ^ 2 + b * t + c.
Definition poly3 (a b c d t : R) : R := a * t ^ 3 + b * t ^ 2 + c * t + d.
(** Value and slope at l, value at h. *)
Definition fits2 (P : R -> R) (l h fl fh gl : R) : Prop := P l = fl /\ derivable_pt_lim P l gl /\ P h = fh.
(** A point where the slope is zero and grows, or falls. *)
Definition valley (P : R -> R) (x : R) : Prop := exists e, 0 < e /\ derivable_pt_lim P x 0 /\ forall y, Rabs (y - x) < e -> P x <= P y.
Definition peak (P : R -> R) (x : R) : Prop := exists e, 0 < e /\ derivable_pt_lim P x 0 /\ forall y, Rabs (y - x) < e -> P y <= P x.
