(** Specification for the quasi-Newton and conjugate gradient steps: quadratic forms, in terms of [inner] and [entry]
    of AcseSpec. *)
From Coq Require Import List Arith QArith Qabs.
From Verif Require Import AcseSpec.
Import ListNotations.
Local Open Scope Q_scope.

(** scalar product of two vectors of dimension [n], entry of a matrix, the form u.M.v *)
Definition ip (n : nat) (u v : list Q) : Q := inner n (entry u) (entry v).
Definition mentry (M : list (list Q)) (i j : nat) : Q := entry (nth i M []) j.
Definition form (n : nat) (M : list (list Q)) (u v : list Q) : Q :=
  inner n (entry u) (fun i => inner n (mentry M i) (entry v)).
Definition same (n : nat) (u v : list Q) : Prop := forall i, (i < n)%nat -> entry u i == entry v i.
Definition nonzero (n : nat) (v : list Q) : Prop := exists i, (i < n)%nat /\ ~ entry v i == 0.
Definition square (n : nat) (M : list (list Q)) : Prop := length M = n /\ forall r, In r M -> length r = n.
(** self-adjoint; positive definite; [M y = s] *)
Definition symmetric (n : nat) (M : list (list Q)) : Prop :=
  forall u v, length u = n -> length v = n -> form n M u v == form n M v u.
Definition positive (n : nat) (M : list (list Q)) : Prop :=
  forall v, length v = n -> nonzero n v -> 0 < form n M v v.
Definition maps_to (n : nat) (M : list (list Q)) (y s : nat -> Q) : Prop :=
  forall i, (i < n)%nat -> inner n (mentry M i) y == s i.
(** What a successful line search guarantees: a positive step to a point with a non-zero gradient satisfying the
    (weak or strong) curvature condition along the direction. *)
Definition weak_step (n : nat) (c2 alp : Q) (g p g1 : list Q) : Prop :=
  0 < alp /\ length g1 = n /\ nonzero n g1 /\ weak_curvature c2 (ip n g p) (ip n g1 p).
Definition strong_step (n : nat) (c2 : Q) (g p g1 : list Q) : Prop :=
  length g1 = n /\ nonzero n g1 /\ strong_curvature c2 (ip n g p) (ip n g1 p).
