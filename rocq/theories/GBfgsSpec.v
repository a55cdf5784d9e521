(** Specification for the BFGS optimizer: sequences of states, and the step lengths tried by the line search. *)
From Coq Require Import List Arith QArith.
From Verif Require Import AcseSpec BfgsSpec.
Import ListNotations.
Local Open Scope Q_scope.

(** [b] comes directly after [a] in [l]. *)
Definition follows {A : Type} (l : list A) (a b : A) : Prop := exists l1 l2, l = l1 ++ a :: b :: l2.
(** Half way to 5 each time, from 1: 1, 3, 4, 9/2, ... *)
Fixpoint trial (k : nat) : Q := match k with O => 1 | S k' => (1 # 2) * (trial k' + 5) end.
(** difference of two gradients *)
Definition change (g1 g0 : list Q) (i : nat) : Q := nth i g1 0 - nth i g0 0.
(** the product of two matrices is the identity *)
Definition inverse (n : nat) (A B : list (list Q)) : Prop :=
  forall i j, (i < n)%nat -> (j < n)%nat -> inner n (mentry A i) (fun k => mentry B k j) == if Nat.eqb i j then 1 else 0.
(** Squared distance of two points. *)
Definition dist2 (u v : list Q) : Q := fold_right (fun e t => (fst e - snd e) * (fst e - snd e) + t) 0 (combine u v).
(** The latest of the points 0 .. i whose number leaves remainder r when divided by 3; the zero vector when there is none. *)
Definition latest (n : nat) (pts : list (list Q)) (i r : nat) : list Q :=
  if Nat.leb r i then nth (i - Nat.modulo (i - r) 3) pts [] else repeat 0 n.
