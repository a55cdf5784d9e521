(** Specification vocabulary for counts of outcomes.  Nothing here comes from the code. *)
From Coq Require Import List Arith.
Import ListNotations.
(** How often an outcome was counted, and the number of shots. *)
Definition counted {K} (keq : forall a b : K, {a = b} + {a <> b}) (c : list (K * nat)) (k : K) : nat := fold_right (fun e s => (if keq (fst e) k then snd e else 0) + s) 0 c.
Definition shots {K} (c : list (K * nat)) : nat := fold_right (fun e s => snd e + s) 0 c.
(** Draws of [size] different positions below n. *)
Definition valid_draw (n size : nat) (picks : list nat) : Prop := NoDup picks /\ length picks = size /\ forall i, In i picks -> i < n.
(** Counts of the same circuits with [size] shots each, every outcome at most as often as before. *)
Definition subsample {P K} (keq : forall a b : K, {a = b} + {a <> b}) (size : nat) (c c' : list (P * list (K * nat))) : Prop :=
  Forall2 (fun a b => fst b = fst a /\ shots (snd b) = size /\ NoDup (map fst (snd b)) /\ forall k, counted keq (snd b) k <= counted keq (snd a) k) c c'.
