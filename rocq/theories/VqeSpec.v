(** Specification vocabulary for unitary coupled cluster excitations and the variational run.  Nothing here comes
    from the code. *)
From Coq Require Import Bool List Arith QArith.
From Verif Require Import Coeff MatSpec FockSpec.
Import ListNotations.
Local Open Scope nat_scope.

Section Exc.
  (** Spin-up and spin-down orbitals and the occupied ones. *)
  Variables (up down occupied : list nat).
  Definition is_occ (i : nat) : Prop := (In i up \/ In i down) /\ In i occupied.
  Definition is_vir (i : nat) : Prop := (In i up \/ In i down) /\ ~ In i occupied.
  Definition ups (l : list nat) : nat := length (filter (fun x => existsb (Nat.eqb x) up) l).
  (** Excitation between occupied and virtual orbitals conserving the number of spin-up particles. *)
  Definition single_ok (i j : nat) : Prop := is_occ i /\ is_vir j /\ ups [i] = ups [j].
  Definition double_ok (i k l j : nat) : Prop :=
    is_occ i /\ is_occ k /\ i <> k /\ is_vir l /\ is_vir j /\ l <> j /\ ups [i; k] = ups [l; j].
  (** The tuple lists the two pairs, each in either order. *)
  Definition same_double (t : list nat) (i k l j : nat) : Prop :=
    (t = [i; k; l; j] \/ t = [k; i; l; j]) \/ (t = [i; k; j; l] \/ t = [k; i; j; l]).
End Exc.

(** [m] is the smallest value of [E] on a list. *)
Definition lowest {P : Type} (E : P -> Q) (l : list P) (m : Q) : Prop :=
  (exists x, In x l /\ (E x == m)%Q) /\ forall x, In x l -> (m <= E x)%Q.

(** The vector [x] with [d] added to its [i]-th entry. *)
Definition shift (i : nat) (d : Q) (x : list Q) : list Q :=
  map (fun k => if k =? i then (nth k x 0 + d)%Q else nth k x 0%Q) (seq 0 (length x)).
(** Along coordinate [i] the function is [E x + a d + b d^2]. *)
Definition quadratic_along (E : list Q -> Q) (x : list Q) (i : nat) (a b : Q) : Prop :=
  forall d, (E (shift i d x) == E x + a * d + b * (d * d))%Q.

Section Anti.
  Variable K : CoefRing.
  Local Open Scope coef_scope.
  (** The excitation operator of a tuple of 2m indices: m creators, then m annihilators. *)
  Definition excite (m : nat) (t : list nat) : mat K :=
    fock_mat (map (fun i => (Cre, i)) (firstn m t) ++ map (fun i => (Ann, i)) (skipn m t)).
  (** p (T - T+). *)
  Definition generator (m : nat) (t : list nat) (p : K) : mat K := fun r c => p * (excite m t r c - madj (excite m t) r c).
End Anti.
Arguments excite {_}. Arguments generator {_}.
(** Number of occupied modes satisfying a predicate. *)
Definition count_in (P : nat -> bool) (x : bits) : nat := length (filter (fun i => P i && nth i x false) (seq 0 (length x))).
