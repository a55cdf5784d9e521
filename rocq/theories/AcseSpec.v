(** Specification vocabulary for the ACSE optimiser: layers of an ansatz, inner products, Wolfe conditions. *)
From Coq Require Import Bool List Arith QArith Qabs.
From Verif Require Import Coeff OpSpec.
Import ListNotations.
Local Open Scope nat_scope.

Section AnsatzSpec.
  Variable K : CoefRing.
  Variable key : Type.
  Variable keq : forall a b : key, {a = b} + {a <> b}.
  Notation layer := (list (key * K)).

  (** Total coefficient of a string over all layers. *)
  Definition gross (k : key) (A : list layer) : K := sumK (map (total keq k) A).
  (** Layers without negligible coefficients and without empty layers. *)
  Definition tidy (A : list layer) : list layer :=
    filter (fun a => negb (Nat.eqb (length a) 0)) (map (filter (fun e => negb (small (snd e)))) A).
  Definition is_tidy (A : list layer) : Prop :=
    forall a, In a A -> a <> [] /\ forall e, In e a -> small (snd e) = false.
  (** Layer [i] is the last of the final [m] layers that holds [k]. *)
  Definition home (k : key) (A : list layer) (m i : nat) : Prop :=
    i < length A /\ length A - m <= i /\ In k (keys (nth i A [])) /\
    forall j, i < j -> j < length A -> ~ In k (keys (nth j A [])).
End AnsatzSpec.
Arguments gross {_ _}. Arguments tidy {_ _}. Arguments is_tidy {_ _}. Arguments home {_ _}.

(** Inner product of the first [n] entries. *)
Fixpoint inner (n : nat) (a b : nat -> Q) : Q :=
  match n with O => 0 | S m => inner m a b + a m * b m end%Q.
Definition entry (l : list Q) (i : nat) : Q := nth i l 0%Q.

(** Wolfe conditions for a step [a] with value [f] and directional derivative [g], from [f0], [g0]. *)
Definition decrease (c1 f0 g0 a f : Q) : Prop := (f <= f0 + c1 * a * g0)%Q.
Definition weak_curvature (c2 g0 g : Q) : Prop := (c2 * g0 <= g)%Q.
Definition strong_curvature (c2 g0 g : Q) : Prop := (Qabs g <= c2 * Qabs g0)%Q.

(** Number of steps of a run (energies listed newest first, the initial one last) whose energy is not below the
    mean of the last three energies. *)
Definition mean (l : list Q) : Q := (fold_right Qplus 0 l / inject_Z (Z.of_nat (length l)))%Q.
Fixpoint rises (log : list Q) : nat :=
  match log with
  | en :: ((_ :: _) as rest) => (if Qle_bool (mean (firstn 3 log)) en then 1 else 0) + rises rest
  | _ => 0
  end.
