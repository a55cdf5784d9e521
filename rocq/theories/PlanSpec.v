(** Specification of a tomography run: valid circuits, the prepared state, admissible colourings. *)
From Coq Require Import Bool List Arith.
From Verif Require Import Coeff MatSpec FockSpec CircuitSpec HamSpec TomoModel PlanModel.
Import ListNotations.
Local Open Scope coef_scope.

Section Spec.
  Variable K : CoefRing.
  (** Multiples of 2^-k: Gaussian integers divided by 2^k. *)
  Definition dyadic (k : nat) (x : K) : Prop :=
    exists a a' b b', x = cpow chalf k * ((of_nat a - of_nat a') + ci * (of_nat b - of_nat b')).

  (** Cosine and sine of a real angle; gates with qubits in range and real angles. *)
  Definition real_angle (t : angle K) : Prop :=
    cconj (fst t) = fst t /\ cconj (snd t) = snd t /\ fst t * fst t + snd t * snd t = 1.
  Definition valid (N : nat) (g : gate K) : Prop :=
    gate_ok N g /\ match g with Grx t _ | Gry t _ | Grz t _ => real_angle t | _ => True end.

  (** The state a circuit makes from |0..0>. *)
  Definition zero_state (N : nat) : bits -> K := fun x => if bits_eqb (repeat false N) x then 1 else 0.
  Definition prepared (rt : K) (N : nat) (prep : list (gate K)) : bits -> K := mvec N (cmat rt N prep) (zero_state N).
  Definition norm2 (N : nat) (psi : bits -> K) : K := sumbits N (fun r => cconj (psi r) * psi r).
End Spec.
Arguments dyadic {_}. Arguments real_angle {_}. Arguments valid {_}. Arguments zero_state {_}. Arguments prepared {_}. Arguments norm2 {_}.

(** One colour per string. *)
Definition sized (simp : simplify_option) : Prop :=
  match simp with Simplify _ colour => forall ps, length (colour ps) = length ps | Plain => True end.
(** A proper colouring of the strings: colours used without gaps, strings of one colour equal wherever neither is I. *)
Definition proper (simp : simplify_option) : Prop :=
  match simp with
  | Simplify rel colour => rel = Rqwc /\ forall ps, length (colour ps) = length ps /\
      (forall c, In c (colour ps) -> forall c', (c' < c)%nat -> In c' (colour ps)) /\
      (forall i j x y c, nth_error ps i = Some x -> nth_error ps j = Some y ->
         nth_error (colour ps) i = Some c -> nth_error (colour ps) j = Some c ->
         forall k, nth k x PI = PI \/ nth k y PI = PI \/ nth k x PI = nth k y PI)
  | Plain => True
  end.
