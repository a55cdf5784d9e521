(** Specification for C122-C124: the circuit back end, which runs the whole ansatz from the initial state each time. *)
From Coq Require Import Bool List Arith ZArith.
From Verif Require Import Coeff MatSpec CircuitSpec OperatorModel AcseModel.
Import ListNotations.
Section RhoSpec.
  Variable K : CoefRing.
  Variable key : Type.
  Variable keqb : key -> key -> bool.
  Variable rt : K.
  Variable N : nat.
  Variable G : opv K key -> list (gate K).
  (** The density matrix of preparation and ansatz. *)
  Definition full_state (prep : list (gate K)) (rho0 : mat K) (F : list (opv K key)) : mat K :=
    let W := cmat rt N (prep ++ concat (map G F)) in mmul N W (mmul N rho0 (madj W)).
  (** The ansatz after the operators [Ps] have been added. *)
  Definition full_ansatz (closed : Z) (Ps : list (opv K key)) : list (opv K key) := fold_left (ans_add keqb closed) Ps [].
  (** No step makes the ansatz shorter. *)
  Definition growing (closed : Z) (Ps : list (opv K key)) : Prop :=
    forall Q R P, Ps = Q ++ P :: R -> (length (full_ansatz closed Q) <= length (full_ansatz closed (Q ++ [P])))%nat.
  (** An operator with terms, none of them below the threshold. *)
  Definition proper (P : opv K key) : Prop := P <> [] /\ forall e, In e P -> small (snd e) = false.
End RhoSpec.
Arguments full_state {_ _}. Arguments full_ansatz {_ _}. Arguments growing {_ _}. Arguments proper {_ _}.
