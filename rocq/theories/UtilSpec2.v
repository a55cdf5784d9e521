(** Specification vocabulary for the fitness of a choice of qubits; from the model only the types of instructions and
    devices are used. *)
From Coq Require Import List Arith QArith.
From Verif Require Import UtilModel UtilSpec.
Import ListNotations.
Local Open Scope Q_scope.
(** The factor by which an instruction multiplies the entry of program qubit n. *)
Definition rate (o : option Q) : Q := match o with Some e => e | None => 0 end.
Definition at_qubit (qubits : list nat) (n : nat) (f : nat -> option Q) : option Q := match nth_error qubits n with Some q => f q | None => None end.
Definition factor (D : device) (qubits : list nat) (ins : instr) (n : nat) : Q :=
  match ins with
  | IRo m => if (m =? n)%nat then 1 - rate (at_qubit qubits m (d_ro D)) else 1
  | IU u m => if (m =? n)%nat then 1 - rate (at_qubit qubits m (d_u D u)) else 1
  | ICx a b => let e := rate (at_qubit qubits a (fun qa => at_qubit qubits b (d_cx D qa))) in
               (if (a =? n)%nat then 1 - (3 # 4) * e else 1) * (if (b =? n)%nat then 1 - (3 # 4) * e else 1)
  end.
Definition qprod (l : list Q) : Q := fold_right Qmult 1 l.
(** All error rates lie between 0 and 1. *)
Definition unit_device (D : device) : Prop :=
  (forall a b e, d_cx D a b = Some e -> unit_rate e) /\ (forall a e, d_ro D a = Some e -> unit_rate e) /\ (forall u a e, d_u D u a = Some e -> unit_rate e).
