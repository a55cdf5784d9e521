(** Specification vocabulary for device graphs.  Nothing here comes from the code. *)
From Coq Require Import Bool List Arith QArith.
Import ListNotations.
(** Coupled qubits. *)
Definition adj (cm : list (nat * nat)) (a b : nat) : Prop := In (a, b) cm \/ In (b, a) cm.
(** [steps cm n a b]: a walk of n steps. *)
Fixpoint steps (cm : list (nat * nat)) (n a b : nat) : Prop :=
  match n with O => a = b | S n' => exists c, adj cm a c /\ steps cm n' c b end.
(** The distance is n. *)
Definition dist (cm : list (nat * nat)) (a b n : nat) : Prop := steps cm n a b /\ forall m, (m < n)%nat -> ~ steps cm m a b.
(** A list of distinct qubits in which neighbours are coupled. *)
Fixpoint chain (cm : list (nat * nat)) (l : list nat) : Prop :=
  match l with a :: ((b :: _) as r) => adj cm a b /\ chain cm r | _ => True end.
Definition simple_path (cm : list (nat * nat)) (l : list nat) : Prop := NoDup l /\ chain cm l.
(** The product of the inverse distances of consecutive qubits, 0 if one of them is larger than 3 (or infinite). *)
Inductive closeness (cm : list (nat * nat)) : list nat -> Q -> Prop :=
| Cl_nil : closeness cm [] 1
| Cl_one q : closeness cm [q] 1
| Cl_near a b l d x : dist cm a b d -> (1 <= d <= 3)%nat -> closeness cm (b :: l) x ->
    closeness cm (a :: b :: l) (1 / inject_Z (Z.of_nat d) * x)
| Cl_far a b l x : (forall d, (d <= 3)%nat -> ~ dist cm a b d) -> closeness cm (b :: l) x -> closeness cm (a :: b :: l) 0.
(** Numbers in [0,1]. *)
Definition unit_rate (e : Q) : Prop := 0 <= e <= 1.
