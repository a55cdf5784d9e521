(** Specification: partial trace of a matrix over the qubits marked by a mask. *)
From Coq Require Import Bool List.
From Verif Require Import Coeff MatSpec.
Import ListNotations.

(** Interleave the bits of the kept and of the traced qubits; [true] in the mask: traced. *)
Fixpoint weave (mask : list bool) (kept traced : bits) : bits :=
  match mask with
  | [] => []
  | true :: m => match traced with t :: traced' => t :: weave m kept traced' | [] => [] end
  | false :: m => match kept with k :: kept' => k :: weave m kept' traced | [] => [] end
  end.
Definition n_traced (mask : list bool) : nat := length (filter (fun b => b) mask).
Definition n_kept (mask : list bool) : nat := length (filter negb mask).

(** Sum of the entries that agree on the traced qubits. *)
Definition ptrace {K : CoefRing} (mask : list bool) (M : mat K) : mat K :=
  fun r c => sumbits (n_traced mask) (fun b => M (weave mask r b) (weave mask c b)).

(** Mask of a set of qubits among n. *)
Definition mask_of (qb : list nat) (n : nat) : list bool :=
  map (fun q => existsb (Nat.eqb q) qb) (seq 0 n).
