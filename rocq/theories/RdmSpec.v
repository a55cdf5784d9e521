(** Specification vocabulary for reduced density matrices.  Nothing here comes from the code. *)
From Coq Require Import Bool List Arith Sorted.
From Verif Require Import Coeff MatSpec FockSpec OpSpec CircuitSpec.
Import ListNotations.

(** Orbitals 0..N-1 have spin up and N..2N-1 spin down. *)
Definition up_count (N : nat) (l : list nat) : nat := length (filter (fun x => x <? N) l).

(** The index pair of an independent, spin conserving element of the p-body RDM: creators c and
    annihilators a, both strictly ascending. *)
Definition element (p N : nat) (c a : list nat) : Prop :=
  StronglySorted lt c /\ StronglySorted lt a /\ length c = p /\ length a = p
  /\ Forall (fun x => x < 2 * N) c /\ Forall (fun x => x < 2 * N) a
  /\ up_count N c = up_count N a.

(** The operator string of an element is a+_c1 .. a+_cp a_ap .. a_a1. *)
Definition listed (c a : list nat) : list nat := c ++ rev a.
(** A list of indices that is not both ascending and with an index twice. *)
Definition intact (t : list nat) : Prop := ~ Sorted le t \/ NoDup t.

(** [complete p N L]: L holds, for every element, it or its conjugate; nothing else; nothing twice;
    and never an element together with its conjugate, unless they coincide. *)
Definition one_of_each (p N : nat) (L : list (list nat)) : Prop :=
  (forall c a, element p N c a -> In (listed c a) L \/ In (listed a c) L)
  /\ (forall x, In x L -> exists c a, element p N c a /\ x = listed c a)
  /\ NoDup L
  /\ (forall c a, element p N c a -> In (listed c a) L -> In (listed a c) L -> c = a).
(** The same for the elements off the diagonal only. *)
Definition one_of_each_offdiag (p N : nat) (L : list (list nat)) : Prop :=
  (forall c a, element p N c a -> c <> a -> In (listed c a) L \/ In (listed a c) L)
  /\ (forall x, In x L -> exists c a, element p N c a /\ c <> a /\ x = listed c a)
  /\ NoDup L
  /\ (forall c a, element p N c a -> In (listed c a) L -> ~ In (listed a c) L).

(** Parity of the number of inversions of q with respect to the order of l. *)
Fixpoint pos_in (l : list nat) (x : nat) : nat :=
  match l with [] => 0 | y :: t => if Nat.eqb x y then 0 else S (pos_in t x) end.
Fixpoint inv_count (q : list nat) : nat :=
  match q with [] => 0 | x :: t => length (filter (fun y => y <? x) t) + inv_count t end.
Definition perm_sign (l q : list nat) : bool := Nat.odd (inv_count (map (pos_in l) q)).

Section RdmSpec.
  Variable K : CoefRing.
  Local Open Scope coef_scope.
  (** The operator a+_c1 .. a+_cp a_ap .. a_a1. *)
  Definition rdm_letters (c a : list nat) : list (fop * nat) :=
    map (fun i => (Cre, i)) c ++ map (fun i => (Ann, i)) (rev a).
  (** The RDM element of a state on R modes. *)
  Definition rdm_of (R : nat) (psi : bits -> K) (c a : list nat) : K :=
    expect R (fock_mat (rdm_letters c a)) psi.
  (** The determinant with the occupied modes [occ]. *)
  Definition det_state (R : nat) (occ : list nat) : bits :=
    map (fun i => existsb (Nat.eqb i) occ) (seq 0 R).
  Definition basis_vec (x : bits) : bits -> K := fun r => if bits_eqb x r then 1 else 0.
  (** States with a definite number of particles. *)
  Definition popcount (x : bits) : nat := length (filter (fun b => b) x).
  Definition has_particles (R Ne : nat) (psi : bits -> K) : Prop :=
    forall x, length x = R -> popcount x <> Ne -> psi x = 0.
  (** States with a definite number of particles in the first N modes (spin up). *)
  Definition has_up (R N nu : nat) (psi : bits -> K) : Prop :=
    forall x, length x = R -> popcount (firstn N x) <> nu -> psi x = 0.
  (** Matrix of a formal sum of fermionic strings. *)
  Definition fop_mat (o : list (fstr * K)) : mat K :=
    fun r c => sumK (map (fun e => snd e * fstr_mat (fst e) r c) o).
  (** The part of a value selected by the real and imaginary options: its real part, i times its
      imaginary part, or both. *)
  Definition part (real imag : bool) (E : K) : K :=
    match real, imag with
    | true, true => E
    | true, false => chalf * (E + cconj E)
    | false, true => chalf * (E - cconj E)
    | false, false => 0
    end.
  (** n as a coefficient. *)
  Fixpoint ofnat (n : nat) : K := match n with O => 0 | S m => 1 + ofnat m end.
  (** All tuples of n indices below r. *)
  Fixpoint tuples (r n : nat) : list (list nat) :=
    match n with O => [[]] | S m => flat_map (fun x => map (cons x) (tuples r m)) (seq 0 r) end.
  (** The generalised Kronecker delta: the determinant of the matrix of the deltas of c_i and x_j, expanded
      along its first row. *)
  Fixpoint removes (x : list nat) : list (nat * list nat) :=
    match x with [] => [] | y :: t => (y, t) :: map (fun e => (fst e, y :: snd e)) (removes t) end.
  Fixpoint altsum (l : list K) : K := match l with [] => 0 | x :: t => x - altsum t end.
  Fixpoint gdelta (c x : list nat) : K :=
    match c with
    | [] => match x with [] => 1 | _ => 0 end
    | i :: c' => altsum (map (fun e => if Nat.eqb i (fst e) then gdelta c' (snd e) else 0) (removes x))
    end.
  (** The antisymmetrised product of two arrays with p and q index pairs below r, with weight w:
      w times the sum over all permutations of the creators and of the annihilators. *)
  Definition wedge_of (r p q : nat) (w : K) (A B : list nat -> K) (c a : list nat) : K :=
    w * sumK (map (fun x => sumK (map (fun y =>
      gdelta c x * gdelta a y * (A (firstn p x ++ firstn p y) * B (skipn p x ++ skipn p y)))
      (tuples r (p + q)))) (tuples r (p + q))).
  (** The array vanishes when a creator or an annihilator is repeated. *)
  Definition alternating (p : nat) (A : list nat -> K) : Prop :=
    forall c a, length c = p -> length a = p -> A (c ++ a) <> 0 -> NoDup c /\ NoDup a.
End RdmSpec.
Arguments gdelta {_}. Arguments wedge_of {_}. Arguments alternating {_}. Arguments altsum {_}.
Arguments rdm_of {_}. Arguments basis_vec {_}. Arguments has_particles {_}. Arguments has_up {_}. Arguments fop_mat {_}. Arguments part {_}. Arguments ofnat {_}.
