(** Restriction of an operator to an eigenspace of a symmetry. *)
From Coq Require Import Bool List Arith.
From Verif Require Import Coeff MatSpec.
Import ListNotations.

Section TaperSpec.
  Variable K : CoefRing.
  Local Open Scope coef_scope.
  (** Equality of matrices with 2^m rows and 2^n columns. *)
  Definition req (m n : nat) (A B : mat K) : Prop := forall r c, length r = m -> length c = n -> A r c = B r c.
  (** A (not normalised) eigenvector of a Pauli matrix with eigenvalue [e] and its squared norm. *)
  Definition eigvec (p : pauli) (e : K) (b : bool) : K :=
    match p with
    | PX => if b then e else 1
    | PY => if b then ci * e else 1
    | PZ => if b then chalf * (1 - e) else chalf * (1 + e)
    | PI => 0
    end.
  Definition eignorm (p : pauli) : K := match p with PX | PY => 1 + 1 | _ => 1 end.
  (** A list without its entry [q]. *)
  Definition without {A} (q : nat) (l : list A) : list A := firstn q l ++ skipn (S q) l.
  (** Adds a qubit in the state [eigvec p e] at position [q]. *)
  Definition insert_state (q : nat) (p : pauli) (e : K) : mat K :=
    fun r c => eigvec p e (nth q r false) * (if bits_eqb (without q r) c then 1 else 0).
  (** The same for several qubits, the first triple being inserted last. *)
  Fixpoint insert_states (n : nat) (ts : list (nat * pauli * K)) : mat K :=
    match ts with
    | [] => mone
    | (q, p, e) :: ts' => mmul (n - 1) (insert_state q p e) (insert_states (n - 1) ts')
    end.
  Definition eignorms (ts : list (nat * pauli * K)) : K := fold_right (fun t x => eignorm (snd (fst t)) * x) 1 ts.
  (** The letter [p] on qubit [q] of n. *)
  Definition one_letter (n q : nat) (p : pauli) : list pauli := repeat PI q ++ p :: repeat PI (n - q - 1).
  (** Triples that name existing qubits, letters X, Y, Z and real signs. *)
  Fixpoint fits (n : nat) (ts : list (nat * pauli * K)) : Prop :=
    match ts with
    | [] => True
    | (q, p, e) :: ts' => (q < n)%nat /\ p <> PI /\ e * e = 1 /\ cconj e = e /\ fits (n - 1) ts'
    end.
End TaperSpec.
Arguments req {_}. Arguments eigvec {_}. Arguments eignorm {_}. Arguments insert_state {_}. Arguments insert_states {_}. Arguments eignorms {_}.
