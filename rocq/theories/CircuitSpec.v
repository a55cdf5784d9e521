(** Specification: gates of the quantum SDK and their matrices.  The letters of the gates are those of
    qiskit.QuantumCircuit (external); their matrices are the documented ones, a rotation by theta being
    given by the pair (cos(theta/2), sin(theta/2)). *)
From Coq Require Import Bool List Arith ZArith.
From Verif Require Import Coeff MatSpec.
Import ListNotations.
Local Open Scope coef_scope.

Section Circ.
  Variable K : CoefRing.

  (** cos(theta/2), sin(theta/2). *)
  Definition angle : Type := (K * K)%type.

  Inductive gate :=
  | Gh (q : nat) | Gs (q : nat) | Gsdg (q : nat) | Gsx (q : nat) | Gx (q : nat) | Gz (q : nat)
  | Grx (t : angle) (q : nat) | Gry (t : angle) (q : nat) | Grz (t : angle) (q : nat)
  | Gcx (a b : nat).

  (** [rt] stands for 1/sqrt 2. *)
  Variable rt : K.

  Definition m2 (a b c d : K) : mat2 K := fun r k =>
    match r, k with false, false => a | false, true => b | true, false => c | true, true => d end.
  Definition h2 : mat2 K := m2 rt rt rt (- rt).
  Definition s2 : mat2 K := m2 1 0 0 ci.
  Definition sdg2 : mat2 K := m2 1 0 0 (- ci).
  Definition sx2 : mat2 K := m2 (chalf * (1 + ci)) (chalf * (1 - ci)) (chalf * (1 - ci)) (chalf * (1 + ci)).
  Definition rx2 (t : angle) : mat2 K := m2 (fst t) (- (ci * snd t)) (- (ci * snd t)) (fst t).
  Definition ry2 (t : angle) : mat2 K := m2 (fst t) (- snd t) (snd t) (fst t).
  Definition rz2 (t : angle) : mat2 K := m2 (fst t - ci * snd t) 0 0 (fst t + ci * snd t).

  (** A 2x2 matrix acting on qubit q of N. *)
  Definition at1 (N q : nat) (m : mat2 K) : mat K :=
    kron (repeat (pauli1 PI) q ++ m :: repeat (pauli1 PI) (N - q - 1)).
  (** CNOT on basis states. *)
  Definition cx_bits (a b : nat) (n : bits) : bits :=
    firstn b n ++ match skipn b n with [] => [] | x :: t => xorb x (nth a n false) :: t end.
  Definition gmat (N : nat) (g : gate) : mat K :=
    match g with
    | Gh q => at1 N q h2 | Gs q => at1 N q s2 | Gsdg q => at1 N q sdg2 | Gsx q => at1 N q sx2
    | Gx q => at1 N q (pauli1 PX) | Gz q => at1 N q (pauli1 PZ)
    | Grx t q => at1 N q (rx2 t) | Gry t q => at1 N q (ry2 t) | Grz t q => at1 N q (rz2 t)
    | Gcx a b => fun r c => if bits_eqb r (cx_bits a b c) then 1 else 0
    end.
  (** Matrix of a circuit, first gate applied first. *)
  Fixpoint cmat (N : nat) (l : list gate) : mat K :=
    match l with
    | [] => mone
    | g :: l' => mmul N (cmat N l') (gmat N g)
    end.

  (** The qubits of a gate are in range (the SDK raises otherwise) and CNOT qubits differ. *)
  Definition gate_ok (N : nat) (g : gate) : Prop :=
    match g with
    | Gcx a b => a < N /\ b < N /\ a <> b
    | Gh q | Gs q | Gsdg q | Gsx q | Gx q | Gz q | Grx _ q | Gry _ q | Grz _ q => q < N
    end%nat.

  (** cos and sin of the angle itself. *)
  Definition cos_of (t : angle) : K := fst t * fst t - snd t * snd t.
  Definition sin_of (t : angle) : K := (1 + 1) * (fst t * snd t).

  Definition is_cx (g : gate) : bool := match g with Gcx _ _ => true | _ => false end.
End Circ.
Arguments Gh {_}. Arguments Gs {_}. Arguments Gsdg {_}. Arguments Gsx {_}. Arguments Gx {_}. Arguments Gz {_}.
Arguments Grx {_}. Arguments Gry {_}. Arguments Grz {_}. Arguments Gcx {_}.
Arguments m2 {_}. Arguments h2 {_}. Arguments s2 {_}. Arguments sdg2 {_}. Arguments sx2 {_}.
Arguments rx2 {_}. Arguments ry2 {_}. Arguments rz2 {_}. Arguments at1 {_}. Arguments gmat {_}.
Arguments cmat {_}. Arguments gate_ok {_}. Arguments cos_of {_}. Arguments sin_of {_}. Arguments is_cx {_}.

(** The letters of a string of measurement outcomes: Z wherever the string is not I. *)
Definition zletter (p : pauli) : pauli := match p with PI => PI | _ => PZ end.
(** [p] can be read off from the measurement of [m]: same letters wherever p is not I. *)
Inductive agrees : list pauli -> list pauli -> Prop :=
| agrees_nil : agrees [] []
| agrees_I x p m : agrees p m -> agrees (PI :: p) (x :: m)
| agrees_same x p m : agrees p m -> agrees (x :: p) (x :: m).

(** States, and the average of a matrix in a state. *)
Section States.
  Variable K : CoefRing.
  Definition mvec (N : nat) (A : mat K) (psi : bits -> K) : bits -> K :=
    fun r => sumbits N (fun c => A r c * psi c).
  Definition expect (N : nat) (A : mat K) (psi : bits -> K) : K :=
    sumbits N (fun r => cconj (psi r) * mvec N A psi r).
End States.
Arguments mvec {_}. Arguments expect {_}.
(** Parity of the outcomes on the qubits where the string is not I. *)
Fixpoint outcome_parity (s : list pauli) (b : bits) : bool :=
  match s, b with
  | p :: s', x :: b' => xorb (negb (pauli_eqb p PI) && x) (outcome_parity s' b')
  | _, _ => false
  end.

(** cos v + i sin v P for each item in turn, the identity string giving the identity. *)
Section Exps.
  Variable K : CoefRing.
  Definition exp_item (v : angle K) (s : list pauli) : mat K :=
    if existsb (fun p => negb (pauli_eqb p PI)) s
    then madd (mscal (cos_of v) mone) (mscal (ci * sin_of v) (pmat s)) else mone.
  Fixpoint exp_seq (N : nat) (items : list (angle K * list pauli)) : mat K :=
    match items with
    | [] => mone
    | (v, s) :: r => mmul N (exp_seq N r) (exp_item v s)
    end.
End Exps.
Arguments exp_seq {_}. Arguments exp_item {_}.

(** The eigenvalue of a string on the outcomes of a shot.  The last character of a shot is qubit 0. *)
Definition eigenvalue (s : list pauli) (det : list bool) : Z := if outcome_parity s (rev det) then (-1)%Z else 1%Z.
Definition zsum (l : list Z) : Z := fold_right Z.add 0%Z l.
Definition shots (counts : list (list bool * Z)) : Z := zsum (map snd counts).
Definition weighted (s : list pauli) (counts : list (list bool * Z)) : Z :=
  zsum (map (fun e => (snd e * eigenvalue s (fst e))%Z) counts).
