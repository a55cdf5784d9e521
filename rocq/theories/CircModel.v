(** Model of the explicit matrix tools: hqca/tools/_gates.py (class Circ), hqca/tools/_operator_tools.py
    and hqca/tools/_state.py.

    A 2^n x 2^n array is a function of two bit strings: the list self.b (_gates.py l.20, '{:0{}b}' of
    0 .. 2^n-1) puts index k and its binary digits, most significant first, in bijection, and the code
    goes back and forth between the two.  Angles are given by the cosine and sine of their half, as in
    CircuitSpec.  Qubits are natural numbers; the negative indices accepted by Python are not modelled. *)
From Coq Require Import Bool List Arith ZArith.
From Verif Require Import Coeff MatSpec CircuitSpec.
Import ListNotations.
Local Open Scope coef_scope.

Definition bit (b : bits) (i : nat) : bool := nth i b false.

Section Circ.
  Variable K : CoefRing.
  (** 1/np.sqrt(2), l.254. *)
  Variable rt : K.

  (** np.kron(A, g) for a 2x2 array g: the digits of A come first (numpy, external). *)
  Definition np_kron (w : nat) (A : mat K) (g : mat2 K) : mat K :=
    fun r c => A (firstn w r) (firstn w c) * g (bit r w) (bit c w).
  (** np.identity(1), l.103. *)
  Definition np_one : mat K := fun _ _ => 1.
  (** np.identity(2), l.105. *)
  Definition np_id2 : mat2 K := m2 1 0 0 1.
  (** l.103-108: identities below i, g at i, identities above. *)
  Definition sqg_full (n i : nat) (g : mat2 K) : mat K :=
    let temp := fold_left (fun t j => np_kron j t np_id2) (seq 0 i) np_one in
    let temp := np_kron i temp g in
    fold_left (fun t j => np_kron j t np_id2) (seq (S i) (n - S i)) temp.

  (** l.334-335: b[k][0:j]==b[l][0:j] and b[k][j+1:]==b[l][j+1:]. *)
  Definition same_but (j : nat) (k l : bits) : bool :=
    bits_eqb (firstn j k) (firstn j l) && bits_eqb (skipn (S j) k) (skipn (S j) l).
  (** l.336-347: the entry written by the four-way test on the digits at j. *)
  Definition flip_entry (j : nat) (k l : bits) : K :=
    match bit k j, bit l j with
    | false, false => 0 | false, true => 1 | true, false => 1 | true, true => 0
    end.
  (** l.330-347 ([Cx]), l.226-243 ([Toff]), l.197-214 ([Toff4]): the identity, rows with all controls at
      '1' being overwritten. *)
  Definition hold (controls : list nat) (j : nat) : mat K := fun k l =>
    if forallb (bit k) controls && same_but j k l then flip_entry j k l
    else if bits_eqb k l then 1 else 0.

  (** The three ways a method touches self.m.  Every other method of the class is a sequence of these. *)
  Inductive cgate :=
  | Sqg (g : mat2 K) (i : nat)
  | Held (controls : list nat) (j : nat).

  (** l.102-110 and l.348, l.244, l.215: self.m becomes np.dot(temp, self.m).  An index past the last
      qubit makes np.dot raise (the shapes differ) or b[k][i] raise IndexError. *)
  Definition apply (n : nat) (m : mat K) (g : cgate) : option (mat K) :=
    match g with
    | Sqg g i => if i <? n then Some (mmul n (sqg_full n i g) m) else None
    | Held cs j => if forallb (fun i => i <? n) (j :: cs) then Some (mmul n (hold cs j) m) else None
    end%nat.
  Definition apply_all (n : nat) (l : list cgate) (m : option (mat K)) : option (mat K) :=
    fold_left (fun o g => match o with Some x => apply n x g | None => None end) l m.
  (** l.10-27 ([__init__]): the identity. *)
  Definition circ_init : mat K := mone.

  (** ** Single-qubit methods, l.253-321 and l.375-391 *)
  Definition c_h (i : nat) := [Sqg (m2 rt rt rt (- rt)) i].
  Definition c_sx (i : nat) := [Sqg (m2 (chalf * (1 + ci)) (chalf * (1 - ci)) (chalf * (1 - ci)) (chalf * (1 + ci))) i].
  Definition c_z (i : nat) := [Sqg (m2 1 0 0 (- (1))) i].
  Definition c_x (i : nat) := [Sqg (m2 0 1 1 0) i].
  Definition c_y (i : nat) := [Sqg (m2 0 (- ci) ci 0) i].
  (** l.277-281 ([ph]): the whole angle, not its half; l.299-315 are ph at fixed angles. *)
  Definition c_ph (i : nat) (t : angle K) := [Sqg (m2 1 0 0 (cos_of t + ci * sin_of t)) i].
  Definition c_phc (i : nat) (t : angle K) :=
    let e := cos_of t + ci * sin_of t in [Sqg (m2 e 0 0 e) i].
  (** l.283-297 ([particle], [hole], [create], [annihilate]). *)
  Definition c_particle (i : nat) := [Sqg (m2 0 0 0 1) i].
  Definition c_hole (i : nat) := [Sqg (m2 1 0 0 0) i].
  Definition c_create (i : nat) := [Sqg (m2 0 0 1 0) i].
  Definition c_annihilate (i : nat) := [Sqg (m2 0 1 0 0) i].
  (** l.375-391; the angle of -theta has the opposite sine. *)
  Definition neg_angle (t : angle K) : angle K := (fst t, - snd t).
  Definition c_Rx (i : nat) (t : angle K) :=
    let c := fst t in let s := - ci * snd t in [Sqg (m2 c s s c) i].
  Definition c_Rz (i : nat) (t : angle K) :=
    let c := fst t in let s := ci * snd t in [Sqg (m2 (c - s) 0 0 (c + s)) i].
  Definition c_Ry (i : nat) (t : angle K) :=
    let c := fst t in let s := snd t in [Sqg (m2 c (- s) s c) i].

  (** Half of pi (for Rz(pi), ph(pi)): cos(pi/2), sin(pi/2). *)
  Definition a_pi : angle K := (0, 1).
  (** Half of pi/2. *)
  Definition a_pi2 : angle K := (rt, rt).
  Definition c_s (i : nat) := c_ph i a_pi2.
  Definition c_si (i : nat) := c_ph i (neg_angle a_pi2).

  (** ** Two-qubit methods *)
  Definition c_Cx (i j : nat) := [Held [i] j].
  (** l.324-327. *)
  Definition c_Cy (i j : nat) := c_si j ++ c_Cx i j ++ c_s j.
  (** l.351-354. *)
  Definition c_Cxr (i j : nat) := c_x i ++ c_Cx i j ++ c_x i.
  (** l.356-361; [t] is the angle pi/4 of the code. *)
  Definition c_Cs (t : angle K) (i j : nat) :=
    c_Cx i j ++ c_Rz j (neg_angle t) ++ c_Cx i j ++ c_Rz j t ++ c_ph i t.
  (** l.363-366. *)
  Definition c_Cz (i j : nat) := c_h j ++ c_Cx i j ++ c_h j.
  (** l.368-372; [t] is theta/2. *)
  Definition c_CRy (i j : nat) (t : angle K) :=
    c_Ry j t ++ c_Cx i j ++ c_Ry j (neg_angle t) ++ c_Cx i j.
  (** l.139-164; [t] is the angle pi/4 of the code. *)
  Definition c_Ch (t : angle K) (nCx : nat) (i j : nat) :=
    match nCx with
    | 2 => c_Rz j a_pi ++ c_Ry j t ++ c_Cx i j ++ c_Ry j (neg_angle t) ++ c_Rz j (neg_angle a_pi2) ++ c_Cx i j
           ++ c_Rz j (neg_angle a_pi2) ++ c_ph i a_pi2
    | 1 => c_Ry j t ++ c_Cx i j ++ c_Ry j (neg_angle t)
    | _ => []
    end%nat.
  (** l.167-174. *)
  Definition c_Sw (i j : nat) := c_Cx i j ++ c_Cx j i ++ c_Cx i j.
  (** l.179-184. *)
  Definition c_SRy (i j : nat) (t : angle K) := c_Cx j i ++ c_x j ++ c_CRy i j t ++ c_x j ++ c_Cx j i.
  (** l.186-191. *)
  Definition c_Sh (t : angle K) (nCx : nat) (i j : nat) := c_Cx j i ++ c_x j ++ c_Ch t nCx i j ++ c_x j ++ c_Cx j i.

  (** ** Three- and four-qubit methods *)
  (** l.225-246, l.196-217. *)
  Definition c_Toff (i j k : nat) := [Held [i; j] k].
  Definition c_Toff4 (i j k l : nat) := [Held [i; j; k] l].
  (** l.248-251. *)
  Definition c_Fred (i j k : nat) := c_Toff i k j ++ c_Toff i j k ++ c_Toff i k j.
  (** l.219-222. *)
  Definition c_CCS (i j k l : nat) := c_Toff4 i j l k ++ c_Toff4 i j k l ++ c_Toff4 i j l k.

  (** ** Reordering by particle number, l.68-90 *)
  (** The list self.b, l.20. *)
  Fixpoint all_bits (n : nat) : list bits :=
    match n with
    | O => [[]]
    | S m => map (cons false) (all_bits m) ++ map (cons true) (all_bits m)
    end.
  (** l.73-75: sum of the digits. *)
  Definition digit_sum (b : bits) : nat := fold_left (fun t (s : bool) => (t + if s then 1 else 0)%nat) b 0%nat.
  (** l.69-78 ([_cN_basis]), the strings cNb; cNi are their indices. *)
  Definition cN_basis (n : nat) : list bits :=
    flat_map (fun i => filter (fun b => digit_sum b =? i)%nat (all_bits n)) (seq 0 (S n)).
  (** l.80-90 ([get_cN]): entry (p,q) of the result, p and q positions. *)
  Definition get_cN (n : nat) (m : mat K) (p q : nat) : option K :=
    match nth_error (cN_basis n) p, nth_error (cN_basis n) q with
    | Some r, Some c => Some (m r c)
    | _, _ => None
    end.

  (** ** Traces *)
  (** l.46-59 and _operator_tools.py l.137-150: build the two long strings digit by digit.
      [None] when a digit is missing (IndexError). *)
  Fixpoint build (qb : list nat) (r n : nat) (i j basis : bits) : option (bits * bits) :=
    match n with
    | O => Some ([], [])
    | S n' =>
        if existsb (Nat.eqb r) qb then
          match basis with
          | x :: basis' => option_map (fun p => (x :: fst p, x :: snd p)) (build qb (S r) n' i j basis')
          | [] => None
          end
        else
          match i, j with
          | t :: i', u :: j' => option_map (fun p => (t :: fst p, u :: snd p)) (build qb (S r) n' i' j' basis)
          | _, _ => None
          end
    end.
  (** Sum over the strings of length w, [None] if one of them raises. *)
  Fixpoint osum (l : list (option K)) : option K :=
    match l with
    | [] => Some 0
    | x :: l' => match x, osum l' with Some a, Some b => Some (a + b) | _, _ => None end
    end.
  (** Entry (i,j) of _partial_trace_matrix, _operator_tools.py l.134-157: mat[bra,ket], bra from i. *)
  Definition pt_matrix (n : nat) (qb : list nat) (M : mat K) (i j : bits) : option K :=
    osum (map (fun basis => option_map (fun p => M (fst p) (snd p)) (build qb 0 n i j basis)) (all_bits (length qb))).
  (** Entry (i,j) of _partial_trace_symbolic_matrix, l.174-194: mat[ket,bra]. *)
  Definition pt_symbolic (n : nat) (qb : list nat) (M : mat K) (i j : bits) : option K :=
    osum (map (fun basis => option_map (fun p => M (snd p) (fst p)) (build qb 0 n i j basis)) (all_bits (length qb))).
  (** Entry of Circ.trace_operator, _gates.py l.43-64: self.m[ket,bra], scaled by 1/2^len(qb).  The array
      new is real (l.42), so that storing a complex entry raises or drops the imaginary part; only real
      arrays are meant here. *)
  Fixpoint half_pow (k : nat) : K := match k with O => 1 | S k' => chalf * half_pow k' end.
  Definition trace_op (n : nat) (qb : list nat) (M : mat K) (i j : bits) : option K :=
    option_map (fun x => x * half_pow (length qb))
      (osum (map (fun basis => option_map (fun p => M (snd p) (fst p)) (build qb 0 n i j basis)) (all_bits (length qb)))).

  (** What partial_trace(obj) is given, _operator_tools.py l.96-107. *)
  Inductive traced := TOperator | TArray | TMatrix | TSymbolic | TOther.
  Inductive trace_route := RtOperator | RtMatrix | RtSymbolic | RtNothing.
  (** l.97: type(Operator) is the class [type], of which an Operator is not an instance.  np.matrix is a
      subclass of ndarray. *)
  Definition route (o : traced) : trace_route :=
    match o with
    | TOperator => RtNothing
    | TArray => RtMatrix
    | TMatrix => RtMatrix
    | TSymbolic => RtSymbolic
    | TOther => RtNothing
    end.

  (** ** DensityMatrix, _state.py *)
  (** l.99: np.outer(state.m, np.conj(state.m).T). *)
  Definition density (psi : bits -> K) : mat K := fun r c => psi r * cconj (psi c).
  (** l.123-126 ([reduce_str]): drop the digit at each index of q, last index of the list first; slicing
      past the end drops nothing. *)
  Definition drop_digit (b : bits) (i : nat) : bits := firstn i b ++ skipn (S i) b.
  Definition reduce_str (b : bits) (q : list nat) : bits := fold_left drop_digit (rev q) b.
  (** l.133-135. *)
  Definition use_pair (qubits : list nat) (i j : bits) : bool :=
    fold_left (fun use q => if Bool.eqb (bit i q) (bit j q) then use else false) qubits true.
  (** l.122-138 ([partial_trace]): entry (r,c) of new.m accumulates the used pairs reduced to (r,c). *)
  Definition dm_trace (n : nat) (qubits : list nat) (M : mat K) (r c : bits) : K :=
    fold_left (fun acc i =>
      fold_left (fun acc j =>
        if use_pair qubits i j && bits_eqb (reduce_str i qubits) r && bits_eqb (reduce_str j qubits) c
        then acc + M i j else acc) (all_bits n) acc) (all_bits n) 0.

  (** l.140-141 ([observable]): np.dot(self.m,circuit.m).trace()[0,0].  The trace of an ndarray is a number,
      and a number cannot be indexed; only an array can. *)
  Inductive npval := NpNumber (x : K) | NpArray (f : nat -> nat -> K).
  Definition index00 (v : npval) : option K := match v with NpNumber _ => None | NpArray f => Some (f 0 0)%nat end.
  Definition dm_observable (n : nat) (rho A : mat K) : option K :=
    index00 (NpNumber (sumbits n (fun r => mmul n rho A r r))).

  (** ** State, _state.py *)
  (** An array of N rows and one column, or of one row and N columns. *)
  Inductive svec := Column (v : bits -> K) | Row (v : bits -> K).
  (** l.28-29: |0...0>. *)
  Definition state_init : svec := Column (fun b => if existsb (fun x => x) b then 0 else 1).
  (** l.60-82 ([__mul__]): np.dot(circ.m, self.m).T; the dot product of an N x N and a 1 x N array raises
      for N > 1.  The method returns nothing (Python None) and rebinds self.m. *)
  Definition state_mul (n : nat) (m : mat K) (v : svec) : option svec :=
    match v with
    | Column v => Some (Row (fun r => sumbits n (fun c => m r c * v c)))
    | Row v => if (n =? 0)%nat then Some (Row (fun r => sumbits n (fun c => m r c * v c))) else None
    end.
End Circ.
Arguments Sqg {_}. Arguments Held {_}.
Arguments np_kron {_}. Arguments sqg_full {_}. Arguments hold {_}. Arguments apply {_}. Arguments apply_all {_}.
Arguments circ_init {_}. Arguments c_h {_}. Arguments c_sx {_}. Arguments c_z {_}. Arguments c_x {_}. Arguments c_y {_}.
Arguments c_ph {_}. Arguments c_phc {_}. Arguments c_particle {_}. Arguments c_hole {_}. Arguments c_create {_}. Arguments c_annihilate {_}.
Arguments neg_angle {_}. Arguments c_Rx {_}. Arguments c_Ry {_}. Arguments c_Rz {_}. Arguments a_pi {_}. Arguments a_pi2 {_}.
Arguments c_s {_}. Arguments c_si {_}. Arguments c_Cx {_}. Arguments c_Cy {_}. Arguments c_Cxr {_}. Arguments c_Cs {_}. Arguments c_Cz {_}.
Arguments c_CRy {_}. Arguments c_Ch {_}. Arguments c_Sw {_}. Arguments c_SRy {_}. Arguments c_Sh {_}.
Arguments c_Toff {_}. Arguments c_Toff4 {_}. Arguments c_Fred {_}. Arguments c_CCS {_}.
Arguments get_cN {_}. Arguments osum {_}. Arguments pt_matrix {_}. Arguments pt_symbolic {_}. Arguments trace_op {_}. Arguments half_pow {_}.
Arguments density {_}. Arguments NpNumber {_}. Arguments NpArray {_}. Arguments index00 {_}. Arguments dm_observable {_}. Arguments dm_trace {_}. Arguments Column {_}. Arguments Row {_}. Arguments state_init {_}. Arguments state_mul {_}.
Arguments flip_entry {_}. Arguments np_one {_}. Arguments np_id2 {_}.
