(** Model of hqca/tools/_stabilizer.py, class StabilizedCircuit (l.306-430), on top of [StabModel]; of the gates it records
    (core/primitives/_base.py); of 'encoded' in processes/_process_stabilizers.py (l.133-169, for a measurement other than
    Z...Z, and [_measure_stabilizer_z_string] l.171-198); and of [build_stabilizer] and [_stabilizer] of
    tomography/_tomography.py (l.916-944).

    A row of the matrix [self.m] is a list of booleans: first the Z part, then the X part.  [None] stands for a raised
    exception, or for a loop that did not finish within the fuel.  Printing is left out. *)
From Coq Require Import Bool List Arith ZArith QArith.
From Verif Require Import Coeff MatSpec PauliModel OptModel CircuitSpec CircuitModel TomoModel StabModel SfModel.
Import ListNotations.
Local Open Scope nat_scope.

(** The recorded gates, [[(i,),apply_si]], [[(i,j),apply_cx]], [[(i,),apply_h]]. *)
Inductive sgate := SSi (i : nat) | SCx (i j : nat) | SH (i : nat).

(** l.313-320: a null vector without X part and with more than one Z. *)
Definition count (l : vec) : nat := length (filter (fun b => b) l).
Definition z_type (N : nat) (v : vec) : bool := (count (skipn N v) =? 0) && (1 <? count (firstn N v)).
(** l.307-334: the rows of [new] and the strings [z_str].  l.322 [new[:self.dimE,:]=self.Gm[:,:].T] raises when the
    number of reduced strings is not [dimE]. *)
Definition construct_circuit (N : nat) (ps : list (list pauli)) : option (list vec * list (list pauli)) :=
  let '(E, piv) := gaussian_elimination N (parity_matrix N ps) in
  let Gm := reduced N E in
  let null_vecs := null_vectors N E piv in
  let dimE := 2 * N - length null_vecs in
  let zs := filter (z_type N) null_vecs in
  if length Gm =? dimE then Some (Gm ++ zs, map (check_to_pauli N) zs) else None.

(** The letter of a row on qubit i is Y; is X; is Z. *)
Definition is_y (N i : nat) (r : vec) : bool := vget r i && vget r (i + N).
Definition is_x (N i : nat) (r : vec) : bool := negb (vget r i) && vget r (i + N).
Definition is_z (N i : nat) (r : vec) : bool := vget r i && negb (vget r (i + N)).

(** l.348-366 ([_simplify_y_qwc]); l.360-364 for one row. *)
Definition y_row (N i : nat) (r : vec) : vec :=
  if is_y N i r then put_at i false r else if is_x N i r then put_at i true r else r.
Definition y_qubit (N : nat) (st : list vec * list sgate) (i : nat) : list vec * list sgate :=
  let '(m, gs) := st in if existsb (is_y N i) m then (map (y_row N i) m, gs ++ [SSi i]) else (m, gs).
Definition simplify_y (N : nat) (m : list vec) (gs : list sgate) : list vec * list sgate :=
  fold_left (y_qubit N) (seq 0 N) (m, gs).

(** l.373-375: the sum of a column. *)
Definition rank (m : list vec) (c : nat) : nat := length (filter (fun r => vget r c) m).
(** l.377-383: the first i, and the first j < i, with X or Y on both in the row. *)
Fixpoint pair_in_row (N : nat) (r : vec) (is_ : list nat) : option (nat * nat) :=
  match is_ with
  | [] => None
  | i :: is' => match find (fun j => vget r (i + N) && vget r (j + N)) (seq 0 i) with
                | Some j => Some (i, j)
                | None => pair_in_row N r is'
                end
  end.
Fixpoint find_pair (N : nat) (m : list vec) : option (nat * nat) :=
  match m with
  | [] => None
  | r :: m' => match pair_in_row N r (seq 0 N) with Some p => Some p | None => find_pair N m' end
  end.
(** l.392-394 (and l.401-403) with l.404 [np.mod(mat,2)], for one row: control a, target b. *)
Definition cx_row (N a b : nat) (r : vec) : vec :=
  put_at (b + N) (xorb (vget r (b + N)) (vget r (a + N))) (put_at a (xorb (vget r a) (vget r b)) r).
(** l.372-405 ([_sub]): the matrix, the gates, done. *)
Definition sub_step (N : nat) (m : list vec) (gs : list sgate) : list vec * list sgate * bool :=
  match find_pair N m with
  | None => (m, gs, true)
  | Some (i, j) =>
      if (rank m j <? rank m i) || (rank m (i + N) <? rank m (j + N))
      then (map (cx_row N i j) m, gs ++ [SCx i j], false)
      else (map (cx_row N j i) m, gs ++ [SCx j i], false)
  end.
(** l.406-410. *)
Fixpoint xx_loop (fuel N : nat) (m : list vec) (gs : list sgate) (done : bool) (iters : nat) : option (list vec * list sgate) :=
  match fuel with
  | 0 => None
  | S f => if negb done || (iters <? 5)
           then let '(m', gs', done') := sub_step N m gs in xx_loop f N m' gs' done' (S iters)
           else Some (m, gs)
  end.

(** l.412-430 ([_simplify_x_z_qwc]); l.423-428 for one row. *)
Definition h_row (N i : nat) (r : vec) : vec :=
  if is_x N i r then put_at (i + N) false (put_at i true r)
  else if is_z N i r then put_at (i + N) true (put_at i false r) else r.
Definition h_qubit (N : nat) (st : list vec * list sgate) (i : nat) : list vec * list sgate :=
  let '(m, gs) := st in if existsb (is_x N i) m then (map (h_row N i) m, gs ++ [SH i]) else (m, gs).
Definition simplify_h (N : nat) (m : list vec) (gs : list sgate) : list vec * list sgate :=
  fold_left (h_qubit N) (seq 0 N) (m, gs).

(** l.337-345 after l.307-334: the attributes [gates], [T_M] and [zz] (tomography/_tomography.py l.938-942). *)
Record stabilized := MkStabilized { sc_gates : list sgate; sc_TM : pdict; sc_zz : list (list pauli) }.
Definition stabilized_circuit (fuel N : nat) (ps : list (list pauli)) : option stabilized :=
  match construct_circuit N ps with
  | None => None
  | Some (new, zz) =>
      let T0 := map (check_to_pauli N) new in
      let '(m1, g1) := simplify_y N new [] in
      match xx_loop fuel N m1 g1 false 0 with
      | None => None
      | Some (m2, g2) =>
          let '(m3, g3) := simplify_h N m2 g2 in
          Some (MkStabilized g3 (fold_left (fun d e => pset (fst e) (snd e) d) (combine T0 (map (check_to_pauli N) m3)) []) zz)
      end
  end.

(** tomography/_tomography.py l.928-944: the strings mapped to the measurement k, other than the identity. *)
Definition group_of (k : list pauli) (mapping : pdict) : list (list pauli) :=
  map fst (filter (fun e => pstr_eqb (snd e) k && negb (forallb (fun x => pauli_eqb x PI) (fst e))) mapping).

(** * core/primitives/_base.py. *)
Section Gates.
  Variable K : CoefRing.
  Local Open Scope coef_scope.
  Variable rt : K.
  (** The gates as written, if [pi] were bound to the number: l.3-4 [apply_cx], l.9-11 [apply_si], l.17-20 [apply_h]. *)
  Definition written (g : sgate) : list (gate K) :=
    match g with
    | SCx i j => [Gcx i j]
    | SSi i => [Grz (rt, - rt) i]
    | SH i => [Grz (rt, rt) i; Gsx i; Grz (rt, rt) i]
    end.
  (** tomography/_tomography.py l.923-924 with core/_circuit.py l.29-34: the recorded gates in order, as written. *)
  Definition circuit (gs : list sgate) : list (gate K) := flat_map written gs.
  (** The module has no import, so [pi] is not bound in it: the first line of [apply_si] and of [apply_h] raises NameError. *)
  Definition executed (g : sgate) : option (list (gate K)) :=
    match g with
    | SCx i j => Some [Gcx i j]
    | SSi _ | SH _ => None
    end.
  (** The same loop with the gates as executed. *)
  Fixpoint apply_all (gs : list sgate) : option (list (gate K)) :=
    match gs with
    | [] => Some []
    | g :: gs' => match executed g, apply_all gs' with Some a, Some b => Some (a ++ b) | _, _ => None end
    end.
End Gates.
Arguments written {_}. Arguments circuit {_}. Arguments executed {_}. Arguments apply_all {_}.

(** * processes/_process_stabilizers.py, 'encoded'. *)
Section Encoded.
  Variable K : CoefRing.
  (** l.187-189: the product of the images of the generators, starting from the identity. *)
  Fixpoint images (TM : pdict) (ss : list (list pauli)) : option (list (list pauli)) :=
    match ss with
    | [] => Some []
    | s :: ss' => match pget s TM, images TM ss' with Some t, Some ts => Some (t :: ts) | _, _ => None end
    end.
  Definition fetch (N : nat) (TM : pdict) (ss : list (list pauli)) : option (list pauli * K) :=
    match images TM ss with None => None | Some ts => Some (string_product N ts) end.
  (** A subscript of an Operator is a key of its dictionary (operators/_operator.py l.61-62); the keys are the strings. *)
  Inductive subscript := AtInt (z : Z) | AtString (s : list pauli).
  Definition subscript_op (o : list (list pauli * K)) (k : subscript) : option (list pauli * K) :=
    match k with
    | AtInt _ => None
    | AtString s => find (fun e => pauli_list_eqb s (fst e)) o
    end.
  Fixpoint paulis_get (s : list pauli) (t : list (option (list pauli * (list (list pauli) * K)))) : option (list (list pauli) * K) :=
    match t with
    | [] => None
    | Some (s', e) :: t' => match paulis_get s t' with Some e' => Some e' | None => if pstr_eqb s s' then Some e else None end
    | None :: _ => None
    end.
  (** l.171-198; l.190 [print('Gen: ',g)] fails when there are no generators; l.195 reads [fetch[0].s]. *)
  Definition measure_stabilizer (N : nat) (paulis : list (option (list pauli * (list (list pauli) * K)))) (TM : pdict)
      (pauli_string : list pauli) (l : counts) : option (Q * K) :=
    match paulis_get pauli_string paulis with
    | None => None
    | Some (ss, x) =>
        match ss, fetch N TM ss with
        | [], _ | _, None => None
        | _, Some f => match subscript_op [f] (AtInt 0) with
                       | None => None
                       | Some (s, _) => match measure_counts N s l with None => None | Some q => Some (q, x) end
                       end
        end
    end.
End Encoded.
Arguments fetch {_}. Arguments subscript_op {_}. Arguments paulis_get {_}. Arguments measure_stabilizer {_}.

(** l.133-169: the outcomes kept for a measurement other than Z...Z.  [total] and [prod] are unbound for more than three
    strings; they are read once per outcome. *)
Definition wanted (n : nat) : option (Z * Z) :=
  match n with 1 => Some (1, -1)%Z | 2 => Some (2, 1)%Z | 3 => Some (1, 1)%Z | _ => None end.
Fixpoint symmetry_signs (Nq : nat) (TM : pdict) (zz : list (list pauli)) (k : bits) (v : Z) : option (list Z) :=
  match zz with
  | [] => Some []
  | z :: zz' =>
      match pget z TM with
      | None => None
      | Some native => match measure_one Nq native k v, symmetry_signs Nq TM zz' k v with
                       | Some s, Some ss => Some (s :: ss)
                       | _, _ => None
                       end
      end
  end.
Fixpoint keep_encoded (Nq : nat) (TM : pdict) (zz : list (list pauli)) (l : counts) : option counts :=
  match l with
  | [] => Some []
  | (k, v) :: l' =>
      match symmetry_signs Nq TM zz k v, wanted (length zz), keep_encoded Nq TM zz l' with
      | Some ss, Some (total, prod), Some new =>
          Some (if (fold_left Z.mul ss 1 =? prod)%Z && (total =? Z.abs (fold_left Z.add ss 0))%Z then (k, v) :: new else new)
      | _, _, _ => None
      end
  end.
Definition filter_encoded (Nq : nat) (sc : stabilized) (l : counts) : option counts :=
  match sc_zz sc with [] => Some l | zz => keep_encoded Nq (sc_TM sc) zz l end.
