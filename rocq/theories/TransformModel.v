(** Model of hqca/transforms: _jordan_wigner.py, _qubit.py, _parity.py, _parity_qp.py,
    _bravyi_kitaev.py, _inverse_jordan_wigner.py. *)
From Coq Require Import Bool List Arith ZArith.
From Verif Require Import Coeff MatSpec PauliModel OperatorModel FockSpec FermiModel.
Import ListNotations.

Section Tr.
  Variable K : CoefRing.
  Local Open Scope coef_scope.
  Notation pop := (opv K (list pauli)).

  Definition pop_add_string : pop -> list pauli * K -> pop := op_add_string pauli_list_eqb.
  Definition pop_add : pop -> pop -> pop := op_add pauli_list_eqb.
  Definition pop_mul : pop -> pop -> pop := op_mul pauli_list_eqb pauli_mul.

  (** [tem = Operator(); tem+= PauliString(s1,c1); tem+= PauliString(s2,c2)]
      (_jordan_wigner.py l.38-40 and the same lines of the other transforms). *)
  Definition two_term (s1 : list pauli) (a1 : K) (s2 : list pauli) (a2 : K) : pop :=
    pop_add_string (pop_add_string [] (s1, a1)) (s2, a2).

  (** The coefficients [((o=='-')-0.5)*1j] and [(o=='h')-0.5]. *)
  Definition ladder_c2 (o : fop) : K :=
    match o with Ann => (1 - chalf) * ci | _ => (0 - chalf) * ci end.
  Definition number_c2 (o : fop) : K :=
    match o with Hol => 1 - chalf | _ => 0 - chalf end.

  (** _jordan_wigner.py l.27-40. *)
  Definition jw_term (N q : nat) (o : fop) : pop :=
    if ladder o then
      two_term (repeat PZ q ++ PX :: repeat PI (N - q - 1)) chalf
               (repeat PZ q ++ PY :: repeat PI (N - q - 1)) (ladder_c2 o)
    else
      two_term (repeat PI q ++ PI :: repeat PI (N - q - 1)) chalf
               (repeat PI q ++ PZ :: repeat PI (N - q - 1)) (number_c2 o).

  (** _jordan_wigner.py l.22-41: the loop over the reversed string; [q] is the number of letters
      left. *)
  Fixpoint jw_loop (N : nat) (rs : list (option fop)) (new : pop) : pop :=
    match rs with
    | [] => new
    | None :: rs' => jw_loop N rs' new
    | Some o :: rs' => jw_loop N rs' (pop_mul (jw_term N (length rs') o) new)
    end.

  (** _jordan_wigner.py l.13-42. *)
  Definition jw_string (x : fstr * K) : pop :=
    let N := length (fst x) in
    jw_loop N (rev (fst x)) (pop_add_string [] (repeat PI N, snd x)).

  (** _jordan_wigner.py l.55-69, the branch for an Operator. *)
  Definition jw_operator (o : opv K fstr) : pop := op_transform pauli_list_eqb jw_string o.

  (** _qubit.py l.19-37.  QubitStrings have letters i,+,-,p,h; the letter z (l.17-24 of the loop)
      is [QZ]. *)
  Inductive qlet := QI | QZ | QO (o : fop).
  Definition qubit_term (N q : nat) (o : fop) : pop :=
    if ladder o then
      two_term (repeat PI q ++ PX :: repeat PI (N - q - 1)) chalf
               (repeat PI q ++ PY :: repeat PI (N - q - 1)) (ladder_c2 o)
    else
      two_term (repeat PI q ++ PI :: repeat PI (N - q - 1)) chalf
               (repeat PI q ++ PZ :: repeat PI (N - q - 1)) (number_c2 o).
  Fixpoint qubit_loop (N : nat) (rs : list qlet) (new : pop) : pop :=
    match rs with
    | [] => new
    | QI :: rs' => qubit_loop N rs' new
    | QZ :: rs' =>
        let q := length rs' in
        qubit_loop N rs'
          (pop_mul (pop_add_string [] (repeat PI q ++ PZ :: repeat PI (N - q - 1), 1)) new)
    | QO o :: rs' => qubit_loop N rs' (pop_mul (qubit_term N (length rs') o) new)
    end.
  (** _qubit.py l.6-37. *)
  Definition qubit_string (s : list qlet) (c : K) : pop :=
    let N := length s in qubit_loop N (rev s) (pop_add_string [] (repeat PI N, c)).

  (** _parity.py l.13-33 for position [q]. *)
  Definition parity_term (N q : nat) (o : fop) : pop :=
    let xs := repeat PX (N - q - 1) in
    let is := repeat PI (N - q - 1) in
    match q with
    | O =>
        if ladder o then two_term (PX :: xs) chalf (PY :: xs) (ladder_c2 o)
        else two_term (PI :: is) chalf (PZ :: is) (number_c2 o)
    | S q' =>
        if ladder o then two_term (repeat PI q' ++ PZ :: PX :: xs) chalf
                                  (repeat PI q' ++ PI :: PY :: xs) (ladder_c2 o)
        else two_term (repeat PI q' ++ PI :: PI :: is) chalf
                      (repeat PI q' ++ PZ :: PZ :: is) (number_c2 o)
    end.
  (** The forward loop [for qi,o in enumerate(op.s): ... new = tem*new] of _parity.py l.9-34,
      _parity_qp.py and _bravyi_kitaev.py l.123-150, for a given term. *)
  Fixpoint forward_loop (term : nat -> fop -> pop) (q : nat) (s : list (option fop)) (new : pop) : pop :=
    match s with
    | [] => new
    | None :: s' => forward_loop term (S q) s' new
    | Some o :: s' => forward_loop term (S q) s' (pop_mul (term q o) new)
    end.
  (** _parity.py l.5-35. *)
  Definition parity_string (x : fstr * K) : pop :=
    let N := length (fst x) in
    forward_loop (parity_term N) 0 (fst x) (pop_add_string [] (repeat PI N, snd x)).

  (** _parity_qp.py l.5-35: as _parity.py with [((o=='-')+0.5)*1j]. *)
  Definition ladder_c2_qp (o : fop) : K :=
    match o with Ann => (1 + chalf) * ci | _ => (0 + chalf) * ci end.
  Definition parity_qp_term (N q : nat) (o : fop) : pop :=
    let xs := repeat PX (N - q - 1) in
    let is := repeat PI (N - q - 1) in
    match q with
    | O =>
        if ladder o then two_term (PX :: xs) chalf (PY :: xs) (ladder_c2_qp o)
        else two_term (PI :: is) chalf (PZ :: is) (number_c2 o)
    | S q' =>
        if ladder o then two_term (repeat PI q' ++ PZ :: PX :: xs) chalf
                                  (repeat PI q' ++ PI :: PY :: xs) (ladder_c2_qp o)
        else two_term (repeat PI q' ++ PI :: PI :: is) chalf
                      (repeat PI q' ++ PZ :: PZ :: is) (number_c2 o)
    end.
  Definition parity_qp_string (x : fstr * K) : pop :=
    let N := length (fst x) in
    forward_loop (parity_qp_term N) 0 (fst x) (pop_add_string [] (repeat PI N, snd x)).

  (** * _bravyi_kitaev.py *)
  (** l.53-63 (flip), l.75-83 (update), l.95-103 (parity): the recursions on (j, n) with n = 2^k.
      Sets are duplicate-free lists; the order is not used.  [j <= n-1] always. *)
  Fixpoint bk_flip (k j : nat) : list nat :=
    match k with
    | O => []
    | S k' =>
        let h := 2 ^ k' in
        if Nat.ltb j h then bk_flip k' j
        else if Nat.ltb j (2 * h - 1) then map (fun i => i + h)%nat (bk_flip k' (j - h))
        else map (fun i => i + h)%nat (bk_flip k' (j - h)) ++ [h - 1]%nat
    end.
  Fixpoint bk_update (k j : nat) : list nat :=
    match k with
    | O => []
    | S k' =>
        let h := 2 ^ k' in
        if Nat.ltb j h then bk_update k' j ++ [2 * h - 1]%nat
        else map (fun i => i + h)%nat (bk_update k' (j - h))
    end.
  Fixpoint bk_parity (k j : nat) : list nat :=
    match k with
    | O => []
    | S k' =>
        let h := 2 ^ k' in
        if Nat.ltb j h then bk_parity k' j
        else map (fun i => i + h)%nat (bk_parity k' (j - h)) ++ [h - 1]%nat
    end.
  (** l.64-72, 84-93, 104-113: drop the indices outside the register. *)
  Definition bk_trunc (N : nat) (l : list nat) : list nat := filter (fun i => Nat.ltb i N) l.
  (** l.18-34: N is the least power of two not below Nq ([log2_up]; exact in floating point). *)
  Definition bk_levels (N : nat) : nat := Nat.log2_up N.
  Definition bk_flips (N q : nat) := bk_trunc N (bk_flip (bk_levels N) q).
  Definition bk_updates (N q : nat) := bk_trunc N (bk_update (bk_levels N) q).
  Definition bk_parities (N q : nat) := bk_trunc N (bk_parity (bk_levels N) q).
  (** l.25-33: remainder and rho. *)
  Definition bk_rho (N q : nat) : list nat :=
    if Nat.even q then bk_parities N q
    else filter (fun i => negb (existsb (Nat.eqb i) (bk_flips N q))) (bk_parities N q).

  (** [for i in l: s = s[:i]+x+s[i+1:]] with all indices inside the string. *)
  Definition put (x : pauli) (l : list nat) (s : list pauli) : list pauli :=
    fold_left (fun s' i => upd i x s') l s.

  (** l.126-149: the two strings and [temp]. *)
  Definition bk_term (N q : nat) (o : fop) : pop :=
    if ladder o then
      let u := put PX (bk_updates N q) (repeat PI N) in
      let s1 := upd q PX (put PZ (bk_parities N q) u) in
      let s2 := upd q PY (put PZ (bk_rho N q) u) in
      pop_add (pop_add [] (pop_add_string [] (s1, chalf))) (pop_add_string [] (s2, ladder_c2 o))
    else
      let f := upd q PZ (put PZ (bk_flips N q) (repeat PI N)) in
      pop_add (pop_add [] (pop_add_string [] (repeat PI N, chalf))) (pop_add_string [] (f, number_c2 o)).
  (** l.118-151.  [None]: [log2(0)] raises for the empty string. *)
  Definition bk_string (x : fstr * K) : option pop :=
    match fst x with
    | [] => None
    | _ => let N := length (fst x) in
           Some (forward_loop (bk_term N) 0 (fst x) (pop_add_string [] (repeat PI N, snd x)))
    end.
End Tr.
Arguments pop_add_string {_}. Arguments pop_add {_}. Arguments pop_mul {_}. Arguments two_term {_}.
Arguments ladder_c2 {_}. Arguments number_c2 {_}. Arguments jw_term {_}. Arguments jw_loop {_}.
Arguments jw_string {_}. Arguments jw_operator {_}. Arguments qubit_term {_}.
Arguments qubit_loop {_}. Arguments qubit_string {_}. Arguments parity_term {_}.
Arguments forward_loop {_}. Arguments parity_string {_}. Arguments ladder_c2_qp {_}.
Arguments parity_qp_term {_}. Arguments parity_qp_string {_}.
Arguments bk_term {_}. Arguments bk_string {_}.
