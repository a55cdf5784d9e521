(** Model of hqca/tools/_stabilizer.py, class Stabilizer (l.8-304).  Arrays of zeros and ones are lists of booleans.
    The symbolic solution with sympy (l.194-240) is modelled by its value: one free variable is 1, the others 0. *)
From Coq Require Import Bool List Arith.
From Verif Require Import Coeff MatSpec PauliModel OptModel.
Import ListNotations.

Definition vec := list bool.
Definition vget (v : vec) (i : nat) : bool := nth i v false.
Definition vxor (a b : vec) : vec := map (fun p => xorb (fst p) (snd p)) (combine a b).

(** l.60-68. *)
Definition pauli_to_check (p : list pauli) : vec :=
  map (fun x => pauli_eqb x PZ || pauli_eqb x PY) p ++ map (fun x => pauli_eqb x PX || pauli_eqb x PY) p.
(** l.70-83 (the letters; the coefficient is 1). *)
Definition check_to_pauli (N : nat) (v : vec) : list pauli :=
  map (fun i => if vget v i then if vget v (i + N) then PY else PZ else if vget v (i + N) then PX else PI) (seq 0 N).

(** l.26-49: the columns of G.  [n] is the position in the list, [add] tells that an identity was met. *)
Fixpoint fill_columns (n : nat) (add : bool) (ps : list (list pauli)) (G : list vec) : list vec * bool :=
  match ps with
  | [] => (G, add)
  | p :: ps' =>
      if forallb (fun x => pauli_eqb x PI) p then fill_columns (S n) true ps' G
      else fill_columns (S n) add ps' (put_at (if add then n - 1 else n) (pauli_to_check p) G)
  end.
Definition columns (N : nat) (ps : list (list pauli)) : list vec :=
  let '(G, add) := fill_columns 0 false ps (repeat (repeat false (2 * N)) (length ps)) in
  if add then firstn (length ps - 1) G else G.
(** l.51-53: a row of E is a column of G with its halves exchanged. *)
Definition exchange (N : nat) (v : vec) : vec := skipn N v ++ firstn N v.
Definition parity_matrix (N : nat) (ps : list (list pauli)) : list vec := map (exchange N) (columns N ps).

(** l.106-116: the first row from [r] on with a 1 in column [c]. *)
Fixpoint find_row (E : list vec) (c r left : nat) : option nat :=
  match left with
  | 0 => None
  | S k => if vget (nth r E []) c then Some r else find_row E c (S r) k
  end.
(** l.114. *)
Definition swap_rows (i j : nat) (E : list vec) : list vec :=
  put_at i (nth j E []) (put_at j (nth i E []) E).
(** l.124-133: row [r] is added to every other row with a 1 in column [c]. *)
Fixpoint clear_column (i : nat) (r c : nat) (piv : vec) (E : list vec) : list vec :=
  match E with
  | [] => []
  | row :: E' => (if i =? r then row else if vget row c then vxor row piv else row) :: clear_column (S i) r c piv E'
  end.
(** l.96-133 for the remaining columns: (E, pivot); [row] is c + adjust. *)
Fixpoint eliminate (cs : list nat) (row : nat) (E : list vec) (piv : list nat) : list vec * list nat :=
  match cs with
  | [] => (E, piv)
  | c :: cs' =>
      if row =? length E then (E, piv)
      else match (if vget (nth row E []) c then Some row else find_row E c (S row) (length E - S row)) with
           | None => eliminate cs' row E piv
           | Some r => let E1 := if r =? row then E else swap_rows row r E in
                       eliminate cs' (S row) (clear_column 0 row c (nth row E1 []) E1) (piv ++ [c])
           end
  end.
Definition gaussian_elimination (N : nat) (E : list vec) : list vec * list nat := eliminate (seq 0 (2 * N)) 0 E [].

(** l.138-150: the non-zero rows (they come first) with the halves exchanged back. *)
Definition nonzero (v : vec) : bool := existsb (fun b => b) v.
Definition reduced (N : nat) (E : list vec) : list vec :=
  map (exchange N) (firstn (length (filter nonzero E)) E).

(** l.158-167: one pass over the positions [us]; ([target], [soln], changed). *)
Fixpoint first_col (Gm : list vec) (u w : nat) : option nat :=
  match Gm with
  | [] => None
  | g :: Gm' => if vget g u then Some w else first_col Gm' u (S w)
  end.
Fixpoint reduce_pass (Gm : list vec) (us : list nat) (t : vec) (soln : list nat) (changed : bool) : vec * list nat * bool :=
  match us with
  | [] => (t, soln, changed)
  | u :: us' =>
      if vget t u then
        match first_col Gm u 0 with
        | Some w => reduce_pass Gm us' (vxor t (nth w Gm [])) (soln ++ [w]) true
        | None => reduce_pass Gm us' t soln changed
        end
      else reduce_pass Gm us' t soln changed
  end.
(** l.153-167: the while loop; [None]: not finished within [fuel] passes. *)
Fixpoint decompose (fuel : nat) (M : nat) (Gm : list vec) (t : vec) (soln : list nat) : option (list nat) :=
  match fuel with
  | 0 => None
  | S k => let '(t', soln', changed) := reduce_pass Gm (seq 0 M) t soln false in
           if changed then decompose k M Gm t' soln' else Some soln'
  end.

(** l.220-240: the null vector for the free column [m]; [Np] counts the pivots passed. *)
Definition is_pivot (piv : list nat) (n : nat) : bool := existsb (Nat.eqb n) piv.
Fixpoint null_entries (E : list vec) (piv : list nat) (m : nat) (n left Np : nat) : vec :=
  match left with
  | 0 => []
  | S k => if is_pivot piv n
           then (if (n <? m) && negb (is_pivot piv m) then vget (nth Np E []) m else false) :: null_entries E piv m (S n) k (S Np)
           else (n =? m) :: null_entries E piv m (S n) k Np
  end.
Definition null_vectors (N : nat) (E : list vec) (piv : list nat) : list vec :=
  map (fun m => null_entries E piv m 0 (2 * N) 0) (filter (fun m => negb (is_pivot piv m)) (seq 0 (2 * N))).
(** l.282-304: [null_basis]. *)
Definition null_basis (N : nat) (ps : list (list pauli)) : list (list pauli) :=
  let '(E, piv) := gaussian_elimination N (parity_matrix N ps) in
  map (check_to_pauli N) (null_vectors N E piv).

(** l.171-175: the product of the strings, starting from the identity with coefficient 1. *)
Definition string_product {K : CoefRing} (N : nat) (ss : list (list pauli)) : list pauli * K :=
  fold_left (fun prod s => pauli_mul prod (s, c1)) ss (repeat PI N, c1).
(** l.152-176: the entries of [self.paulis]: (p0.s, [strings], prod.c) for every column of G0; the passes of each while
    loop are bounded by [fuel]. *)
Definition paulis_entry {K : CoefRing} (fuel N : nat) (Gm : list vec) (t : vec) : option (list pauli * (list (list pauli) * K)) :=
  match decompose fuel (2 * N) Gm t [] with
  | None => None
  | Some soln => let ss := map (fun w => check_to_pauli N (nth w Gm [])) soln in
                 Some (check_to_pauli N t, (ss, snd (@string_product K N ss)))
  end.
Definition paulis_table {K : CoefRing} (fuel N : nat) (ps : list (list pauli)) : list (option (list pauli * (list (list pauli) * K))) :=
  let '(E, _) := gaussian_elimination N (parity_matrix N ps) in
  map (paulis_entry fuel N (reduced N E)) (columns N ps).
