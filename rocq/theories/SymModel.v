(** Model of hqca/tomography/__symmetry_project.py (class SymmetryProjection, l.15-343) for an Operator of FermiStrings
    and the Jordan-Wigner transform, and of hqca/tomography/_constant_tomography.py l.27-54 (generate_sp_rdme).

    Not modelled: local_tomography=True (QubitStrings), printing, a QuantumString argument (l.44-57; [''.join(E)] of a
    list of ints raises). *)
From Coq Require Import Bool List Arith.
From Verif Require Import Coeff MatSpec FockSpec PauliModel OperatorModel FermiModel TransformModel RdmModel.
Import ListNotations.

(** * Letters and sites *)
(** _fermi_string.py l.102-106: [inds], [ops]. *)
Definition str_inds (s : fstr) : list nat := map snd (flat 0 s).
Definition str_ops (s : fstr) : list fop := map fst (flat 0 s).
(** l.62-74: the letters E ('+','-') and C ('p','h') of a string, and the sites of E. *)
Definition str_E (s : fstr) : list fop := filter ladder (str_ops s).
Definition str_C (s : fstr) : list fop := filter (fun o => negb (ladder o)) (str_ops s).
Definition str_sites (s : fstr) : list nat := map snd (filter (fun e => ladder (fst e)) (flat 0 s)).
Definition ops_eqb (a b : list fop) : bool := fstr_eqb (map Some a) (map Some b).

(** tools/rdm/_functions.py l.52-70 ([Recursive.choose] with one list of choices): take out the entry at each position, the
    last first, and go on with the rest.  [n] is the number of letters left. *)
Fixpoint choose (n : nat) (l : list fop) : list (list fop) :=
  match n with
  | O => [[]]
  | S n' => flat_map (fun m => map (cons (nth m l Cre)) (choose n' (firstn m l ++ skipn (S m) l))) (rev (seq 0 (length l)))
  end.
(** l.72-83 ([simplify]): keep the first occurrence of each. *)
Definition simplify (total : list (list fop)) : list (list fop) :=
  fold_left (fun new r => if existsb (ops_eqb r) new then new else new ++ [r]) total [].

(** l.93-109: a choice of letters is dropped when it changes the number of alpha and of beta particles.  The loop drops the
    first such choice and starts again until there is none, i.e. it drops all of them.  [na] and [nb] count '-' as 1 and
    '+' as -1; equality with zero is equality of the two counts. *)
Definition is_cre (o : fop) : bool := match o with Cre => true | _ => false end.
Definition balance (sel : nat -> bool) (p : list fop) (sites : list nat) : bool :=
  let l := filter (fun e => sel (snd e)) (combine p sites) in
  Nat.eqb (length (filter (fun e => is_cre (fst e)) l)) (length (filter (fun e => negb (is_cre (fst e))) l)).
Definition conserving (alp : nat -> bool) (sites : list nat) (p : list fop) : bool :=
  negb (negb (balance alp p sites) && negb (balance (fun q => negb (alp q)) p sites)).

(** l.110-118: the choices 'p'/'h' in the order of the binary numbers 0 .. 2^n-1, '0' being 'p'. *)
Fixpoint ph_choices (n : nat) : list (list fop) :=
  match n with O => [[]] | S n' => map (cons Par) (ph_choices n') ++ map (cons Hol) (ph_choices n') end.

(** l.140-149, l.153-190: the letters of [first] replaced by those of [p] and [q] in order, at the same sites.  The sites
    increase, so the constructor of FermiString keeps letters and coefficient. *)
Fixpoint fill (s : fstr) (p q : list fop) : fstr :=
  match s with
  | [] => []
  | None :: s' => None :: fill s' p q
  | Some o :: s' =>
      if ladder o then match p with x :: p' => Some x :: fill s' p' q | [] => Some o :: fill s' p q end
      else match q with x :: q' => Some x :: fill s' p q' | [] => Some o :: fill s' p q end
  end.

(** l.213-231: sorted by (number of letters other than X, Y, Z; number of X), largest first; [sorted] is stable. *)
Definition weight (s : list pauli) : nat * nat :=
  (length (filter (fun p => pauli_eqb p PI) s), length (filter (fun p => pauli_eqb p PX) s)).
Definition heavier (a b : list pauli) : bool :=
  let '(i, x) := weight a in let '(j, y) := weight b in (j <? i) || (Nat.eqb i j && (y <? x)).
Fixpoint insert_key (a : list pauli) (l : list (list pauli)) : list (list pauli) :=
  match l with
  | [] => [a]
  | b :: l' => if heavier a b then a :: l else b :: insert_key a l'
  end.
Definition sort_keys (l : list (list pauli)) : list (list pauli) := fold_left (fun acc a => insert_key a acc) l [].

(** l.262-300: the columns used. [indep cols] is the rank test (l.281) for the columns [cols].  Column 0 is taken without a test.
    After column [i] is taken the search goes on from there.  If the columns run out: [None] after a failed test (the code
    reports an error and keeps the whole operator); [Some None] if there was no column left to test ([use] still has its old
    value and the loop does not end, or is unset). *)
Fixpoint pick_columns (indep : list nat -> bool) (dim : nat) (rest : list nat) (added : list nat) (tested : bool) : option (option (list nat)) :=
  if Nat.eqb (length added) dim then Some (Some added)
  else match rest with
       | [] => if tested then None else Some None
       | i :: rest' =>
           if indep (added ++ [i]) then pick_columns indep dim rest' (added ++ [i]) false
           else pick_columns indep dim rest' added true
       end.

Section Sym.
  Variable K : CoefRing.
  Local Open Scope coef_scope.
  Notation pop := (opv K (list pauli)).
  (** [tiny x] is [abs(x)<1e-10] (l.310: [<=]); numpy's rank test for a list of columns; numpy's solution of the square system with
      the given columns, [None] when it raises. *)
  Variable tiny : K -> bool.
  Variable rank_ok : list (list K) -> bool.
  Variable solve : list (list K) -> list K -> option (list K).

  (** operators/_operator.py l.123-127. *)
  Definition null (o : pop) : bool := forallb (fun e => tiny (snd e)) o.
  Definition num (n : nat) : K := Nat.iter n (fun x => 1 + x) 0.
  (** [(Operator()+FermiString(..)).transform(transform)]. *)
  Definition image (s : fstr) (c : K) : pop := jw_operator [(s, c)].

  (** l.139-250: the loop over the choices.  [rows] are the operators kept, each with its image; [pb] is the Pauli basis, fixed by the
      first one. *)
  Inductive outcome := Whole | Raised | Basis (pb : list (list pauli)) (rows : list (fstr * pop)).
  Fixpoint basis_loop (dim len : nat) (tops : list fstr) (pb : option (list (list pauli))) (rows : list (fstr * pop)) : outcome :=
    match tops with
    | [] => match pb with Some b => Basis b rows | None => Raised end
    | top :: tops' =>
        let c := match pb with
                 | None => num (length (image top (num (2 ^ len))))
                 | Some b => num (length b)
                 end in
        let new := image top c in
        if length new <? dim then Whole
        else if null new then basis_loop dim len tops' pb rows
        else let b := match pb with None => sort_keys (map fst new) | Some b => b end in
             if forallb (fun e => existsb (pauli_list_eqb (fst e)) b) new
             then basis_loop dim len tops' (Some b) (rows ++ [(top, new)])
             else Raised
    end.

  (** l.245-250: the conjugate coefficient of string [P] in each row. *)
  Definition column (rows : list (fstr * pop)) (P : list pauli) : list K :=
    map (fun e => match op_get pauli_list_eqb P (snd e) with Some x => cconj x | None => 0 end) rows.

  (** l.303-309: the operator as a vector; strings are found by their letters.  [None] is the KeyError. *)
  Definition find_row (rows : list (fstr * pop)) (s : fstr) : option nat :=
    (fix go n l := match l with
                   | [] => None
                   | e :: l' => if ops_eqb (str_ops (fst e)) (str_ops s) then Some n else go (S n) l'
                   end) O rows.
  Definition set_at (n : nat) (x : K) (v : list K) : list K := firstn n v ++ match skipn n v with [] => [] | _ :: t => x :: t end.
  Definition op_vector (rows : list (fstr * pop)) (op : list (fstr * K)) : option (list K) :=
    fold_left (fun v e => match v with
                          | None => None
                          | Some v => if ceqb (snd e) 0 then Some v
                                      else match find_row rows (fst e) with Some n => Some (set_at n (snd e) v) | None => None end
                          end) op (Some (map (fun _ => 0) rows)).

  (** l.58-343.  [None]: an exception (or no end).  In the case of l.85-87 [op[0]] raises KeyError. *)
  Definition sym_project (alp : nat -> bool) (op : list (fstr * K)) : option pop :=
    match op with
    | [] => None
    | (first, _) :: _ =>
        let E := str_E first in
        let sites := str_sites first in
        let nEa := length (filter alp sites) in
        let nEb := length (filter (fun q => negb (alp q)) sites) in
        match E with
        | [] => Some (jw_operator op)
        | _ =>
            if Nat.odd nEa || Nat.odd nEb then None
            else
              let perms := filter (conserving alp sites) (simplify (choose (length E) E)) in
              let phs := ph_choices (length (str_C first)) in
              let dim := (length perms * length phs)%nat in
              if null (jw_operator op) then Some (jw_operator op)
              else match basis_loop dim (length (str_ops first)) (flat_map (fun p => map (fill first p) phs) perms) None [] with
                   | Whole => Some (jw_operator op)
                   | Raised => None
                   | Basis pb rows =>
                       let cols := map (column rows) pb in
                       let sel is := map (fun i => nth i cols []) is in
                       match (if Nat.eqb (length rows) 0 then Some (Some [])
                              else pick_columns (fun is => rank_ok (sel is)) (length rows) (seq 1 (length pb - 1)) [O] false) with
                       | None => Some (jw_operator op)
                       | Some None => None
                       | Some (Some added) =>
                           match op_vector rows op with
                           | None => None
                           | Some v =>
                               match solve (sel added) v with
                               | None => None
                               | Some x =>
                                   Some (fold_left (fun o e => if tiny (snd e) then o else pop_add_string o (nth (fst e) pb [], snd e))
                                           (combine added x) [])
                               end
                           end
                       end
                   end
        end
    end.

  (** _constant_tomography.py l.27-54. *)
  Definition generate_sp_rdme (ind : list nat) (real imag : bool) (alp : nat -> bool) (N : nat) : option pop :=
    match generate_rdme ind real imag N with
    | None => None
    | Some op => sym_project alp op
    end.
End Sym.
Arguments null {_}. Arguments num {_}. Arguments image {_}. Arguments Whole {_}. Arguments Raised {_}. Arguments Basis {_}. Arguments basis_loop {_}. Arguments column {_}.
Arguments find_row {_}. Arguments set_at {_}. Arguments op_vector {_}. Arguments sym_project {_}. Arguments generate_sp_rdme {_}.
