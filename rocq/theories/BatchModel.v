(** Model of [run_multiple] (hqca/tomography/_tomography.py l.946-1071): circuits of several tomographies sent as one job, and the results
    handed back by name.  Characters are code points.  The job is external: a circuit has one result, and a name given twice gives the result
    of its first circuit.  The tomographies are distinct objects.  [None]: an exception. *)
From Coq Require Import Bool List Arith.
Import ListNotations.
Local Open Scope nat_scope.
Definition name := list nat.
Fixpoint name_eqb (a b : name) : bool :=
  match a, b with
  | [], [] => true
  | x :: a', y :: b' => Nat.eqb x y && name_eqb a' b'
  | _, _ => false
  end.
(** Decimal digits; '{:02}'.format(n) (l.957, l.998). *)
Fixpoint digits (fuel n : nat) (acc : name) : name :=
  match fuel with
  | O => acc
  | S f => let acc' := (48 + n mod 10) :: acc in if Nat.eqb (n / 10) 0 then acc' else digits f (n / 10) acc'
  end.
Definition format02 (n : nat) : name := if Nat.ltb n 10 then [48; 48 + n] else digits (S n) n [].
(** s[-2:] and s[:-2]. *)
Definition last2 (s : name) : name := skipn (length s - 2) s.
Definition but2 (s : name) : name := firstn (length s - 2) s.
(** int of a string of decimal digits. *)
Fixpoint parse (s : name) (acc : nat) : option nat :=
  match s with
  | [] => Some acc
  | c :: s' => if Nat.leb 48 c && Nat.leb c 57 then parse s' (10 * acc + (c - 48)) else None
  end.
Definition int_of (s : name) : option nat := match s with [] => None | _ => parse s 0 end.
Section Batch.
  Context {C V : Type}.
  Variable run : C -> V.
  Definition dict := list (name * V).
  Fixpoint dset (k : name) (v : V) (d : dict) : dict :=
    match d with
    | [] => [(k, v)]
    | (k', v') :: d' => if name_eqb k k' then (k', v) :: d' else (k', v') :: dset k v d'
    end.
  (** l.990-1000: the circuits, renamed in place. *)
  Fixpoint renamed_from (n : nat) (tomos : list (list (name * C))) : list (list (name * C)) :=
    match tomos with
    | [] => []
    | t :: ts => map (fun c => (fst c ++ format02 n, snd c)) t :: renamed_from (S n) ts
    end.
  (** l.1016-1050: [get_counts(name)]. *)
  Fixpoint get_counts (job : list (name * C)) (k : name) : option V :=
    match job with
    | [] => None
    | (k', c) :: job' => if name_eqb k k' then Some (run c) else get_counts job' k
    end.
  Fixpoint put (n : nat) (k : name) (v : V) (l : list dict) : option (list dict) :=
    match l, n with
    | [], _ => None
    | d :: l', O => Some (dset k v d :: l')
    | d :: l', S n' => match put n' k v l' with None => None | Some r => Some (d :: r) end
    end.
  (** l.1065-1071. *)
  Fixpoint hand_back (job : list (name * C)) (names : list name) (counts : list dict) : option (list dict) :=
    match names with
    | [] => Some counts
    | k :: names' =>
        match get_counts job k, int_of (last2 k) with
        | Some res, Some n => match put n (but2 k) res counts with None => None | Some counts' => hand_back job names' counts' end
        | _, _ => None
        end
    end.
  (** l.955-958: the names are those before the circuits are renamed, with the same suffix; l.1052-1053; l.1054-1063: with a measurement filter the
      dictionary [new_counts] is empty, so the first circuit raises.  The result: the dictionaries [counts], and the circuits as they are left. *)
  Definition run_multiple (use_meas_filter : bool) (tomos : list (list (name * C))) : option (list dict * list (list (name * C))) :=
    let job := concat (renamed_from 0 tomos) in
    let names := map fst job in
    if use_meas_filter && negb (match names with [] => true | _ => false end) then None
    else match hand_back job names (map (fun _ => []) tomos) with None => None | Some counts => Some (counts, renamed_from 0 tomos) end.
End Batch.
