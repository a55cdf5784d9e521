(** Model of the bitstring helpers of hqca/tools/_functions.py (get_trace, filt, map_wf, extend_wf) and of the swap
    bookkeeping of hqca/core/_circuit.py.

    A string of '0' and '1' is a list of bool.  A dict is the list of its items in insertion order.  Counts and
    amplitudes are integers where only sums matter and of any type otherwise. *)
From Coq Require Import Bool List Arith ZArith.
Import ListNotations.

(** Python slices k[0:i] and k[i:], also for negative i. *)
Definition upto_ {A} (k : list A) (i : Z) : list A :=
  firstn (Z.to_nat (if (i <? 0)%Z then i + Z.of_nat (length k) else i)%Z) k.
Definition from_ {A} (k : list A) (i : Z) : list A :=
  skipn (Z.to_nat (if (i <? 0)%Z then i + Z.of_nat (length k) else i)%Z) k.
(** l[i]: negative indices count from the end; outside raises. *)
Definition item {A} (l : list A) (i : Z) : option A :=
  if (i <? 0)%Z then (if (i + Z.of_nat (length l) <? 0)%Z then None else nth_error l (Z.to_nat (i + Z.of_nat (length l))))
  else nth_error l (Z.to_nat i).
Fixpoint str_eqb (a b : list bool) : bool :=
  match a, b with
  | [], [] => true
  | x :: a, y :: b => Bool.eqb x y && str_eqb a b
  | _, _ => false
  end.

Section Dict.
  Variable V : Type.
  (** d[k] = v and d[k] = d[k] + v. *)
  Fixpoint dict_set (k : list bool) (f : option V -> V) (d : list (list bool * V)) : list (list bool * V) :=
    match d with
    | [] => [(k, f None)]
    | (k', v') :: d' => if str_eqb k k' then (k', f (Some v')) :: d' else (k', v') :: dict_set k f d'
    end.
  Fixpoint dict_get (k : list bool) (d : list (list bool * V)) : option V :=
    match d with
    | [] => None
    | (k', v') :: d' => if str_eqb k k' then Some v' else dict_get k d'
    end.
End Dict.
Arguments dict_set {_}. Arguments dict_get {_}.

(** _functions.py l.103-111. *)
Definition get_trace (Nq : nat) (active : list nat) : list nat :=
  filter (fun i => negb (existsb (Nat.eqb i) active)) (seq 0 Nq).

(** l.160-165: the qubits are removed one after the other. *)
Definition filt_key (Nqb : nat) (trace : list nat) (k : list bool) : list bool :=
  fold_left (fun k t =>
    let i := (Z.of_nat Nqb - 1 - Z.of_nat t)%Z in
    if (i =? Z.of_nat Nqb - 1)%Z then upto_ k i else upto_ k i ++ from_ k (i + 1)) trace k.
(** l.157, l.166: membership in the list of strings of width Nf.  The format of 0 with width 0 is '0'. *)
Definition in_qb_list (Nf : nat) (k : list bool) : bool :=
  match Nf with O => str_eqb k [false] | _ => Nat.eqb (length k) Nf end.
(** l.154-177.  [None]: no key (IndexError), or more traced qubits than qubits (range of a float, TypeError). *)
Definition filt (qb_counts : list (list bool * Z)) (trace : list nat) : option (list (list bool * Z)) :=
  match qb_counts with
  | [] => None
  | (k0, _) :: _ =>
      let Nqb := length k0 in
      if Nqb <? length trace then None
      else Some (fold_left (fun d kv =>
        let k := filt_key Nqb trace (fst kv) in
        if in_qb_list (Nqb - length trace) k
        then dict_set k (fun o => match o with Some x => (x + snd kv)%Z | None => snd kv end) d
        else d) qb_counts [])
  end.

(** new[:i] + c + new[i+1:]. *)
Definition put (i : nat) (c : bool) (new : list bool) : list bool := firstn i new ++ [c] ++ skipn (S i) new.

(** l.237-242; the mapping is a dict of non-negative ints, [None]: KeyError. *)
Definition map_det (mapping : nat -> option nat) (det : list bool) : option (list bool) :=
  fold_left (fun o i => match o with
    | None => None
    | Some new => match mapping i with None => None | Some ind => Some (put ind (nth i det false) new) end
    end) (seq 0 (length det)) (Some (repeat false (length det))).
Section Wf.
  Variable V : Type.
  (** A dict comprehension-like loop: new_wf[f(k)] = v. *)
  Fixpoint rebuild (f : list bool -> option (list bool)) (wf : list (list bool * V)) (acc : list (list bool * V)) : option (list (list bool * V)) :=
    match wf with
    | [] => Some acc
    | (k, v) :: wf' => match f k with None => None | Some k' => rebuild f wf' (dict_set k' (fun _ => v) acc) end
    end.
  (** l.234-244. *)
  Definition map_wf (wf : list (list bool * V)) (mapping : nat -> option nat) : option (list (list bool * V)) :=
    rebuild (map_det mapping) wf [].
End Wf.
Arguments rebuild {_}. Arguments map_wf {_}.

(** l.258-279, one determinant. *)
Definition extend_det (Norb_tot : nat) (a_in a_act b_in b_act : list nat) (k : list bool) : option (list bool) :=
  let new := fold_left (fun s i => put i true s) (a_in ++ b_in) (repeat false (Norb_tot * 2)) in
  fst (fold_left (fun (s : option (list bool) * nat) (i : bool) =>
    let (o, ind) := s in
    (match o with
     | None => None
     | Some new =>
         if i then
           if ind <? length a_act then option_map (fun z => put z true new) (nth_error a_act ind)
           else option_map (fun z => put z true new) (item b_act (Z.of_nat ind - Z.of_nat (length b_act)))
         else Some new
     end, S ind)) k (Some new, 0)).
(** l.247-280. *)
Definition extend_wf {V} (wf : list (list bool * V)) (Norb_tot : nat) (a_in a_act b_in b_act : list nat) : option (list (list bool * V)) :=
  rebuild (extend_det Norb_tot a_in a_act b_in b_act) wf [].

(** ** core/_circuit.py *)
(** GenericCircuit: the dict [swap] as a function and the gates sent to the quantum register. *)
Inductive call := CSw (q p : nat) | CX (q : nat).
Record gcirc := { g_swap : nat -> nat; g_gates : list nat }.
(** l.47. *)
Definition gcirc_new : gcirc := {| g_swap := fun i => i; g_gates := [] |}.
(** l.100-104 (Sw) and l.85-86 (x): the gate is sent to q itself; [swap] is not read. *)
Definition gcirc_call (g : gcirc) (c : call) : gcirc :=
  match c with
  | CSw q p =>
      let s1 := fun i => if Nat.eqb i p then q else g_swap g i in
      {| g_swap := fun i => if Nat.eqb i q then p else s1 i; g_gates := g_gates g |}
  | CX q => {| g_swap := g_swap g; g_gates := g_gates g ++ [q] |}
  end.
Definition gcirc_run (cs : list call) : gcirc := fold_left gcirc_call cs gcirc_new.
