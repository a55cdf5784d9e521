(** Model of hqca/tools/util/Utilities.py: neighbour tables of a device, random qubit sequences and their fitness.

    Reading the device file (pickle) and the QASM file is left out: coupling map, gate list, readout errors and the list of
    instructions are given.  Dictionaries are functions to [option] or, where the keys are range(16), functions of the key
    together with the test that the key is below 16.  Random numbers are arguments.  [None]: an exception. *)
From Coq Require Import Bool List Arith QArith Lia.
Import ListNotations.
Local Open Scope nat_scope.

Definition mem (x : nat) (l : list nat) : bool := existsb (Nat.eqb x) l.
(** l.24-30: the list [self.neighbor[k]] after the loop; [None]: a pair with a qubit that is not in range(16) (KeyError). *)
Definition neighbor (cm : list (nat * nat)) (k : nat) : list nat :=
  flat_map (fun p => (if fst p =? k then [snd p] else []) ++ (if snd p =? k then [fst p] else [])) cm.
Definition neighbors (cm : list (nat * nat)) : option (nat -> list nat) :=
  if forallb (fun p => (fst p <? 16) && (snd p <? 16)) cm then Some (neighbor cm) else None.

(** l.32-53, for one key [k]; the pair is (two_steps[k], three_steps[k]). *)
Definition third (nb : nat -> list nat) (k : nat) (st : list nat * list nat) (n3 : nat) : list nat * list nat :=
  if negb (n3 =? k) && negb (mem n3 (nb k)) && negb (mem n3 (fst st)) && negb (mem n3 (snd st)) then (fst st, snd st ++ [n3]) else st.
Definition second (nb : nat -> list nat) (k : nat) (st : list nat * list nat) (n2 : nat) : list nat * list nat :=
  if negb (n2 =? k) && negb (mem n2 (nb k)) && negb (mem n2 (fst st)) then fold_left (third nb k) (nb n2) (fst st ++ [n2], snd st) else st.
Definition first (nb : nat -> list nat) (k : nat) (st : list nat * list nat) (n1 : nat) : list nat * list nat :=
  if n1 =? k then st else fold_left (second nb k) (nb n1) st.
Definition more_neighbors (nb : nat -> list nat) (k : nat) : list nat * list nat := fold_left (first nb k) (nb k) ([], []).
Definition two_steps nb k := fst (more_neighbors nb k).
Definition three_steps nb k := snd (more_neighbors nb k).

(** l.55-70: the CNOT errors; a later entry overwrites an earlier one. *)
Definition cx_errors (gates : list (nat * nat * Q)) (a b : nat) : option Q :=
  fold_left (fun acc g => let '(x, y, v) := g in if ((x =? a) && (y =? b)) || ((y =? a) && (x =? b)) then Some v else acc) gates None.

(** l.139-173 [generate_random_sequence].  [choice it] is the number drawn by random.choice and [shuffle it l] the sample of
    l drawn in iteration [it]. *)
Record walk := MkWalk { w_it : nat; w_start : bool; w_strand : list nat }.
Inductive outcome := Fails | Going (w : walk) | Done (l : list nat).
Definition fresh (seq strand : list nat) : option nat := find (fun s => negb (mem s strand)) seq.
Definition walk_step (nb : nat -> list nat) (Nq N : nat) (choice : nat -> nat) (shuffle : nat -> list nat -> list nat) (w : walk) : outcome :=
  let strand := if w_it w mod 100 =? 0 then [] else w_strand w in
  match (match strand with [] => if Nq =? 0 then None else Some [choice (w_it w)] | _ => Some strand end) with
  | None => Fails
  | Some strand =>
    let q := if w_start w then hd 0 strand else last strand 0 in
    if 16 <=? q then Fails
    else
      let seq := shuffle (w_it w) (nb q) in
      let '(start', strand') :=
        match fresh seq strand with
        | Some s => (w_start w, if w_start w then s :: strand else strand ++ [s])
        | None => match seq with [] => (w_start w, strand) | _ => if w_start w then (false, strand) else (true, removelast strand) end
        end in
      if length strand' =? N then Done strand' else Going (MkWalk (S (w_it w)) start' strand')
  end.
(** The while loop, for at most [fuel] iterations. *)
Fixpoint walk_loop nb Nq N choice shuffle (fuel : nat) (w : walk) : outcome :=
  match fuel with
  | 0 => Going w
  | S f => match walk_step nb Nq N choice shuffle w with Going w' => walk_loop nb Nq N choice shuffle f w' | r => r end
  end.
Definition generate_random_sequence nb Nq N choice shuffle fuel (strand : list nat) : outcome :=
  walk_loop nb Nq N choice shuffle fuel (MkWalk 0 true strand).
(** l.177-184 [mutate_sequence]: [r] and [s] are the two random numbers. *)
Definition mutate_sequence nb Nq N choice shuffle fuel (r s : nat) (sq : list nat) : outcome :=
  generate_random_sequence nb Nq N choice shuffle fuel (firstn (s - r) (skipn r sq)).
(** l.107-111 [parameter_transfer]: [i] is the random index. *)
Definition parameter_transfer (i : nat) (current switch : list nat) : option (list nat) :=
  match nth_error switch i with
  | Some x => if i <? length current then Some (firstn i current ++ x :: skipn (S i) current) else None
  | None => None
  end.
(** l.117-128 [full_mutate_sequence]: [r i] and [d i] are the random numbers of position i. *)
Fixpoint full_mutate (r : nat -> Q) (d : nat -> nat) (a b c : Q) (i : nat) (current leader : list nat) : option (list nat) :=
  match current with
  | [] => Some []
  | x :: cur =>
    match (if Qle_bool (r i) a then Some [x]
           else if Qle_bool (r i) b then match nth_error leader i with Some y => Some [y] | None => None end
           else if Qle_bool (r i) c then Some [d i] else Some []),
          full_mutate r d a b c (S i) cur leader with
    | Some u, Some v => Some (u ++ v)
    | _, _ => None
    end
  end.
Definition full_mutate_sequence r d (m0 m1 m2 : Q) (current leader : list nat) : option (list nat) :=
  full_mutate r d m0 (m0 + m1)%Q (m0 + m1 + m2)%Q 0 current leader.

Local Open Scope Q_scope.
(** l.186-205 [fitness_qubits]. *)
Fixpoint fit_cx (cx : nat -> nat -> option Q) (qubits : list nat) : option Q :=
  match qubits with
  | a :: ((b :: _) as rest) => match cx a b, fit_cx cx rest with Some e, Some f => Some ((1 - e) * f) | _, _ => None end
  | _ => Some 1
  end.
Fixpoint fit_ro (ro : nat -> option Q) (qubits : list nat) : option Q :=
  match qubits with
  | [] => Some 0
  | a :: rest => match ro a, fit_ro ro rest with Some e, Some f => Some ((1 - e) + f) | _, _ => None end
  end.
Definition fitness_qubits (cx : nat -> nat -> option Q) (ro : nat -> option Q) (qubits : list nat) : option Q :=
  match fit_cx cx qubits, fit_ro ro qubits with
  | Some c, Some r => match length qubits with O => None | n => Some (1 - c * (r * (1 / inject_Z (Z.of_nat n)))) end
  | _, _ => None
  end.
(** l.207-231 [fitness_qasm].  Instructions: readout, CNOT, and u1, u2, u3 with the qubit of the program. *)
Inductive instr := IRo (n : nat) | ICx (a b : nat) | IU (u n : nat).
Record device := MkDev { d_cx : nat -> nat -> option Q; d_ro : nat -> option Q; d_u : nat -> nat -> option Q }.
Fixpoint scale_at (i : nat) (x : Q) (l : list Q) : option (list Q) :=
  match l, i with
  | [], _ => None
  | y :: l', O => Some (y * x :: l')
  | y :: l', S i' => match scale_at i' x l' with Some m => Some (y :: m) | None => None end
  end.
Definition bind {A B} (o : option A) (f : A -> option B) : option B := match o with Some x => f x | None => None end.
Definition fit_step (D : device) (qubits : list nat) (f_c : option (list Q)) (ins : instr) : option (list Q) :=
  bind f_c (fun f =>
  match ins with
  | IRo n => bind (nth_error qubits n) (fun q => bind (d_ro D q) (fun e => scale_at n (1 - e) f))
  | ICx a b => bind (nth_error qubits a) (fun qa => bind (nth_error qubits b) (fun qb => bind (d_cx D qa qb) (fun e =>
               bind (scale_at a (1 - (3 # 4) * e) f) (fun f' => scale_at b (1 - (3 # 4) * e) f'))))
  | IU u n => bind (nth_error qubits n) (fun q => bind (d_u D u q) (fun e => scale_at n (1 - e) f))
  end).
Definition qsum (l : list Q) : Q := fold_right Qplus 0 l.
(** [verbose]: the printed line reads f_ro, which is not defined.  An empty list has no average (nan). *)
Definition fitness_qasm (D : device) (prog : list instr) (verbose : bool) (qubits : list nat) : option Q :=
  bind (fold_left (fit_step D qubits) prog (Some (repeat 1 (length qubits)))) (fun f =>
  if verbose then None else match length qubits with O => None | n => Some (1 - qsum f / inject_Z (Z.of_nat n)) end).
(** l.233-252 [fitness_random_qasm]. *)
Fixpoint unique (l : list nat) : bool := match l with [] => true | x :: l' => negb (mem x l') && unique l' end.
Fixpoint fit_link (nb : nat -> list nat) (f_l : Q) (qubits : list nat) : option Q :=
  match qubits with
  | q1 :: ((q2 :: _) as rest) =>
    if (16 <=? q1)%nat then None
    else fit_link nb (if mem q2 (nb q1) then f_l else if mem q2 (two_steps nb q1) then f_l * (1 / 2)
                      else if mem q2 (three_steps nb q1) then f_l * (1 / 3) else 0) rest
  | _ => Some f_l
  end.
Definition fitness_random_qasm (nb : nat -> list nat) (D : device) (prog : list instr) (verbose : bool) (qubits : list nat) : option Q :=
  if negb (unique qubits) then Some 1
  else bind (fit_link nb 1 qubits) (fun f_l => bind (fitness_qasm D prog verbose qubits) (fun f_r => Some ((1 # 2) * (1 - f_l) + f_r * (1 # 2)))).
