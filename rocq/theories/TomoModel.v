(** Model of hqca/tomography/_reduce_circuit.py, of the dictionary of colours of hqca/tomography/__graph.py
    and of hqca/processes/_process_counts.py.

    [None] stands for a raised exception or sys.exit. *)
From Coq Require Import Bool List Arith ZArith QArith.
From Verif Require Import Coeff MatSpec.
Import ListNotations.

(** _reduce_circuit.py l.10-18 ([qwc]).  [B[i]] raises IndexError when B is too short; [or] does not look
    at it when [A[i]=='I']. *)
Fixpoint qwc (a b : list pauli) : option bool :=
  match a with
  | [] => Some true
  | x :: a' =>
      if pauli_eqb x PI then qwc a' (tl b)
      else match b with
           | [] => None
           | y :: b' => if pauli_eqb y PI then qwc a' b' else if pauli_eqb x y then qwc a' b' else Some false
           end
  end.

(** l.20-29 ([commute]): the counter, then [(k+1)%2]. *)
Fixpoint differing (a b : list pauli) : option nat :=
  match a with
  | [] => Some 0%nat
  | x :: a' =>
      if pauli_eqb x PI then differing a' (tl b)
      else match b with
           | [] => None
           | y :: b' =>
               match differing a' b' with
               | None => None
               | Some k => Some (if pauli_eqb y PI then k else if pauli_eqb x y then k else S k)
               end
           end
  end.
Definition commute (a b : list pauli) : option nat :=
  match differing a b with None => None | Some k => Some (Nat.modulo (k + 1) 2) end.

(** l.31-37 ([pauli_relation]) for the two named relations. *)
Inductive relation := Rqwc | Rmc.
Definition pauli_relation (rel : relation) (a b : list pauli) : option bool :=
  match rel with
  | Rqwc => option_map negb (qwc a b)
  | Rmc => option_map (fun k => Nat.eqb k 0) (commute a b)
  end.

(** l.46-76 ([construct_simple_graph]): the edges [i,j] for i<j with items[i], items[j] related.  [pre] are
    the items before the current one, with their positions. *)
Fixpoint edges_to (rel : relation) (j : nat) (x : list pauli) (i : nat) (pre : list (list pauli)) : option (list (nat * nat)) :=
  match pre with
  | [] => Some []
  | y :: pre' =>
      match pauli_relation rel y x, edges_to rel j x (S i) pre' with
      | Some r, Some es => Some (if r then (i, j) :: es else es)
      | _, _ => None
      end
  end.
Fixpoint edges_from (rel : relation) (j : nat) (pre rest : list (list pauli)) : option (list (nat * nat)) :=
  match rest with
  | [] => Some []
  | x :: rest' =>
      match edges_to rel j x 0 pre, edges_from rel (S j) (pre ++ [x]) rest' with
      | Some e, Some es => Some (e ++ es)
      | _, _ => None
      end
  end.
Definition graph_edges (rel : relation) (items : list (list pauli)) : option (list (nat * nat)) :=
  edges_from rel 0 [] items.

(** __graph.py l.64-72 (and l.34-43, l.146-150): the dictionary from colours to the vertices having them,
    built by [try: colors[i].append(n)  except: colors[i]=[n]]; [alg] is the array of colours. *)
Fixpoint color_add (c n : nat) (d : list (nat * list nat)) : list (nat * list nat) :=
  match d with
  | [] => [(c, [n])]
  | (c', vs) :: d' => if Nat.eqb c c' then (c', vs ++ [n]) :: d' else (c', vs) :: color_add c n d'
  end.
Fixpoint color_dict (n : nat) (alg : list nat) (d : list (nat * list nat)) : list (nat * list nat) :=
  match alg with
  | [] => d
  | c :: alg' => color_dict (S n) alg' (color_add c n d)
  end.

(** l.79-94 ([__find_largest_qwc]): at each position the first letter that is not I.  [None]: A is empty
    (IndexError), or a string is too short. *)
Fixpoint first_letter (j : nat) (A : list (list pauli)) : option pauli :=
  match A with
  | [] => Some PI
  | s :: A' =>
      match nth_error s j with
      | None => None
      | Some p => if pauli_eqb p PI then first_letter j A' else Some p
      end
  end.
Fixpoint option_seq {X} (l : list (option X)) : option (list X) :=
  match l with
  | [] => Some []
  | None :: _ => None
  | Some x :: l' => match option_seq l' with None => None | Some r => Some (x :: r) end
  end.
Definition find_largest (A : list (list pauli)) : option (list pauli) :=
  match A with
  | [] => None
  | s :: _ => option_seq (map (fun j => first_letter j A) (seq 0 (length s)))
  end.

Fixpoint dget (k : nat) (d : list (nat * list nat)) : option (list nat) :=
  match d with
  | [] => None
  | (c, v) :: d' => if Nat.eqb k c then Some v else dget k d'
  end.
Fixpoint pstr_eqb (a b : list pauli) : bool :=
  match a, b with
  | [], [] => true
  | x :: a', y :: b' => pauli_eqb x y && pstr_eqb a' b'
  | _, _ => false
  end.
Definition pdict := list (list pauli * list pauli).
Fixpoint pset (k v : list pauli) (d : pdict) : pdict :=
  match d with
  | [] => [(k, v)]
  | (k', v') :: d' => if pstr_eqb k k' then (k', v) :: d' else (k', v') :: pset k v d'
  end.
Fixpoint pget (k : list pauli) (d : pdict) : option (list pauli) :=
  match d with
  | [] => None
  | (k', v) :: d' => if pstr_eqb k k' then Some v else pget k d'
  end.

(** l.163-176: [zip(p,meas)]; the check passes when every non-I letter of p is the one of meas. *)
Fixpoint matches (p m : list pauli) : bool :=
  match p, m with
  | x :: p', y :: m' => (pauli_eqb x PI || pauli_eqb y x) && matches p' m'
  | _, _ => true
  end.

Definition select (operators : list (list pauli)) (v : list nat) : option (list (list pauli)) :=
  option_seq (map (fun i => nth_error operators i) v).

(** l.142-156: [paulis[graph.rev_map[p]]=K] for each colour and vertex. *)
Fixpoint assign_all (operators : list (list pauli)) (K : list pauli) (v : list nat) (d : pdict) : option pdict :=
  match v with
  | [] => Some d
  | i :: v' => match nth_error operators i with None => None | Some p => assign_all operators K v' (pset p K d) end
  end.
Fixpoint build_paulis (operators : list (list pauli)) (ops : list (list pauli)) (colors : list (nat * list nat)) (d : pdict)
  : option pdict :=
  match colors with
  | [] => Some d
  | (k, v) :: colors' =>
      match nth_error ops k with
      | None => None
      | Some K => match assign_all operators K v d with None => None | Some d' => build_paulis operators ops colors' d' end
      end
  end.

(** l.96-178 ([simplify_tomography]).  [alg] is the colouring returned by the external library for the
    graph with edges [graph_edges]. *)
Definition simplify_tomography (rel : relation) (operators : list (list pauli)) (alg : list nat)
  : option (list (list pauli) * pdict) :=
  match operators with
  | [op] => Some ([op], [(op, op)])
  | _ =>
      match graph_edges rel operators with
      | None => None
      | Some _ =>
          let colors := color_dict 0 alg [] in
          match option_seq (map (fun c => match dget c colors with
                                          | None => None
                                          | Some v => match select operators v with None => None | Some A => find_largest A end
                                          end) (seq 0 (length colors))) with
          | None => None
          | Some ops =>
              match build_paulis operators ops colors [] with
              | None => None
              | Some paulis => if forallb (fun e => matches (fst e) (snd e)) paulis then Some (ops, paulis) else None
              end
          end
      end
  end.

(** * _process_counts.py *)
(** Python indexing, negative indices counting from the end. *)
Definition py_nth {X} (l : list X) (i : Z) : option X :=
  if (0 <=? i)%Z then nth_error l (Z.to_nat i)
  else if (- Z.of_nat (length l) <=? i)%Z then nth_error l (Z.to_nat (Z.of_nat (length l) + i)) else None.

(** l.38-44: the phase of one determinant (a bit string, last character = qubit 0). *)
Fixpoint det_phase (Nq : Z) (i : Z) (s : list pauli) (det : list bool) (ph : Z) : option Z :=
  match s with
  | [] => Some ph
  | z :: s' =>
      if pauli_eqb z PI then det_phase Nq (i + 1) s' det ph
      else match py_nth det (Nq - i - 1) with
           | None => None
           | Some b => det_phase Nq (i + 1) s' det (if b then - ph else ph)%Z
           end
  end.
(** l.36-48: the counts branch.  Counts are integers; the quotient of two Python integers is a float, here
    a rational. *)
Fixpoint counts_loop (Nq : nat) (s : list pauli) (counts : list (list bool * Z)) (val total : Z) : option (Z * Z) :=
  match counts with
  | [] => Some (val, total)
  | (det, n) :: counts' =>
      match det_phase (Z.of_nat Nq) 0 s det 1 with
      | None => None
      | Some ph => counts_loop Nq s counts' (val + n * ph) (total + n)
      end
  end.
Definition measure_counts (Nq : nat) (s : list pauli) (counts : list (list bool * Z)) : option Q :=
  match counts_loop Nq s counts 0 0 with
  | None => None
  | Some (val, total) => if (total =? 0)%Z then None else Some (inject_Z val / inject_Z total)
  end.

(** l.18-35: the state vector branch.  [counts] is the array of amplitudes; [tiny x] is [abs(x)<1e-14].
    [bin_strings] are the strings ['{:0{}b}'.format(i,Nq)] for i in range(2**Nq), in order. *)
Fixpoint bin_strings (n : nat) : list (list bool) :=
  match n with
  | O => [[]]
  | S n' => map (cons false) (bin_strings n') ++ map (cons true) (bin_strings n')
  end.
Section SV.
  Variable K : CoefRing.
  Local Open Scope coef_scope.
  Variable tiny : K -> bool.
  (** l.27-32: [for i in range(min(len(b),len(pauli_string)))]. *)
  Fixpoint sv_sign (Nq i : nat) (s : list pauli) (b : list bool) (sg : bool) : bool :=
    match s with
    | [] => sg
    | z :: s' =>
        if Nat.ltb i (length b) then
          sv_sign Nq (S i) s' b (if pauli_eqb z PI then sg else if nth (Nq - i - 1) b false then negb sg else sg)
        else sg
    end.
  Fixpoint sv_loop (Nq : nat) (s : list pauli) (l : list (list bool * K)) (val : K) : K :=
    match l with
    | [] => val
    | (b, x) :: l' =>
        sv_loop Nq s l'
          (if tiny x then val else val + (x * cconj x) * (if sv_sign Nq 0 s b false then - (1) else 1))
    end.
  Definition measure_sv (Nq : nat) (s : list pauli) (counts : list K) : K :=
    sv_loop Nq s (combine (bin_strings Nq) counts) 0.
End SV.
Arguments measure_sv {_}.
