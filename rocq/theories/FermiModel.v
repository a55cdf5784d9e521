(** Model of hqca/operators/quantum_strings/_fermi_string.py and _qubit_string.py.

    Letters '+','-','p','h' are [Cre],[Ann],[Par],[Hol]; 'i' is [None].  The parallel values [inds]
    (list of ints) and [sqop] (string) are one list of pairs; indices are natural numbers (negative
    Python indices are not modelled).  [self.sym] and [self.add] are not modelled. *)
From Coq Require Import Bool List Arith.
From Verif Require Import Coeff FockSpec.
Import ListNotations.

(** _fermi_string.py l.225-237: one pass of the sorting loop, i.e. swap the first descent; [None] if
    the list is sorted.  The boolean says whether the coefficient is negated (l.228-233). *)
Fixpoint bubble_pass (l : list (fop * nat)) : option (bool * list (fop * nat)) :=
  match l with
  | (a, i) :: t =>
      match t with
      | (b, j) :: t' =>
          if j <? i then Some (ladder a && ladder b, (b, j) :: (a, i) :: t')
          else match bubble_pass t with
               | Some (s, l') => Some (s, (a, i) :: l')
               | None => None
               end
      | [] => None
      end
  | [] => None
  end.

(** _fermi_string.py l.242-245: the tables [zeros] (here [None]) and [simple]. *)
Definition merge_table (a b : fop) : option fop :=
  match a, b with
  | Hol, Cre | Ann, Hol | Par, Ann | Cre, Par | Cre, Cre | Ann, Ann | Par, Hol | Hol, Par => None
  | Hol, Ann => Some Ann
  | Cre, Hol => Some Cre
  | Par, Cre => Some Cre
  | Ann, Par => Some Ann
  | Par, Par => Some Par
  | Hol, Hol => Some Hol
  | Cre, Ann => Some Par
  | Ann, Cre => Some Hol
  end.

Inductive merge_res := MDone | MZero | MCont (l : list (fop * nat)).

(** _fermi_string.py l.248-260: one pass of the merging loop. *)
Fixpoint merge_pass (l : list (fop * nat)) : merge_res :=
  match l with
  | (a, i) :: t =>
      match t with
      | (b, j) :: t' =>
          if i =? j then
            match merge_table a b with
            | None => MZero
            | Some o => MCont ((o, i) :: t')
            end
          else match merge_pass t with
               | MCont l' => MCont ((a, i) :: l')
               | r => r
               end
      | [] => MDone
      end
  | [] => MDone
  end.

(** _fermi_string.py l.246-260: [while not done]; [None] inside [Some] is the zero outcome, the
    outer [None] means out of fuel. *)
Fixpoint merge_loop (fuel : nat) (l : list (fop * nat)) : option (option (list (fop * nat))) :=
  match fuel with
  | O => None
  | S f =>
      match merge_pass l with
      | MDone => Some (Some l)
      | MZero => Some None
      | MCont l' => merge_loop f l'
      end
  end.

(** l.239: [len(set(inds))==len(sqop)]. *)
Fixpoint nodup_inds (l : list (fop * nat)) : bool :=
  match l with
  | [] => true
  | (_, i) :: t => negb (existsb (fun e => Nat.eqb i (snd e)) t) && nodup_inds t
  end.

(** _fermi_string.py l.264-269: assembly of the letter string ('i'*k with k negative is ''). *)
Fixpoint assemble_from (l : list (fop * nat)) (N : nat) : fstr :=
  match l with
  | [] => []
  | (o, i) :: t =>
      match t with
      | [] => Some o :: repeat None (N - i - 1)
      | (_, j) :: _ => Some o :: repeat None (j - i - 1) ++ assemble_from t N
      end
  end.
Definition assemble (l : list (fop * nat)) (N : nat) : fstr :=
  match l with
  | [] => []
  | (_, i) :: _ => repeat None i ++ assemble_from l N
  end.

Section Fermi.
  Variable K : CoefRing.
  Local Open Scope coef_scope.

  (** _fermi_string.py l.222-237: [while not sort].  [anti] is [self.fermi]. *)
  Fixpoint sort_loop (anti : bool) (fuel : nat) (c : K) (l : list (fop * nat))
    : option (K * list (fop * nat)) :=
    match fuel with
    | O => None
    | S f =>
        match bubble_pass l with
        | None => Some (c, l)
        | Some (s, l') => sort_loop anti f (if anti && s then c * - (1) else c) l'
        end
    end.

  Definition merge_stage (l : list (fop * nat)) : option (option (list (fop * nat))) :=
    if nodup_inds l then Some (Some l) else merge_loop (S (length l)) l.

  (** _fermi_string.py l.222-271 after the emptiness test.  [None] = the model ran out of fuel or the
      code would raise IndexError on an empty list. *)
  Definition generate (anti : bool) (c : K) (l : list (fop * nat)) (N : nat) : option (fstr * K) :=
    match sort_loop anti (S (length l * length l)) c l with
    | None => None
    | Some (c', l') =>
        match merge_stage l' with
        | None => None
        | Some m =>
            let c'' := match m with None => 0 | Some _ => c' end in
            if ceqb c'' 0 then Some (repeat None N, c'')
            else match m with
                 | Some ((_ :: _) as l'') => Some (assemble l'' N, c'')
                 | _ => None
                 end
        end
    end.

  (** _fermi_string.py l.216-271 ([_generate_from_sq]). *)
  Definition fermi_new (anti : bool) (c : K) (l : list (fop * nat)) (N : nat) : option (fstr * K) :=
    match l with
    | [] => Some (repeat None N, c)
    | _ => generate anti c l N
    end.

  (** _fermi_string.py l.188-205 ([__mul__] of two FermiStrings; l.193-197 collects the letters and
      positions of both).  [anti] is [self.fermi]. *)
  Definition fermi_mul (anti : bool) (x y : fstr * K) : option (fstr * K) :=
    fermi_new anti (snd x * snd y) (flat 0 (fst x) ++ flat 0 (fst y))
      (Nat.max (length (fst x)) (length (fst y))).

  (** _fermi_string.py l.9-18, l.50-59 ([conj_transpose], [H]). *)
  Definition conj_letters (l : list (fop * nat)) : list (fop * nat) :=
    map (fun e => (fadj (fst e), snd e)) l.
  Definition fermi_H (x : fstr * K) : option (fstr * K) :=
    fermi_new true (cconj (snd x)) (rev (conj_letters (flat 0 (fst x)))) (length (fst x)).

  (** _qubit_string.py l.71-115: the same loops without sign, and no test for an empty list: with no
      operators [inds[0]] raises IndexError unless the coefficient is 0. *)
  Definition qubit_new (c : K) (l : list (fop * nat)) (N : nat) : option (fstr * K) :=
    generate false c l N.

  (** _qubit_string.py l.56-69. *)
  Definition qubit_mul (x y : fstr * K) : option (fstr * K) :=
    qubit_new (snd x * snd y) (flat 0 (fst x) ++ flat 0 (fst y))
      (Nat.max (length (fst x)) (length (fst y))).

  (** _fermi_string.py l.93-97 ([__eq__], [__ne__]). *)
  Definition fop_eqb (a b : option fop) : bool :=
    match a, b with
    | None, None | Some Cre, Some Cre | Some Ann, Some Ann | Some Par, Some Par
    | Some Hol, Some Hol => true
    | _, _ => false
    end.
  Fixpoint fstr_eqb (a b : fstr) : bool :=
    match a, b with
    | [], [] => true
    | x :: a', y :: b' => fop_eqb x y && fstr_eqb a' b'
    | _, _ => false
    end.
  Definition fermi_eq (x y : fstr * K) : bool := fstr_eqb (fst y) (fst x).
  Definition fermi_ne (x y : fstr * K) : bool := fstr_eqb (fst y) (fst x) && ceqb (snd y) (snd x).
End Fermi.
Arguments sort_loop {_}. Arguments generate {_}. Arguments fermi_new {_}. Arguments fermi_mul {_}.
Arguments fermi_H {_}. Arguments qubit_new {_}. Arguments qubit_mul {_}.
Arguments fermi_eq {_}. Arguments fermi_ne {_}.
