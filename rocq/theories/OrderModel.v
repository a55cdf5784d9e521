(** Model of FermiString.order_as_D_matrix (hqca/operators/quantum_strings/_fermi_string.py l.108-169). *)
From Coq Require Import Bool List Arith.
From Verif Require Import Coeff FockSpec FermiModel.
Import ListNotations.
Local Open Scope coef_scope.

Section Order.
  Variable K : CoefRing.
  (** l.118-128: the letters, 'p' as '+-' and 'h' as '-+'. *)
  Fixpoint expand (n : nat) (s : fstr) : list (fop * nat) :=
    match s with
    | [] => []
    | None :: s' => expand (S n) s'
    | Some Par :: s' => (Cre, n) :: (Ann, n) :: expand (S n) s'
    | Some Hol :: s' => (Ann, n) :: (Cre, n) :: expand (S n) s'
    | Some o :: s' => (o, n) :: expand (S n) s'
    end.
  (** l.137-140: the number of changes of letter. *)
  Fixpoint switches (l : list (fop * nat)) : nat :=
    match l with
    | a :: (b :: _) as l' => (if fop_eqb (Some (fst a)) (Some (fst b)) then 0 else 1) + switches l'
    | _ => 0
    end%nat.
  (** l.141: the exit test. *)
  Definition ordered (l : list (fop * nat)) : bool :=
    match l with
    | (Cre, _) :: _ => Nat.eqb (switches l) 1
    | _ => false
    end.
  (** l.146-147: the first '-' followed by '+': (before, index of '-', index of '+', after). *)
  Fixpoint first_swap (l : list (fop * nat)) : option (list (fop * nat) * nat * nat * list (fop * nat)) :=
    match l with
    | x :: l' =>
        match x, l' with
        | (Ann, i), (Cre, j) :: t => Some ([], i, j, t)
        | _, _ => match first_swap l' with
                  | Some (pre, i, j, post) => Some (x :: pre, i, j, post)
                  | None => None
                  end
        end
    | [] => None
    end.
  (** l.133-166: the while loop and the recursive calls; [None]: not finished within [fuel] rounds, or FermiString
      raises.  The list is what is appended to [temp] (l.167): (c, letters with their indices). *)
  Fixpoint order_loop (fuel N : nat) (c : K) (l : list (fop * nat)) : option (list (K * list (fop * nat))) :=
    match fuel with
    | O => None
    | S k =>
        if ordered l then Some [(c, l)]
        else match first_swap l with
             | None => order_loop k N c l
             | Some (pre, i, j, post) =>
                 if Nat.eqb i j then
                   match fermi_new true c (pre ++ post) N with
                   | None => None
                   | Some (s', c') =>
                       let l' := expand 0 s' in
                       match (match l' with [] => Some [(c', [])] | _ => order_loop k (length s') c' l' end),
                             order_loop k N (c * - (1) * - (1)) (pre ++ (Cre, i) :: (Ann, j) :: post) with
                       | Some r1, Some r2 => Some (r1 ++ r2)
                       | _, _ => None
                       end
                   end
                 else order_loop k N (c * - (1)) (pre ++ (Cre, j) :: (Ann, i) :: post)
             end
    end.
  (** l.113-132, 168-169. *)
  Definition order_as_D_matrix (fuel : nat) (x : fstr * K) : option (list (K * list (fop * nat))) :=
    match expand 0 (fst x) with
    | [] => Some [(snd x, [])]
    | l => order_loop fuel (length (fst x)) (snd x) l
    end.
End Order.
Arguments order_loop {_}. Arguments order_as_D_matrix {_}.
