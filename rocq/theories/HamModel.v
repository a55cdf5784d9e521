(** Model of the Hamiltonian classes (hqca/hamiltonian/fermionic.py, hqca/hamiltonian/molecular.py) and of
    hqca/tools/_fermionic_operators.py.

    Integrals are functions of the indices; [d] is the size of the arrays (an index outside raises).  [tiny x] is
    [abs(x)<=int_thresh].  The integral transformations, pyscf and the printing are not modelled. *)
From Coq Require Import Bool List Arith.
From Verif Require Import Coeff MatSpec FockSpec FermiModel OperatorModel PauliModel TransformModel InvModel.
Import ListNotations.
Local Open Scope coef_scope.

(** molecular.py l.205-216, fermionic.py l.201-212: [alpha_mo] and [beta_mo]. *)
Definition alpha_active (No_as No_core : nat) : list nat := map (fun i => i + No_core)%nat (seq 0 No_as).
Definition beta_active (No_as No_core No_tot : nat) : list nat := map (fun i => i + No_core + No_tot)%nat (seq 0 No_as).
Definition alpha_inactive (No_core : nat) : list nat := seq 0 No_core.
Definition beta_inactive (No_core No_tot : nat) : list nat := map (fun i => i + No_tot)%nat (seq 0 No_core).

(** A dictionary of ints, newest assignment first. *)
Fixpoint dget (k : nat) (d : list (nat * nat)) : option nat :=
  match d with
  | [] => None
  | (k', v) :: d' => if Nat.eqb k k' then Some v else dget k d'
  end.
(** fermionic.py l.256-259: [o2q]. *)
Definition o2q (No_as No_core No_tot : nat) : list (nat * nat) :=
  fold_left (fun d i => (i + No_core + No_tot, i + No_as) :: (i + No_core, i) :: d)%nat (seq 0 No_as) [].

Section Ham.
  Variable K : CoefRing.
  Notation fop_ := (list (fstr * K)).
  Notation word := (list (fop * nat)).
  Variable tiny : K -> bool.

  (** [op += FermiString(N=N, coeff=c, indices=.., ops=..)] for the entries of a list, in order. *)
  Fixpoint add_strings (N : nat) (l : list (K * word)) (o : fop_) : option fop_ :=
    match l with
    | [] => Some o
    | (c, w) :: l' =>
        match fermi_new true c w N with
        | None => None
        | Some e => add_strings N l' (op_add_string fstr_eqb o e)
        end
    end.

  (** fermionic.py l.264-276: the body of the two loops over one-electron terms. *)
  Definition term1 (d No_as No_core No_tot : nat) (h : nat -> nat -> K) (pq : nat * nat) : option (list (K * word)) :=
    let '(p, q) := pq in
    match dget p (o2q No_as No_core No_tot), dget q (o2q No_as No_core No_tot) with
    | Some P, Some Q =>
        if (p <? d) && (q <? d) then
          Some (if tiny (h p q) then [] else [(h p q, [(Cre, P); (Ann, Q)])])
        else None
    | _, _ => None
    end.
  Definition b2n (b : bool) : nat := if b then 1 else 0.
  (** l.283-313: the body of the four loops over two-electron terms. *)
  Definition term2 (d No_as No_core No_tot : nat) (V : nat -> nat -> nat -> nat -> K) (x : nat * (nat * (nat * nat)))
      : option (list (K * word)) :=
    let '(p, (r, (s, q))) := x in
    match dget p (o2q No_as No_core No_tot), dget r (o2q No_as No_core No_tot) with
    | Some P, Some R =>
        if Nat.eqb p r then Some []
        else match dget s (o2q No_as No_core No_tot) with
        | Some S' =>
            let i1 := b2n (Nat.eqb p r) in let i2 := b2n (Nat.eqb s p) in let i3 := b2n (Nat.eqb s r) in
            if Nat.eqb (i1 + i2 + i3) 3 then Some []
            else match dget q (o2q No_as No_core No_tot) with
            | Some Q =>
                let i4 := b2n (Nat.eqb q p) in let i5 := b2n (Nat.eqb q r) in let i6 := b2n (Nat.eqb q s) in
                if Nat.leb 3 (i1 + i2 + i3 + i4 + i5 + i6) then Some []
                else if Nat.eqb q s then Some []
                else if (p <? d) && (r <? d) && (q <? d) && (s <? d) then
                  Some (if tiny (V p r q s) then [] else [(chalf * V p r q s, [(Cre, P); (Cre, R); (Ann, S'); (Ann, Q)])])
                else None
            | None => None
            end
        | None => None
        end
    | _, _ => None
    end.
  (** l.260-317, the fermionic operator ([ferOp]). *)
  Definition fermi_operator (d No_as No_core No_tot : nat) (h : nat -> nat -> K) (V : nat -> nat -> nat -> nat -> K) : option fop_ :=
    let orbs := alpha_active No_as No_core ++ beta_active No_as No_core No_tot in
    match all_some (map (term1 d No_as No_core No_tot h) (list_prod orbs orbs)),
          all_some (map (term2 d No_as No_core No_tot V) (list_prod orbs (list_prod orbs (list_prod orbs orbs)))) with
    | Some t1, Some t2 => add_strings (length orbs) (concat t1 ++ concat t2) []
    | _, _ => None
    end.
  (** l.322-327: the qubit operator, with the Jordan-Wigner transform. *)
  Definition qubit_operator (f : fop_) : list (list pauli * K) :=
    fold_left (op_add_string pauli_list_eqb) (jw_operator f) [].

  (** ** The reduced Hamiltonian K2 *)
  Notation tensor4 := (nat -> nat -> nat -> nat -> K).
  (** [t[a,b,c,d] += v]. *)
  Definition upd4 (u : (nat * nat * nat * nat) * K) (t : tensor4) : tensor4 :=
    let '(a, b, c, d, v) := u in
    fun i j k l => if Nat.eqb i a && Nat.eqb j b && Nat.eqb k c && Nat.eqb l d then t i j k l + v else t i j k l.
  (** The four statements of fermionic.py l.147-150 (molecular.py l.176-179). *)
  Definition one_body (x : K) (i j k : nat) : list ((nat * nat * nat * nat) * K) :=
    [((i, k, j, k), x); ((k, i, k, j), x); ((i, k, k, j), - x); ((k, i, j, k), - x)].
  Definition apply_all (us : list ((nat * nat * nat * nat) * K)) (t : tensor4) : tensor4 :=
    fold_left (fun t u => upd4 u t) us t.
  (** fermionic.py l.142-150, molecular.py l.185-195.  [w] is 1/(4*(Ne_tot-1)). *)
  Definition build_K2 (r : nat) (w : K) (h : nat -> nat -> K) (V : tensor4) : tensor4 :=
    apply_all (flat_map (fun i => flat_map (fun j => flat_map (fun k => one_body (h i j * w) i j k) (seq 0 r)) (seq 0 r)) (seq 0 r))
      (fun a b c d => V a b c d * chalf).
  (** molecular.py l.160-184, with an active space.  [w] is 1/(4*(Ne_as-1)). *)
  Definition core_1e (core : list nat) (h : nat -> nat -> K) (V : tensor4) (I J : nat) : K :=
    fold_left (fun x c => x + V I c J c + - V I c c J) core (0 + h I J).
  Definition build_K2_active (No_as No_core No_tot : nat) (w : K) (h : nat -> nat -> K) (V : tensor4) : tensor4 :=
    let active := alpha_active No_as No_core ++ beta_active No_as No_core No_tot in
    let core := alpha_inactive No_core ++ beta_inactive No_core No_tot in
    let r := (2 * No_as)%nat in
    let at_ i := nth i active 0%nat in
    apply_all (flat_map (fun i => flat_map (fun j => flat_map (fun k =>
        one_body (core_1e core h V (at_ i) (at_ j) * w) i j k ++
        map (fun l => ((i, k, j, l), chalf * V (at_ i) (at_ k) (at_ j) (at_ l))) (seq 0 r))
        (seq 0 r)) (seq 0 r)) (seq 0 r))
      (fun _ _ _ _ => 0).
  (** molecular.py l.200-207: [E_core]. *)
  Definition core_energy (No_core No_tot : nat) (h : nat -> nat -> K) (V : tensor4) : K :=
    let core := alpha_inactive No_core ++ beta_inactive No_core No_tot in
    fold_left (fun x i => fold_left (fun x j => x + chalf * V i j i j + - (chalf * V i j j i)) core (x + h i i)) core 0.
  (** tools/rdm/_spin_rdm.py l.333-337: [np.dot(H,rdm).trace()] of the contracted tensors. *)
  Definition observable (r : nat) (H D : tensor4) : K :=
    fold_right cadd 0 (flat_map (fun i => flat_map (fun k => flat_map (fun j => map (fun l => H i k j l * D j l i k) (seq 0 r)) (seq 0 r)) (seq 0 r)) (seq 0 r)).

  (** ** tools/_fermionic_operators.py *)
  (** l.10-24. *)
  Definition spin_projected (alpha beta : list nat) (N : nat) : option fop_ :=
    add_strings N (map (fun a => (chalf, [(Cre, a); (Ann, a)])) alpha ++ map (fun b => (- chalf, [(Cre, b); (Ann, b)])) beta) [].
  (** l.26-42; [None] as first argument is the default. *)
  Definition number (orbitals : option (list nat)) (N : nat) : option fop_ :=
    add_strings N (map (fun i => (1, [(Cre, i); (Ann, i)])) (match orbitals with None => seq 0 N | Some l => l end)) [].
  (** [alpha[s]]: raises outside the list. *)
  Definition pairs_of (spatial alpha beta : list nat) : option (list (nat * nat)) :=
    all_some (map (fun s => match nth_error alpha s, nth_error beta s with Some a, Some b => Some (a, b) | _, _ => None end) spatial).
  Definition over_pairs (f : nat * nat -> list (K * word)) (spatial alpha beta : list nat) (N : nat) : option fop_ :=
    match pairs_of spatial alpha beta with
    | None => None
    | Some l => add_strings N (flat_map f l) []
    end.
  (** l.44-54. *)
  Definition spin_plus := over_pairs (fun ab => [(1, [(Cre, fst ab); (Ann, snd ab)])]).
  (** l.56-66. *)
  Definition spin_minus := over_pairs (fun ab => [(1, [(Cre, snd ab); (Ann, fst ab)])]).
  (** l.68-84. *)
  Definition partial_projected_spin :=
    over_pairs (fun ab => [(chalf, [(Cre, fst ab); (Ann, fst ab)]); (- chalf, [(Cre, snd ab); (Ann, snd ab)])]).
  (** l.86-90.  The last subtraction negates the strings of the local Operator Sz in place, which nothing reads
      afterwards; the value is that of [op_sub]. *)
  Definition total_spin_squared (spatial alpha beta : list nat) (N : nat) : option fop_ :=
    match partial_projected_spin spatial alpha beta N, spin_plus spatial alpha beta N, spin_minus spatial alpha beta N with
    | Some Sz, Some Sp, Some Sm =>
        match f_op_mul Sp Sm, f_op_mul Sz Sz with
        | Some A, Some B => Some (op_sub fstr_eqb (op_add fstr_eqb A B) Sz)
        | _, _ => None
        end
    | _, _, _ => None
    end.
End Ham.
Arguments add_strings {_}. Arguments term1 {_}. Arguments term2 {_}. Arguments fermi_operator {_}. Arguments qubit_operator {_}.
Arguments upd4 {_}. Arguments one_body {_}. Arguments apply_all {_}. Arguments build_K2 {_}. Arguments core_1e {_}.
Arguments build_K2_active {_}. Arguments core_energy {_}. Arguments observable {_}. Arguments spin_projected {_}. Arguments number {_}.
Arguments over_pairs {_}. Arguments spin_plus {_}. Arguments spin_minus {_}. Arguments partial_projected_spin {_}. Arguments total_spin_squared {_}.
