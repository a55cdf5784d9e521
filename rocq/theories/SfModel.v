(** Model of hqca/processes/_process_stabilizers.py: [_filter_diagonal_symmetries] (l.46-88), the parity checks (l.30-44,
    l.202-219) and [process] (l.222-225), with the Jordan-Wigner transform.

    A counts dictionary is the list of its items in order.  [same x m] is the test [round(x,5)==m] (l.81-82).
    The 'encoded' filter and [_measure_stabilizer_z_string] are in [ScModel].  Not modelled: printing, and the statevector branch of
    [__measure_z_string] (the filters call [counts.items()], which an array does not have). *)
From Coq Require Import Bool List Arith ZArith QArith.
From Verif Require Import Coeff MatSpec FockSpec PauliModel OperatorModel FermiModel TransformModel TomoModel HamModel.
Import ListNotations.
Local Open Scope nat_scope.

Definition counts := list (bits * Z).

Section Filter.
  Variable K : CoefRing.
  Local Open Scope coef_scope.
  Variable same : K -> Z -> bool.

  (** l.52-61: the sum over i < No of coeff * a_i^dagger a_i. *)
  Definition count_operator (No : nat) (coeff : nat -> K) : option (list (fstr * K)) :=
    add_strings No (map (fun i => (coeff i, [(Cre, i); (Ann, i)])) (seq 0 No)) [].
  (** l.57: [(-1)**(i//(No/2))] for i < No. *)
  Definition spin_phase (No_as i : nat) : K := if (i <? No_as)%nat then 1 else - (1).
  (** l.249-260 for a dictionary with one entry: [n*ph/n]; division by zero when n = 0. *)
  Definition measure_one (Nq : nat) (s : list pauli) (k : bits) (v : Z) : option Z :=
    match det_phase (Z.of_nat Nq) 0 s k 1 with
    | None => None
    | Some ph => if (v =? 0)%Z then None else Some ph
    end.
  Definition sign_of (ph : Z) : K := if (ph <? 0)%Z then - (1) else 1.
  (** l.67-72, l.73-78: [n += op.c*...] over the strings of the transformed operator. *)
  Fixpoint observed (Nq : nat) (k : bits) (v : Z) (o : list (list pauli * K)) (n : K) : option K :=
    match o with
    | [] => Some n
    | (s, c) :: o' =>
        match measure_one Nq s k v with
        | None => None
        | Some ph => observed Nq k v o' (n + c * sign_of ph)
        end
    end.
  (** l.64-84. *)
  Fixpoint filter_counts (Nq : nat) (N Sz : list (list pauli * K)) (Ne Ne_alp Ne_bet : nat) (l : counts) : option counts :=
    match l with
    | [] => Some []
    | (k, v) :: l' =>
        match observed Nq k v N 0, observed Nq k v Sz 0, filter_counts Nq N Sz Ne Ne_alp Ne_bet l' with
        | Some n, Some sz, Some new =>
            Some (if same n (Z.of_nat Ne) && same sz (Z.of_nat Ne_alp - Z.of_nat Ne_bet)%Z then (k, v) :: new else new)
        | _, _, _ => None
        end
    end.
  (** l.46-88. *)
  Definition filter_diagonal (Nq No_as Ne Ne_alp Ne_bet : nat) (original : list pauli) (l : counts) : option counts :=
    if pauli_list_eqb original (repeat PZ Nq) then
      let No := (No_as * 2)%nat in
      match count_operator No (fun _ => 1), count_operator No (spin_phase No_as) with
      | Some N, Some Sz => filter_counts Nq (jw_operator N) (jw_operator Sz) Ne Ne_alp Ne_bet l
      | _, _ => None
      end
    else Some l.
  (** l.222-225 with the diagonal filter. *)
  Definition process_diagonal (Nq No_as Ne Ne_alp Ne_bet : nat) (original s : list pauli) (l : counts) : option Q :=
    match filter_diagonal Nq No_as Ne Ne_alp Ne_bet original l with
    | None => None
    | Some new => measure_counts Nq s new
    end.
End Filter.
Arguments count_operator {_}. Arguments spin_phase {_}. Arguments sign_of {_}. Arguments observed {_}. Arguments filter_counts {_}.
Arguments filter_diagonal {_}. Arguments process_diagonal {_}.

(** [str(n%2)] as a bit. *)
Definition parity_bit (n : nat) : bool := Nat.odd n.
(** l.30-44. *)
Fixpoint keep_where (test : bits -> option bool) (l : counts) : option counts :=
  match l with
  | [] => Some []
  | (k, v) :: l' =>
      match test k, keep_where test l' with
      | Some b, Some new => Some (if b then (k, v) :: new else new)
      | _, _ => None
      end
  end.
Definition char_is (k : bits) (i : Z) (b : bool) : option bool :=
  match py_nth k i with None => None | Some x => Some (Bool.eqb x b) end.
Definition parity_check_simple (Nq Nq_anc Ne : nat) (l : counts) : option counts :=
  if Nat.eqb Nq_anc 1 then
    let Nq_tot := (Nq_anc + Nq)%nat in
    keep_where (fun k => char_is k (Z.of_nat Nq_tot - 1 - Z.of_nat Nq) (parity_bit Ne)) l
  else None.
(** l.202-219; [and] does not look at the second character when the first differs. *)
Definition parity_check_spin (Nq Nq_anc Ne_alp Ne_bet : nat) (l : counts) : option counts :=
  if Nat.eqb Nq_anc 2 then
    let Nq_tot := (Nq_anc + Nq)%nat in
    keep_where (fun k => match char_is k (Z.of_nat Nq_tot - Z.of_nat Nq - 1) (parity_bit Ne_alp) with
                         | Some true => char_is k (Z.of_nat Nq_tot - Z.of_nat Nq - 2) (parity_bit Ne_bet)
                         | r => r
                         end) l
  else None.
(** l.222-225 with the parity checks; the tomography passes [Nq=Nq_tot] (tomography/_tomography.py l.264-270). *)
Definition process_parity_simple (Nq Nq_anc Ne : nat) (s : list pauli) (l : counts) : option Q :=
  match parity_check_simple Nq Nq_anc Ne l with None => None | Some new => measure_counts (Nq_anc + Nq) s new end.
Definition process_parity_spin (Nq Nq_anc Ne_alp Ne_bet : nat) (s : list pauli) (l : counts) : option Q :=
  match parity_check_spin Nq Nq_anc Ne_alp Ne_bet l with None => None | Some new => measure_counts (Nq_anc + Nq) s new end.
