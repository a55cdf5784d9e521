(** When no coefficient cancels while the Jordan-Wigner images of the strings of an operator are added up. *)
From Coq Require Import Bool List Arith.
From Verif Require Import Coeff MatSpec FockSpec OpSpec PauliModel TransformModel InvSpec VqeSpec ConsSpec ShapeSpec.
Import ListNotations.

(** The coefficient of a string in a list of strings. *)
Definition coefficient {K : CoefRing} (s : list pauli) (l : list (list pauli * K)) : K :=
  fold_right (fun e t => if pauli_list_eqb s (fst e) then cadd (snd e) t else t) c0 l.
(** After every prefix, every string with an odd number of Y that has appeared has a coefficient above the cutoff. *)
Definition no_cancel {K : CoefRing} (o : list (fstr * K)) : Prop := forall o1 o2 s, o = o1 ++ o2 -> odd_y s = true ->
  (exists e, In e o1 /\ In s (map fst (jw_string e))) -> small (coefficient s (flat_map jw_string o1)) = false.
(** After every prefix, every coefficient below the cutoff is zero. *)
Definition exact_sums {K : CoefRing} (o : list (fstr * K)) : Prop := forall o1 o2 s, o = o1 ++ o2 ->
  small (coefficient s (flat_map jw_string o1)) = true -> coefficient s (flat_map jw_string o1) = c0.
(** Every coefficient, halved once for every letter of its string, is above the cutoff. *)
Definition above_cutoff {K : CoefRing} (o : list (fstr * K)) : Prop := forall e, In e o ->
  small (cmul (cpow chalf (length (flat 0 (fst e)))) (snd e)) = false.
(** A real anti-Hermitian operator of N modes that conserves the number of particles in the modes P. *)
Definition generator {K : CoefRing} (N : nat) (P : nat -> bool) (o : list (fstr * K)) : Prop :=
  (forall e, In e o -> length (fst e) = N /\ cconj (snd e) = snd e) /\
  (forall r c, length r = N -> length c = N -> cconj (fmat o c r) = copp (fmat o r c)) /\
  conserves N (count_in P) (fmat o).
(** No coefficient is lost and none cancels when the operator is transformed. *)
Definition regular {K : CoefRing} (o : list (fstr * K)) : Prop := above_cutoff o /\ no_cancel o /\ exact_sums o.
