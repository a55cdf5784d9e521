(** Model of [FermionicHamiltonian._build_projected_K2] (hqca/hamiltonian/fermionic.py l.116-139): the reduced Hamiltonian
    without the terms that the transform annihilates or whose coefficient is below the threshold.  The arrays hold at least
    the indices 0..r-1 (a smaller array raises in [_build_operator] already). *)
From Coq Require Import Bool List Arith.
From Verif Require Import Coeff FockSpec FermiModel OperatorModel HamModel OrderModel.
Import ListNotations.
Local Open Scope coef_scope.

Section Proj.
  Variable K : CoefRing.
  Notation tensor4 := (nat -> nat -> nat -> nat -> K).
  (** l.126-138: the statements for the indices of one string.  [w] is 1/(4*(Ne_tot-1)). *)
  Definition proj_entries (r : nat) (w : K) (h : nat -> nat -> K) (V : tensor4) (inds : list nat) : list ((nat * nat * nat * nat) * K) :=
    match inds with
    | [i; j] => flat_map (fun k => [((i, k, j, k), h i j * w); ((k, i, k, j), h i j * w); ((k, i, j, k), - (h i j * w)); ((i, k, k, j), - (h i j * w))]) (seq 0 r)
    | [i; k; l; j] => [((i, k, j, l), chalf * V i k j l); ((k, i, j, l), chalf * V k i j l); ((k, i, l, j), chalf * V k i l j); ((i, k, l, j), chalf * V i k l j)]
    | _ => []
    end.
  (** l.120-138: the loop over the strings of the operator.  [discard] is the test of l.122: the transform of the string is
      null, or its coefficient is below the threshold.  [None]: [order_as_D_matrix] does not return. *)
  Fixpoint project (fuel r : nat) (w : K) (h : nat -> nat -> K) (V : tensor4) (discard : fstr * K -> bool) (F : list (fstr * K)) (t : tensor4) : option tensor4 :=
    match F with
    | [] => Some t
    | f :: F' =>
        if discard f then project fuel r w h V discard F' t
        else match order_as_D_matrix fuel f with
             | Some ((_, l) :: _) => project fuel r w h V discard F' (apply_all (proj_entries r w h V (map snd l)) t)
             | _ => None
             end
    end.
  (** l.116-139 without the contraction to a matrix; [_build_operator] is [fermi_operator]. *)
  Definition build_projected_K2 (fuel : nat) (tiny : K -> bool) (d No_as No_core No_tot : nat) (w : K) (h : nat -> nat -> K) (V : tensor4) (discard : fstr * K -> bool) : option tensor4 :=
    match fermi_operator tiny d No_as No_core No_tot h V with
    | None => None
    | Some F => project fuel (2 * No_as) w h V discard F (fun _ _ _ _ => 0)
    end.
End Proj.
Arguments proj_entries {_}. Arguments project {_}. Arguments build_projected_K2 {_}.
