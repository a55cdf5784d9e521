(** Model of the operators built from a Cholesky decomposition of the integrals (hqca/hamiltonian/molecular.py):
    [build_cholesky_operator_Hp] l.461-500 and the second half of [build_cholesky_operator_Vp] l.554-584, before the transform.  The
    rotations of l.502-553 are in GivModel.  The arrays hold at least the active indices.
    As pinned both methods raise after this, at [clean(1e-8)] (l.499, l.586, l.588): [clean] takes no argument. *)
From Coq Require Import Bool List Arith.
From Verif Require Import Coeff FockSpec FermiModel OperatorModel HamModel.
Import ListNotations.
Local Open Scope coef_scope.

Section CholOp.
  Variable K : CoefRing.
  Notation word := (list (fop * nat)).
  (** l.470-475: one string; ops '+-'. *)
  Definition hop (x : K) (i j : nat) : K * word := (chalf * x, [(Cre, i); (Ann, j)]).
  (** l.466-478; [tiny8 x] is [abs(x)<1e-8]. *)
  Definition hp_alpha (tiny8 : K -> bool) (V : nat -> nat -> nat -> nat -> K) (alp bet : list nat) : list (K * word) :=
    flat_map (fun i => flat_map (fun j => flat_map (fun k => if tiny8 (V i k j k) then [] else [hop (V i k j k) i j]) (alp ++ bet)) alp) alp.
  (** l.479-487: no threshold. *)
  Definition hp_beta (V : nat -> nat -> nat -> nat -> K) (alp bet : list nat) : list (K * word) :=
    flat_map (fun i => flat_map (fun j => map (fun k => hop (V i k j k) i j) (alp ++ bet)) bet) bet.
  (** l.488-497. *)
  Definition hp_core (tiny8 : K -> bool) (h : nat -> nat -> K) (orbs : list nat) : list (K * word) :=
    flat_map (fun i => flat_map (fun j => if tiny8 (h i j) then [] else [hop (h i j) i j]) orbs) orbs.
  (** l.461-497. *)
  Definition chol_Hp (tiny8 : K -> bool) (No_as No_core No_tot : nat) (h : nat -> nat -> K) (V : nat -> nat -> nat -> nat -> K) : option (list (fstr * K)) :=
    let alp := alpha_active No_as No_core in let bet := beta_active No_as No_core No_tot in
    add_strings (2 * length alp) (hp_alpha tiny8 V alp bet ++ hp_beta V alp bet ++ hp_core tiny8 h (alp ++ bet)) [].
  (** l.560-584: the four strings for the eigenvalues i and j; ops '+-+-'. *)
  Definition nn (x : K) (i j : nat) : K * word := (x, [(Cre, i); (Ann, i); (Cre, j); (Ann, j)]).
  Definition nf_terms (n : nat) (lam : nat -> K) (i j : nat) : list (K * word) :=
    [nn (lam i * lam j * chalf) i j; nn (lam i * lam j * chalf) (i + n) j; nn (lam i * lam j * chalf) i (j + n); nn (lam i * lam j * chalf) (i + n) (j + n)].
  (** l.554-584; [tiny6 x] is [abs(x)<1e-6], [lam] the eigenvalues of a Cholesky vector. *)
  Definition chol_Nf (tiny6 : K -> bool) (n : nat) (lam : nat -> K) : option (list (fstr * K)) :=
    add_strings (2 * n)
      (flat_map (fun i => if tiny6 (lam i) then [] else flat_map (fun j => if tiny6 (lam j) then [] else nf_terms n lam i j) (seq 0 n)) (seq 0 n)) [].
End CholOp.
Arguments hop {_}. Arguments hp_alpha {_}. Arguments hp_beta {_}. Arguments hp_core {_}. Arguments chol_Hp {_}.
Arguments nn {_}. Arguments nf_terms {_}. Arguments chol_Nf {_}.
