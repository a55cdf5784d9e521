(** Specification vocabulary for Hamiltonians and spin operators.  Nothing here comes from the code. *)
From Coq Require Import Bool List Arith.
From Verif Require Import Coeff MatSpec FockSpec.
Import ListNotations.
Section HamSpec.
  Variable K : CoefRing.
  Local Open Scope coef_scope.
  (** Sum over a list. *)
  Definition over {A} (l : list A) (f : A -> K) : K := fold_right (fun x s => f x + s) 0 l.
  (** Sum over 0..R-1. *)
  Definition upto (R : nat) (f : nat -> K) : K := over (seq 0 R) f.
  (** a+_p and a_p. *)
  Definition cre (p : nat) : mat K := fock_mat [(Cre, p)].
  Definition ann (p : nat) : mat K := fock_mat [(Ann, p)].
  (** The second-quantised Hamiltonian: sum h_pq a+_p a_q + 1/2 sum V_prqs a+_p a+_r a_s a_q. *)
  Definition ham (R : nat) (h : nat -> nat -> K) (V : nat -> nat -> nat -> nat -> K) : mat K := fun x y =>
    upto R (fun p => upto R (fun q => h p q * mmul R (cre p) (ann q) x y)) +
    chalf * upto R (fun p => upto R (fun r => upto R (fun q => upto R (fun s =>
      V p r q s * mmul R (cre p) (mmul R (cre r) (mmul R (ann s) (ann q))) x y)))).
  (** Number of occupied modes among those listed (with multiplicity). *)
  Definition occupied (l : list nat) (x : bits) : nat := length (filter (fun i => nth i x false) l).
  Fixpoint of_nat (n : nat) : K := match n with O => 0 | S m => 1 + of_nat m end.
  Definition diag (f : bits -> K) : mat K := fun r c => if bits_eqb r c then f c else 0.
  (** Spin raising and lowering for a list of pairs (spin up mode, spin down mode), the cartesian components,
      and the total spin. *)
  Definition S_plus (N : nat) (l : list (nat * nat)) : mat K := fun x y => over l (fun p => mmul N (cre (fst p)) (ann (snd p)) x y).
  Definition S_minus (N : nat) (l : list (nat * nat)) : mat K := fun x y => over l (fun p => mmul N (cre (snd p)) (ann (fst p)) x y).
  Definition S_x (N : nat) l : mat K := mscal chalf (madd (S_plus N l) (S_minus N l)).
  Definition S_y (N : nat) l : mat K := mscal (- (chalf * ci)) (madd (S_plus N l) (mscal (- (1)) (S_minus N l))).
  Definition S_z (l : list (nat * nat)) : mat K :=
    diag (fun x => chalf * (of_nat (occupied (map fst l) x) - of_nat (occupied (map snd l) x))).
  Definition S_squared (N : nat) l : mat K :=
    madd (mmul N (S_x N l) (S_x N l)) (madd (mmul N (S_y N l) (S_y N l)) (mmul N (S_z l) (S_z l))).
  (** Integrals with the negligible ones replaced by 0. *)
  Definition cut (tiny : K -> bool) (x : K) : K := if tiny x then 0 else x.
End HamSpec.
(** Spin orbitals of a calculation with No_tot spatial orbitals, spin up first: doubly occupied core, active
    (numbered 0..2 No_as - 1), empty. *)
Definition core_mode (No_core No_tot p : nat) : Prop := p < No_core \/ No_tot <= p < No_tot + No_core.
Definition active_mode (No_as No_core No_tot i : nat) : nat := if i <? No_as then i + No_core else i - No_as + No_core + No_tot.
Definition empty_mode (No_as No_core No_tot p : nat) : Prop :=
  No_core + No_as <= p < No_tot \/ No_core + No_as + No_tot <= p < 2 * No_tot.
(** The (up, down) modes of a list of spatial orbitals. *)
Definition pairs (spatial alpha beta : list nat) : list (nat * nat) := map (fun s => (nth s alpha 0, nth s beta 0)) spatial.
Arguments cut {_}.
Arguments over {_ _}. Arguments upto {_}. Arguments cre {_}. Arguments ann {_}. Arguments ham {_}. Arguments of_nat {_}. Arguments diag {_}.
Arguments S_plus {_}. Arguments S_minus {_}. Arguments S_x {_}. Arguments S_y {_}. Arguments S_z {_}. Arguments S_squared {_}.
