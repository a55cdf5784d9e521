(** Specification vocabulary for particle-qubit operators.  Nothing here comes from the code. *)
From Coq Require Import Bool List Arith.
From Verif Require Import Coeff MatSpec FockSpec OpSpec RdmSpec CircuitSpec HamSpec.
Import ListNotations.
Section QRdmSpec.
  Variable K : CoefRing.
  Local Open Scope coef_scope.
  (** sigma+_p and sigma-_p: |1><0| and |0><1| on qubit p, the identity elsewhere. *)
  Definition splus (p : nat) : mat K := qubits_mat [(Cre, p)].
  Definition sminus (p : nat) : mat K := qubits_mat [(Ann, p)].
  (** sigma+_c1 .. sigma+_cp sigma-_ap .. sigma-_a1, as a product of matrices on R qubits. *)
  Definition sproduct (R : nat) (l : list (mat K)) : mat K := fold_right (mmul R) mone l.
  (** The particle-qubit RDM element of a state on R qubits. *)
  Definition qrdm_of (R : nat) (psi : bits -> K) (c a : list nat) : K :=
    expect R (sproduct R (map splus c ++ map sminus (rev a))) psi.
  (** Matrix of a formal sum of qubit strings. *)
  Definition qop_mat (o : list (fstr * K)) : mat K :=
    fun r c => sumK (map (fun e => snd e * qstr_mat (fst e) r c) o).
  (** sum h_pq s+_p s-_q + 1/2 sum V_prqs s+_p s+_r s-_s s-_q. *)
  Definition particle_ham (R : nat) (h : nat -> nat -> K) (V : nat -> nat -> nat -> nat -> K) : mat K := fun x y =>
    upto R (fun p => upto R (fun q => h p q * mmul R (splus p) (sminus q) x y)) +
    chalf * upto R (fun p => upto R (fun r => upto R (fun q => upto R (fun s =>
      V p r q s * mmul R (splus p) (mmul R (splus r) (mmul R (sminus s) (sminus q))) x y)))).
End QRdmSpec.
Arguments splus {_}. Arguments sminus {_}. Arguments sproduct {_}. Arguments qrdm_of {_}. Arguments qop_mat {_}. Arguments particle_ham {_}.
