(** C173 (the squares of a Cholesky decomposition), C174 (the operators of the decomposition and the Hamiltonian). *)
From Coq Require Import Bool List Arith ZArith Lia.
From Verif Require Import Coeff Sqrt2 MatSpec MatLemmas FockSpec PauliModel OperatorModel FermiModel InvSpec HamModel HamSpec CholOpSpec CholOpModel CholOpProofs.
Import ListNotations.
Local Open Scope nat_scope.

(** C173: for all eigenvalues the operator is half the square of the weighted number of electrons, the eigenvalues below the threshold being 0. *)
Theorem C173_square_partial : forall (K : CoefRing) (tiny6 : K -> bool) (n : nat) (lam : nat -> K),
  exists F, chol_Nf tiny6 n lam = Some F /\
    meq (2 * n) (fmat F) (diag (fun x => cmul chalf (cmul (weight n (fun i => cut tiny6 (lam i)) x) (weight n (fun i => cut tiny6 (lam i)) x)))).
Proof. exact chol_Nf_matrix. Qed.
Print Assumptions C173_square_partial.

(** Two orbitals with eigenvalues 2 and -1; three electrons, two of them in orbital 0. *)
Example C173_case : match chol_Nf (fun x : GaussQ => ceqb x c0) 2 (fun i => if Nat.eqb i 0 then gz 2 else gz (-1)) with
  | Some F => length F = 10 /\ ceqb (fmat F [true; true; true; false] [true; true; true; false]) (gq 9 2) = true
  | None => False
  end.
Proof. vm_compute. split; reflexivity. Qed.

(** C174: the one-body operator that is built, without frozen orbitals: half of the one-electron integrals, and half of the Coulomb
    contraction for each spin. *)
Theorem C174_one_body_partial : forall (K : CoefRing) (tiny8 : K -> bool) (n : nat) (h : nat -> nat -> K) (V : nat -> nat -> nat -> nat -> K),
  exists F, chol_Hp tiny8 n 0 n h V = Some F /\
    meq (2 * n) (fmat F) (fun x y => cadd (cadd
      (upto (2 * n) (fun p => upto (2 * n) (fun q => cmul (cmul chalf (cut tiny8 (h p q))) (mmul (2 * n) (cre p) (ann q) x y))))
      (upto n (fun p => upto n (fun q => cmul (cmul chalf (upto (2 * n) (fun k => cut tiny8 (V p k q k)))) (mmul (2 * n) (cre p) (ann q) x y)))))
      (upto n (fun p => upto n (fun q => cmul (cmul chalf (upto (2 * n) (fun k => V (p + n) k (q + n) k))) (mmul (2 * n) (cre (p + n)) (ann (q + n)) x y))))).
Proof. exact chol_Hp_matrix. Qed.
Print Assumptions C174_one_body_partial.

(** The one-body operator and the square do not add up to the Hamiltonian: one orbital, one-electron integral 1, two-electron integral 1 (whose
    Cholesky vector has the eigenvalue 1 and needs no rotation). *)
Definition ex_h174 : nat -> nat -> GaussQ := fun p q => if Nat.eqb p q then c1 else c0.
Definition ex_V174 : nat -> nat -> nat -> nat -> GaussQ := fun p r q s => if Nat.eqb p q && Nat.eqb r s then c1 else c0.
Theorem C174_decomposition_refuted : exists (h : nat -> nat -> GaussQ) (V : nat -> nat -> nat -> nat -> GaussQ) (lam : nat -> GaussQ) F1 F2,
  (forall p r q s, V p r q s = if Nat.eqb p q && Nat.eqb r s then cmul (lam 0) (lam 0) else c0) /\
  chol_Hp (fun x => ceqb x c0) 1 0 1 h V = Some F1 /\ chol_Nf (fun x => ceqb x c0) 1 lam = Some F2 /\
  exists x y, length x = 2 /\ length y = 2 /\ cadd (fmat F1 x y) (fmat F2 x y) <> ham 2 h V x y.
Proof.
  exists ex_h174, ex_V174, (fun _ => c1).
  assert (G : match chol_Hp (fun x => ceqb x c0) 1 0 1 ex_h174 ex_V174, chol_Nf (fun x => ceqb x c0) 1 (fun _ => c1 : GaussQ) with
    | Some F1, Some F2 => ceqb (cadd (fmat F1 [true; false] [true; false]) (fmat F2 [true; false] [true; false])) (ham 2 ex_h174 ex_V174 [true; false] [true; false])
    | _, _ => true end = false) by (vm_compute; reflexivity).
  destruct (chol_Hp (fun x => ceqb x c0) 1 0 1 ex_h174 ex_V174) as [F1|]; [|discriminate G].
  destruct (chol_Nf (fun x => ceqb x c0) 1 (fun _ => c1 : GaussQ)) as [F2|]; [|discriminate G].
  exists F1, F2. split; [|split; [reflexivity|split; [reflexivity|]]].
  - intros p r q s. unfold ex_V174. destruct (Nat.eqb p q && Nat.eqb r s); [|reflexivity]. apply (ceqb_spec GaussQ). vm_compute. reflexivity.
  - exists [true; false], [true; false]. split; [reflexivity|]. split; [reflexivity|]. intro E. apply (ceqb_spec GaussQ) in E. rewrite E in G. discriminate G.
Qed.
Print Assumptions C174_decomposition_refuted.
