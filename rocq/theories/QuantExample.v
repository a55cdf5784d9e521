(** Three modes and two particles: examples for the quantum residual. *)
From Coq Require Import Bool List Arith Reals Lra Lia Ring.
From Verif Require Import Coeff MatSpec MatLemmas OpSpec CircuitSpec CircuitModel CircuitProofs2 FockSpec RdmSpec RdmFock HamModel HamSpec HamProofs HamProofs3 ResSpec ResModel
  ComplexR QuantModel QuantSpec QuantProofs QuantProofs2 QuantProofs3 QuantProofs4.
Import ListNotations.
Local Open Scope R_scope.
Add Ring CxRing3 : (c_ring Cx).

Ltac sym := cbv -[cadd cmul csub copp c0 c1 ci chalf cconj Cx Rplus Rmult Ropp Rminus Rinv Rdiv IZR].
(** The CNOT gate makes 3 |110> + b |101> from 3 |100> + b |111>. *)
Definition circ_ex : list (gate Cx) := [Gcx 0 1].
Definition phi_ex (b : Cx) : bits -> Cx := two_vec Cx (3, 0) b [true; false; false] [true; true; true].
Definition st_ex (b : Cx) : bits -> Cx := two_vec Cx (3, 0) b [true; true; false] [true; false; true].
Lemma prepared b r : length r = 3%nat -> mvec 3 (cmat Crt 3 circ_ex) (phi_ex b) r = st_ex b r.
Proof.
  intro L. transitivity (mvec 3 (gmat Crt 3 (Gcx 0 1)) (phi_ex b) r); [apply mvec_meq; [apply mmul_one_l|exact L]|].
  do 4 (destruct r as [|? r]; try discriminate L). destruct b0, b1, b2; sym; apply C_eq; cbn; ring.
Qed.
(** Z on the middle qubit is 1 - 2 n_1. *)
Definition H_ex : list (list pauli * Cx) := [([PI; PZ; PI], c1)].
Definition h_ex : nat -> nat -> Cx := fun p q => if andb (Nat.eqb p 1) (Nat.eqb q 1) then ((-2, 0) : Cx) else c0.
Definition V_ex : nat -> nat -> nat -> nat -> Cx := fun _ _ _ _ => c0.
Definition w_ex : Cx := ((/ 4, 0) : Cx).
Lemma upto_zero n (f : nat -> Cx) : (forall i, f i = c0) -> upto n f = c0.
Proof.
  intro H. rewrite (upto_ext Cx n f (fun _ => cmul c0 c0)); [|intros; rewrite H; ring]. rewrite upto_scal. ring.
Qed.
Lemma ham_ex x y : length x = 3%nat -> length y = 3%nat ->
  omat H_ex x y = cadd (ham 3 (fun p q => h_ex q p) (fun p t q s => V_ex q s p t) x y) (cmul c1 (mone x y)).
Proof.
  intros Lx Ly. unfold ham. rewrite (upto_zero 3 (fun p => upto 3 (fun r => upto 3 (fun q => upto 3 (fun s => _))))).
  2: { intro p. apply upto_zero. intro r. apply upto_zero. intro q. apply upto_zero. intro s. unfold V_ex. ring. }
  rewrite (upto_ext Cx 3 _ (fun p => upto 3 (fun q => cmul (h_ex q p) (@fock_mat Cx [(Cre, p); (Ann, q)] x y)))).
  2: { intros p _. apply upto_ext. intros q _. f_equal. exact (word2 Cx 3 (Cre, p) (Ann, q) x y Lx Ly). }
  do 4 (destruct x as [|? x]; try discriminate Lx). do 4 (destruct y as [|? y]; try discriminate Ly).
  destruct b, b0, b1, b2, b3, b4; sym; apply C_eq; cbn; ring.
Qed.
Lemma sym_ex : real_symmetric (build_K2 3 w_ex h_ex V_ex).
Proof.
  apply K2_symmetric.
  - apply C_eq; cbn; ring.
  - intros p q. unfold h_ex. destruct (andb _ _); apply C_eq; cbn; ring.
  - intros p q. unfold h_ex. now rewrite andb_comm.
  - intros. unfold V_ex. apply C_eq; cbn; ring.
  - reflexivity.
  - reflexivity.
Qed.
Lemma w_ex_ok : cmul (cmul (cadd (cadd (cadd c1 c1) c1) c1) w_ex) (ofnat (2 - 1)) = (c1 : Cx).
Proof. apply C_eq; cbn; field. Qed.
Lemma two_expect (A : mat Cx) b : expect 3 A (mvec 3 (cmat Crt 3 circ_ex) (phi_ex b)) =
  expect 3 A (st_ex b).
Proof. apply expect_state_ext. intros r L. apply prepared, L. Qed.
Lemma particles_ex b : has_particles 3 2 (mvec 3 (cmat Crt 3 circ_ex) (phi_ex b)).
Proof.
  intros x L P. rewrite prepared by exact L. do 4 (destruct x as [|? x]; try discriminate L).
  destruct b0, b1, b2; try (contradiction P; reflexivity); sym; apply C_eq; cbn; ring.
Qed.
Lemma rdm_ex b : rdm_of 3 (mvec 3 (cmat Crt 3 circ_ex) (phi_ex b)) [0; 1]%nat [0; 2]%nat = (3 * fst b, 3 * snd b).
Proof.
  unfold rdm_of. rewrite two_expect. unfold st_ex. rewrite expect_two by reflexivity. destruct b as [u v]. sym; apply C_eq; cbn; ring.
Qed.
Lemma value_ex b : fst (re_expect 3 (comm 3 (fock_mat (rdm_letters [0; 1]%nat [0; 2]%nat)) (omat H_ex)) (mvec 3 (cmat Crt 3 circ_ex) (phi_ex b))) = 6 * fst b.
Proof.
  rewrite re_expect_fst. cbn [fst]. rewrite two_expect. unfold st_ex. rewrite expect_two by reflexivity. destruct b as [u v].
  match goal with |- fst ?x = _ => replace x with (((6 * u, 6 * v) : Cx)); [reflexivity|] end. sym; apply C_eq; cbn; ring.
Qed.
