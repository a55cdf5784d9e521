(** A concrete case of the bound: the determinant |1010> and the Hamiltonian -sum n_i. *)
From Coq Require Import Bool List Arith ZArith Reals Lra Lia.
From Verif Require Import Coeff ComplexR MatSpec MatLemmas FockSpec CircuitSpec TomoModel RdmSpec RdmProofs RdmFock HamModel HamSpec HamProofs HamProofs2 HamProofs3 TransformModel PlanModel PlanSpec PlanProofs2 PlanProofs3 PlanProofs4 PlanProofs5.
Import ListNotations.

Section Number.
  Variable K : CoefRing. Add Ring KRing : (c_ring K). Local Open Scope coef_scope.
  Definition minus_number (i j : nat) : K := if Nat.eqb i j then copp c1 else c0.
  Lemma number_value R Ne (psi : bits -> K) : has_particles R Ne psi -> norm2 R psi = 1 ->
    expect R (ham R minus_number (fun _ _ _ _ => 0)) psi = - ofnat Ne.
  Proof.
    intros H N1. rewrite expect_ham.
    transitivity (- upto R (fun p => rdm_of R psi [p] [p]) + chalf * 0).
    - f_equal.
      + transitivity ((- (1)) * upto R (fun p => rdm_of R psi [p] [p])); [|ring]. rewrite <- (upto_scal K). apply (upto_ext K). intros p Hp.
        rewrite <- (upto_delta K R p (fun q => - (1) * rdm_of R psi [p] [q]) Hp). apply (upto_ext K). intros q _.
        unfold minus_number, delta. destruct (Nat.eqb p q); ring.
      + f_equal. transitivity (upto R (fun _ : nat => (0 : K))); [|unfold upto; apply over_0].
        apply (upto_ext K). intros p _. transitivity (upto R (fun _ : nat => (0 : K))); [|unfold upto; apply over_0].
        apply (upto_ext K). intros r _. transitivity (upto R (fun _ : nat => (0 : K))); [|unfold upto; apply over_0].
        apply (upto_ext K). intros q _. transitivity (upto R (fun _ : nat => (0 : K))); [|unfold upto; apply over_0].
        apply (upto_ext K). intros s _. ring.
    - pose proof (rdm_contract K R Ne psi [] [] H) as C. cbn [app length] in C. rewrite Nat.sub_0_r in C.
      change (upto R (fun p => rdm_of R psi [p] [p])) with (lsum (seq 0 R) (fun x => rdm_of R psi [x] [x])). rewrite C.
      replace (rdm_of R psi [] []) with (1 : K); [ring|]. rewrite <- N1, <- (expect_mone K R psi). unfold rdm_of. apply expect_ext. intros x y _ _. unfold mone, fock_mat, pmap_mat. cbn [rdm_letters map rev app fock].
      rewrite ?(bits_eqb_sym y x). destruct (bits_eqb x y); reflexivity.
  Qed.
End Number.
Arguments minus_number {_}.

Lemma m0l (x : Cx) : cmul c0 x = c0. Proof. apply C_eq; cbn; ring. Qed.
Lemma m0r (x : Cx) : cmul x c0 = c0. Proof. apply C_eq; cbn; ring. Qed.
Lemma m1l (x : Cx) : cmul c1 x = x. Proof. apply C_eq; cbn; ring. Qed.
Lemma a0l (x : Cx) : cadd c0 x = x. Proof. apply C_eq; cbn; ring. Qed.
Lemma a0r (x : Cx) : cadd x c0 = x. Proof. apply C_eq; cbn; ring. Qed.
Lemma support138 x : length x = 4 -> prepared Crt 4 [Gx 0; Gx 2] x = c0 \/ x = [true; false; true; false].
Proof.
  intros L. destruct x as [|a [|b [|c [|d [|]]]]]; try discriminate. rewrite prepared_steps by reflexivity.
  destruct a, b, c, d; try (right; reflexivity); left.
  all: cbv -[cadd cmul csub copp c0 c1 ci chalf cconj Cx Rplus Rmult Ropp Rminus Rinv Rdiv IZR].
  all: rewrite ?m0l, ?m0r, ?m1l, ?a0l, ?a0r, ?m0l, ?m0r, ?m1l, ?a0l, ?a0r; reflexivity.
Qed.
Lemma low138 (phi : bits -> Cx) : has_particles 4 2 phi -> norm2 4 phi = c1 -> (-2 <= fst (expect 4 (ham 4 minus_number (fun _ _ _ _ => c0)) phi))%R.
Proof. intros H N1. rewrite (number_value Cx 4 2 phi H N1). cbn. lra. Qed.
