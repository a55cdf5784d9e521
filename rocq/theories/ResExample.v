(** Concrete data for the examples in Prop_Residual. *)
From Coq Require Import Bool List Arith ZArith Lia Permutation.
From Verif Require Import Coeff MatSpec FockSpec FermiModel InvSpec CircuitSpec RdmSpec HamModel HamSpec ResSpec ResModel.
Import ListNotations.
Local Open Scope nat_scope.
Definition f_ex (a b : nat) : Z := match a, b with 0, 1 => 1%Z | 1, 0 => 1%Z | 1, 1 => 2%Z | 1, 2 => 1%Z | 2, 1 => 1%Z | 2, 2 => (-1)%Z | _, _ => 0%Z end.
Definition K2_ex (p q s t : nat) : GaussQ := gz (f_ex p s * f_ex q t).
Definition psi_ex (x : bits) : GaussQ :=
  match x with [true; true; false] => gz 1 | [true; false; true] => gz 2 | [false; true; true] => gz 3 | _ => gz 0 end.
Lemma f_ex_sym a b : f_ex a b = f_ex b a.
Proof. destruct a as [|[|[|a]]], b as [|[|[|b]]]; reflexivity. Qed.
Lemma K2_ex_sym : real_symmetric K2_ex.
Proof.
  split; [|split].
  - intros. reflexivity.
  - intros. unfold K2_ex. now rewrite Z.mul_comm.
  - intros. unfold K2_ex. now rewrite (f_ex_sym p s), (f_ex_sym q t).
Qed.
Lemma psi_ex_two : has_particles 3 2 psi_ex.
Proof.
  intros x L H. destruct x as [|[] [|[] [|[] [|? ?]]]]; try discriminate; try reflexivity; exfalso; apply H; reflexivity.
Qed.
Lemma perm_ex : Permutation [2; 0; 1] (seq 0 3).
Proof. apply NoDup_Permutation; [repeat constructor; cbn; lia|apply seq_NoDup|]. intro x. cbn. tauto. Qed.
Lemma vec_ex : exists o, vector_to_operator (fun z : GaussQ => ceqb z c0) 4 [([0; 2; 3; 1], gz 1)] = Some o /\
  ceqb (cconj (fmat o [false; true; false; true] [true; false; true; false])) (copp (fmat o [true; false; true; false] [false; true; false; true])) = false.
Proof.
  destruct (vector_to_operator (fun z : GaussQ => ceqb z c0) 4 [([0; 2; 3; 1], gz 1)]) as [o|] eqn:E.
  - exists o. split; [reflexivity|].
    assert (B : match vector_to_operator (fun z : GaussQ => ceqb z c0) 4 [([0; 2; 3; 1], gz 1)] with
      | Some o => ceqb (cconj (fmat o [false; true; false; true] [true; false; true; false])) (copp (fmat o [true; false; true; false] [false; true; false; true])) | None => true end = false) by (vm_compute; reflexivity).
    rewrite E in B. exact B.
  - exfalso. assert (B : match vector_to_operator (fun z : GaussQ => ceqb z c0) 4 [([0; 2; 3; 1], gz 1)] with Some _ => true | None => false end = true) by (vm_compute; reflexivity).
    rewrite E in B. discriminate.
Qed.
(** Four modes, 0 and 1 with spin up, one particle of each spin. *)
Definition f4_ex (a b : nat) : Z := match a, b with 0, 0 => 1%Z | 0, 1 => 1%Z | 1, 0 => 1%Z | 2, 2 => 1%Z | 2, 3 => 1%Z | 3, 2 => 1%Z | _, _ => 0%Z end.
Definition K4_ex (p q s t : nat) : GaussQ := gz (f4_ex p s * f4_ex q t).
Definition psi4_ex (x : bits) : GaussQ :=
  match x with [true; false; true; false] => gz 1 | [false; true; false; true] => gz 2 | [true; false; false; true] => gz 3 | _ => gz 0 end.
(** Its 2-RDM. *)
Definition amp_ex (a b : nat) : Z :=
  match a, b with 0, 2 => 1%Z | 2, 0 => (-1)%Z | 1, 3 => 2%Z | 3, 1 => (-2)%Z | 0, 3 => 3%Z | 3, 0 => (-3)%Z | _, _ => 0%Z end.
Definition D4_ex (x : list nat) : GaussQ := match x with [a; b; c; d] => gz (amp_ex a b * amp_ex c d) | _ => gz 0 end.
Lemma f4_ex_sym a b : f4_ex a b = f4_ex b a.
Proof. destruct a as [|[|[|[|a]]]], b as [|[|[|[|b]]]]; reflexivity. Qed.
Lemma K4_ex_sym : real_symmetric K4_ex.
Proof.
  split; [|split].
  - intros. reflexivity.
  - intros. unfold K4_ex. now rewrite Z.mul_comm.
  - intros. unfold K4_ex. now rewrite (f4_ex_sym p s), (f4_ex_sym q t).
Qed.
Lemma K4_ex_spin p q s t : up_count 2 [p; q] <> up_count 2 [s; t] -> K4_ex p q s t = c0.
Proof.
  intro H. unfold K4_ex. assert (E : (f4_ex p s * f4_ex q t = 0)%Z); [|rewrite E; reflexivity].
  destruct (Z.eq_dec (f4_ex p s) 0) as [->|N1]; [reflexivity|]. destruct (Z.eq_dec (f4_ex q t) 0) as [->|N2]; [apply Z.mul_0_r|]. exfalso. apply H.
  assert (G : forall a b, f4_ex a b <> 0%Z -> (a <? 2) = (b <? 2)) by (intros a b; destruct a as [|[|[|[|a]]]], b as [|[|[|[|b]]]]; cbn; congruence).
  unfold up_count. cbn [filter]. rewrite (G p s N1), (G q t N2). destruct (s <? 2), (t <? 2); reflexivity.
Qed.
Lemma psi4_ex_up : has_up 4 2 1 psi4_ex.
Proof. intros x L H. destruct x as [|[] [|[] [|[] [|[] [|? ?]]]]]; try discriminate; try reflexivity; exfalso; apply H; reflexivity. Qed.
Lemma psi4_ex_two : has_particles 4 2 psi4_ex.
Proof. intros x L H. destruct x as [|[] [|[] [|[] [|[] [|? ?]]]]]; try discriminate; try reflexivity; exfalso; apply H; reflexivity. Qed.
Lemma D4_ex_rdm : forallb (fun x => ceqb (D4_ex x) (rdm_of 4 psi4_ex (firstn 2 x) (skipn 2 x))) (tuples 4 4) = true.
Proof. vm_compute. reflexivity. Qed.
