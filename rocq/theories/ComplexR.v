(** The complex numbers over the reals of the standard library as coefficients, and 1/sqrt 2.  Theorems that speak of
    limits use this instance; the axioms of the reals are listed by Print Assumptions. *)
From Coq Require Import Ring Bool Reals Lra.
From Verif Require Import Coeff.
Local Open Scope R_scope.

Definition C : Type := (R * R)%type.
Definition C0 : C := (0, 0).
Definition C1 : C := (1, 0).
Definition Ci : C := (0, 1).
Definition Chalf : C := (/ 2, 0).
Definition Cadd (a b : C) : C := (fst a + fst b, snd a + snd b).
Definition Copp (a : C) : C := (- fst a, - snd a).
Definition Csub (a b : C) : C := (fst a - fst b, snd a - snd b).
Definition Cmul (a b : C) : C := (fst a * fst b - snd a * snd b, fst a * snd b + snd a * fst b).
Definition Cconj (a : C) : C := (fst a, - snd a).
Definition Ceqb (a b : C) : bool := if Req_EM_T (fst a) (fst b) then if Req_EM_T (snd a) (snd b) then true else false else false.
(** [abs(c)<=1e-12], squared. *)
Definition Csmall (a : C) : bool := if Rle_dec (fst a * fst a + snd a * snd a) (/ 10 ^ 24) then true else false.

Lemma C_eq (a b : C) : fst a = fst b -> snd a = snd b -> a = b.
Proof. destruct a, b. cbn. intros -> ->. reflexivity. Qed.
Ltac creal := repeat match goal with a : C |- _ => destruct a end;
  apply C_eq; cbn [fst snd C0 C1 Ci Chalf Cadd Copp Csub Cmul Cconj]; try ring; try field.
Lemma C_ring : ring_theory C0 C1 Cadd Cmul Csub Copp (@eq C).
Proof. constructor; intros; creal. Qed.
Lemma Ci_sq : Cmul Ci Ci = Copp C1.
Proof. creal. Qed.
Lemma Chalf_dbl : Cadd Chalf Chalf = C1.
Proof. creal. Qed.
Lemma C1_neq0 : C1 <> C0.
Proof. intro H. apply (f_equal fst) in H. cbn in H. lra. Qed.
Lemma Ceqb_spec a b : Ceqb a b = true <-> a = b.
Proof.
  unfold Ceqb. split.
  - destruct (Req_EM_T (fst a) (fst b)); [|discriminate]. destruct (Req_EM_T (snd a) (snd b)); [|discriminate].
    intros _. apply C_eq; assumption.
  - intros ->. destruct (Req_EM_T (fst b) (fst b)); [|contradiction]. destruct (Req_EM_T (snd b) (snd b)); [reflexivity|contradiction].
Qed.
Lemma Csmall_spec a b : fst a * fst a + snd a * snd a = fst b * fst b + snd b * snd b -> Csmall a = Csmall b.
Proof. unfold Csmall. intros ->. reflexivity. Qed.
Lemma pow24 : 0 < / 10 ^ 24.
Proof. apply Rinv_0_lt_compat, pow_lt. lra. Qed.
Lemma pow24_small : / 10 ^ 24 < / 4.
Proof. apply Rinv_lt_contravar; [|]; [apply Rmult_lt_0_compat; [lra|apply pow_lt; lra]|]. cbn [pow]. lra. Qed.
Lemma Csmall_0 : Csmall C0 = true.
Proof. unfold Csmall. cbn [fst snd C0]. destruct (Rle_dec _ _) as [|n]; [reflexivity|]. exfalso. apply n. pose proof pow24. lra. Qed.
Lemma Csmall_half_mul a : Csmall a = true -> Csmall (Cmul Chalf a) = true.
Proof.
  unfold Csmall. destruct a as [x y]. cbn [fst snd Chalf Cmul]. destruct (Rle_dec (x * x + y * y) _) as [l|]; [|discriminate]. intros _.
  destruct (Rle_dec _ _) as [|n]; [reflexivity|]. exfalso. apply n.
  pose proof (Rle_0_sqr x) as hx. pose proof (Rle_0_sqr y) as hy. unfold Rsqr in hx, hy. lra.
Qed.
Lemma Csmall_half : Csmall Chalf = false.
Proof. unfold Csmall. cbn [fst snd Chalf]. destruct (Rle_dec _ _) as [l|]; [|reflexivity]. exfalso. pose proof pow24_small. lra. Qed.

Definition Cx : CoefRing.
Proof.
  refine {| car := C; c0 := C0; c1 := C1; cadd := Cadd; cmul := Cmul; csub := Csub; copp := Copp; ci := Ci; chalf := Chalf;
    cconj := Cconj; ceqb := Ceqb; small := Csmall |}.
  - exact C_ring.
  - exact Ci_sq.
  - exact Chalf_dbl.
  - exact C1_neq0.
  - exact Ceqb_spec.
  - intros; creal.
  - intros; creal.
  - intros; creal.
  - creal.
  - exact Csmall_0.
  - intro a. apply Csmall_spec. cbn [fst snd Copp]. ring.
  - intro a. apply Csmall_spec. cbn [fst snd Ci Cmul]. ring.
  - exact Csmall_half_mul.
  - exact Csmall_half.
Defined.

Definition Crt : Cx := (/ sqrt 2, 0).
Lemma Crt_sq : cmul Crt Crt = chalf.
Proof.
  apply C_eq; cbn [Crt Cx cmul chalf fst snd Cmul Chalf]; [|ring].
  rewrite Rmult_0_l, Rminus_0_r, <- Rinv_mult, sqrt_sqrt; [reflexivity|lra].
Qed.
