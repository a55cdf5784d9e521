(** The energy of an ansatz is a trigonometric polynomial of degree two in each parameter. *)
From Coq Require Import Bool List Arith Reals Lra Lia Ring.
From Verif Require Import Coeff MatSpec MatLemmas AdjProofs OpSpec FockSpec CircuitSpec CircuitModel CircuitProofs CircuitProofs2 ComplexR PauliModel
  QuantSpec QuantProofs QuantProofs2 RdmSpec VqeSpec ConsSpec ConsProofs EulerProofs EulerProofs3 RotSpec RotProofs RotProofs2 TrigSpec.
Import ListNotations.
Local Open Scope R_scope.
Add Ring CxRing7 : (c_ring Cx).

(** Sesquilinear forms. *)
Section Form.
  Variables (N : nat) (H : mat Cx).
  Definition form (u v : bits -> Cx) : Cx := sumbits N (fun r => cmul (cconj (u r)) (mvec N H v r)).
  Definition comb (s k : R) (u0 u1 u2 : bits -> Cx) : bits -> Cx := fun x => cadd (u0 x) (cadd (cmul ((s, 0) : Cx) (u1 x)) (cmul ((k, 0) : Cx) (u2 x))).
  Lemma mvec_comb s k u0 u1 u2 r : mvec N H (comb s k u0 u1 u2) r = cadd (mvec N H u0 r) (cadd (cmul ((s, 0) : Cx) (mvec N H u1 r)) (cmul ((k, 0) : Cx) (mvec N H u2 r))).
  Proof.
    unfold mvec, comb. rewrite <- !(sumbits_scal Cx), <- !(sumbits_add Cx). apply sumbits_ext. intros c _. ring.
  Qed.
  Lemma conj_real (s : R) : cconj ((s, 0) : Cx) = ((s, 0) : Cx).
  Proof. apply C_eq; cbn [Cx cconj Cconj fst snd]; ring. Qed.
  Lemma form_r u s k v0 v1 v2 : form u (comb s k v0 v1 v2) = cadd (form u v0) (cadd (cmul ((s, 0) : Cx) (form u v1)) (cmul ((k, 0) : Cx) (form u v2))).
  Proof.
    unfold form. rewrite <- !(sumbits_scal Cx), <- !(sumbits_add Cx). apply sumbits_ext. intros r _. rewrite mvec_comb. ring.
  Qed.
  Lemma form_l u0 u1 u2 s k v : form (comb s k u0 u1 u2) v = cadd (form u0 v) (cadd (cmul ((s, 0) : Cx) (form u1 v)) (cmul ((k, 0) : Cx) (form u2 v))).
  Proof.
    unfold form. rewrite <- !(sumbits_scal Cx), <- !(sumbits_add Cx). apply sumbits_ext. intros r _. unfold comb. rewrite !(cconj_add Cx), !(cconj_mul Cx), !conj_real. ring.
  Qed.
  Definition q (u v : bits -> Cx) : R := fst (form u v).
  Definition coefs (u0 u1 u2 : bits -> Cx) (n : nat) : R :=
    match n with
    | O => q u0 u0 + q u0 u2 + q u2 u0 + q u1 u1 / 2 + 3 / 2 * q u2 u2
    | 1%nat => - (q u0 u2 + q u2 u0) - 2 * q u2 u2
    | 2%nat => q u0 u1 + q u1 u0 + q u1 u2 + q u2 u1
    | 3%nat => (q u2 u2 - q u1 u1) / 2
    | _ => - (q u1 u2 + q u2 u1) / 2
    end.
  Lemma form_trig u0 u1 u2 x : fst (expect N H (comb (sin x) (1 - cos x) u0 u1 u2)) = trig2 (coefs u0 u1 u2) x.
  Proof.
    change (expect N H (comb (sin x) (1 - cos x) u0 u1 u2)) with (form (comb (sin x) (1 - cos x) u0 u1 u2) (comb (sin x) (1 - cos x) u0 u1 u2)).
    rewrite form_l, !form_r. unfold trig2, coefs, q.
    generalize (form u0 u0) (form u0 u1) (form u0 u2) (form u1 u0) (form u1 u1) (form u1 u2) (form u2 u0) (form u2 u1) (form u2 u2).
    intros [p0 ?] [p1 ?] [p2 ?] [p3 ?] [p4 ?] [p5 ?] [p6 ?] [p7 ?] [p8 ?]. cbn [Cx cadd cmul Cadd Cmul fst snd].
    rewrite sin_2a, cos_2a. pose proof (sin2_cos2 x) as S. unfold Rsqr in S. revert S. generalize (sin x) (cos x). intros s c S.
    replace (s * s) with (1 - c * c) by lra. field_simplify. replace (s ^ 2) with (1 - c ^ 2) by (cbn [pow]; lra). field.
  Qed.
End Form.
(** The state of an ansatz in one of its parameters. *)
Definition parts (N : nat) (ref : bits) (A B G : mat Cx) : (bits -> Cx) * (bits -> Cx) * (bits -> Cx) :=
  (fun x => mmul N A B x ref, fun x => mmul N (mmul N A G) B x ref, fun x => mmul N (mmul N A (mmul N G G)) B x ref).
Lemma state_parts N depth ref l1 t (p : R) l2 x : length ref = N -> length x = N ->
  ansatz_state N depth ref (l1 ++ (t, ((p, 0) : Cx)) :: l2) x =
  comb (sin (p / INR depth)) (1 - cos (p / INR depth))
    (fun x => mmul N (rotations N depth l2) (rotations N depth l1) x ref)
    (fun x => mmul N (mmul N (rotations N depth l2) (generator (Nat.div2 (length t)) t c1)) (rotations N depth l1) x ref)
    (fun x => mmul N (mmul N (rotations N depth l2) (mmul N (generator (Nat.div2 (length t)) t c1) (generator (Nat.div2 (length t)) t c1))) (rotations N depth l1) x ref) x.
Proof.
  intros Lr Lx. unfold ansatz_state. rewrite (un _ _ _ (rotations_app N depth l1 ((t, ((p, 0) : Cx)) :: l2)) x ref Lx Lr). cbn [rotations fst].
  set (G := generator (Nat.div2 (length t)) t c1). set (A := rotations N depth l2). set (B := rotations N depth l1).
  assert (E : mmul N (mmul N A (rotation N G (p / INR depth))) B =[N]= madd (mmul N A B) (madd (mscal ((sin (p / INR depth), 0) : Cx) (mmul N (mmul N A G) B)) (mscal ((1 - cos (p / INR depth), 0) : Cx) (mmul N (mmul N A (mmul N G G)) B)))).
  { unfold rotation. rewrite !(addr N), !(scalr N), (mul1r N), !(addl N), !(scall N). reflexivity. }
  rewrite (un _ _ _ E x ref Lx Lr). reflexivity.
Qed.
Theorem energy_trig N depth (H : mat Cx) ref l1 t l2 : length ref = N ->
  exists a, forall p : R, ansatz_energy N depth H ref (l1 ++ (t, ((p, 0) : Cx)) :: l2) = trig2 a (p / INR depth).
Proof.
  intro Lr. eexists. intro p. unfold ansatz_energy. rewrite (EulerProofs.expect_state N H _ _ (fun r Lx => state_parts N depth ref l1 t p l2 r Lr Lx)). apply form_trig.
Qed.
(** Derivatives and differences. *)
Lemma trig2_derivable a x : derivable_pt_lim (trig2 a) x (trig2' a x).
Proof.
  assert (D2 : derivable_pt_lim (fun y => 2 * y) x 2).
  { pose proof (derivable_pt_lim_scal id 2 x 1 (derivable_pt_lim_id x)) as D. rewrite Rmult_1_r in D. exact D. }
  assert (C2 : derivable_pt_lim (fun y => cos (2 * y)) x (- sin (2 * x) * 2)) by (apply (derivable_pt_lim_comp (fun y => 2 * y) cos x); [exact D2|apply derivable_pt_lim_cos]).
  assert (S2 : derivable_pt_lim (fun y => sin (2 * y)) x (cos (2 * x) * 2)) by (apply (derivable_pt_lim_comp (fun y => 2 * y) sin x); [exact D2|apply derivable_pt_lim_sin]).
  unfold trig2, trig2'. replace (- a 1%nat * sin x + a 2%nat * cos x - 2 * a 3%nat * sin (2 * x) + 2 * a 4%nat * cos (2 * x))
    with (0 + a 1%nat * (- sin x) + a 2%nat * cos x + a 3%nat * (- sin (2 * x) * 2) + a 4%nat * (cos (2 * x) * 2)) by ring.
  apply (derivable_pt_lim_plus (fun y => a 0%nat + a 1%nat * cos y + a 2%nat * sin y + a 3%nat * cos (2 * y)) (fun y => a 4%nat * sin (2 * y))); [|apply (derivable_pt_lim_scal (fun y => sin (2 * y))); exact S2].
  apply (derivable_pt_lim_plus (fun y => a 0%nat + a 1%nat * cos y + a 2%nat * sin y) (fun y => a 3%nat * cos (2 * y))); [|apply (derivable_pt_lim_scal (fun y => cos (2 * y))); exact C2].
  apply (derivable_pt_lim_plus (fun y => a 0%nat + a 1%nat * cos y) (fun y => a 2%nat * sin y)); [|apply (derivable_pt_lim_scal sin); apply derivable_pt_lim_sin].
  apply (derivable_pt_lim_plus (fun y => a 0%nat) (fun y => a 1%nat * cos y)); [apply derivable_pt_lim_const|apply (derivable_pt_lim_scal cos); apply derivable_pt_lim_cos].
Qed.
Lemma sin_bound y : Rabs (sin y) <= Rabs y.
Proof.
  assert (P : forall z, 0 <= z -> Rabs (sin z) <= z).
  { intros z Hz. apply Rabs_le. destruct (Req_dec z 0) as [->|Z]; [rewrite sin_0; lra|]. assert (0 < z) by lra.
    split; [|left; apply sin_lt_x; assumption]. destruct (Rle_lt_dec z 1) as [L|L]; [|pose proof (SIN_bound z); lra].
    assert (0 <= sin z); [|lra]. apply sin_ge_0; [assumption|]. pose proof Rtrigo1.PI_RGT_0. pose proof PI2_1. lra. }
  destruct (Rle_dec 0 y) as [L|L]; [rewrite (Rabs_right y) by lra; apply P; exact L|].
  rewrite <- (Rabs_Ropp (sin y)), <- sin_neg, (Rabs_left y) by lra. apply P. lra.
Qed.
Lemma cos_bound y : 0 <= 1 - cos y <= y * y / 2.
Proof.
  replace y with (2 * (y / 2)) at 1 2 by field. rewrite cos_2a_sin. pose proof (sin_bound (y / 2)) as B.
  assert (S : sin (y / 2) * sin (y / 2) <= y / 2 * (y / 2)).
  { apply Rsqr_le_abs_1 in B. exact B. }
  split; [|lra]. pose proof (Rle_0_sqr (sin (y / 2))) as Z. unfold Rsqr in Z. lra.
Qed.
Lemma sin_diff h : Rabs (sin h - h) <= Rabs h * (h * h) / 2.
Proof.
  assert (P : forall z, 0 < z -> Rabs (sin z - z) <= z * (z * z) / 2).
  { intros z Hz. destruct (MVT_cor2 sin cos 0 z Hz (fun c _ => derivable_pt_lim_sin c)) as [c [E [L1 L2]]]. rewrite sin_0, !Rminus_0_r in E. rewrite E.
    destruct (cos_bound c) as [B1 B2]. replace (cos c * z - z) with (- ((1 - cos c) * z)) by ring. rewrite Rabs_Ropp, Rabs_right by (apply Rle_ge, Rmult_le_pos; lra).
    assert (c * c <= z * z) by nra. assert ((1 - cos c) * z <= z * z / 2 * z) by (apply Rmult_le_compat_r; lra). lra. }
  destruct (Rtotal_order h 0) as [L|[->|L]].
  - rewrite (Rabs_left h L). replace (sin h - h) with (- (sin (- h) - - h)) by (rewrite sin_neg; ring). rewrite Rabs_Ropp. replace (h * h) with (- h * - h) by ring. apply P. lra.
  - rewrite sin_0, Rminus_0_r, Rabs_R0. lra.
  - rewrite (Rabs_right h) by lra. apply P. exact L.
Qed.
Lemma sin_diff2 h : Rabs (sin h - h) <= h * h.
Proof.
  pose proof (sin_diff h) as A. pose proof (sin_bound h) as B.
  assert (T : Rabs (sin h - h) <= 2 * Rabs h) by (pose proof (Rabs_triang (sin h) (- h)) as X; rewrite Rabs_Ropp in X; unfold Rminus; lra).
  pose proof (Rabs_pos h) as P. assert (E : h * h = Rabs h * Rabs h) by (unfold Rabs; destruct (Rcase_abs h); ring).
  rewrite E in *. revert A T P. generalize (Rabs h) (Rabs (sin h - h)). intros u v A T P. destruct (Rle_lt_dec 2 u) as [L|L]; nra.
Qed.
Lemma abs_le_mul a b c : Rabs b <= c -> Rabs (a * b) <= Rabs a * c.
Proof. intro H. rewrite Rabs_mult. apply Rmult_le_compat_l; [apply Rabs_pos|exact H]. Qed.
Lemma term_cos x h : Rabs (cos (x + h) - cos x + h * sin x) <= 3 / 2 * (h * h).
Proof.
  rewrite cos_plus. replace (cos x * cos h - sin x * sin h - cos x + h * sin x) with (- cos x * (1 - cos h) - sin x * (sin h - h)) by ring.
  destruct (cos_bound h) as [A B]. pose proof (sin_diff2 h) as S. pose proof (COS_bound x) as Cx. pose proof (SIN_bound x) as Sx.
  assert (U : Rabs (- cos x * (1 - cos h)) <= h * h / 2).
  { rewrite Rabs_mult, (Rabs_right (1 - cos h)) by lra. assert (Rabs (- cos x) <= 1) by (apply Rabs_le; lra). pose proof (Rabs_pos (- cos x)). nra. }
  assert (W : Rabs (sin x * (sin h - h)) <= h * h).
  { rewrite Rabs_mult. assert (Rabs (sin x) <= 1) by (apply Rabs_le; lra). pose proof (Rabs_pos (sin x)). pose proof (Rabs_pos (sin h - h)). nra. }
  pose proof (Rabs_triang (- cos x * (1 - cos h)) (- (sin x * (sin h - h)))) as T. rewrite Rabs_Ropp in T. unfold Rminus at 1. lra.
Qed.
Lemma term_sin x h : Rabs (sin (x + h) - sin x - h * cos x) <= 3 / 2 * (h * h).
Proof.
  pose proof (term_cos (x - Rtrigo1.PI / 2) h) as T. 
  assert (A : forall y, cos (y - Rtrigo1.PI / 2) = sin y) by (intro y; rewrite cos_minus, cos_PI2, sin_PI2; ring).
  assert (B : forall y, sin (y - Rtrigo1.PI / 2) = - cos y) by (intro y; rewrite sin_minus, cos_PI2, sin_PI2; ring).
  replace (x - Rtrigo1.PI / 2 + h) with (x + h - Rtrigo1.PI / 2) in T by ring. rewrite !A, B in T. replace (sin (x + h) - sin x - h * cos x) with (sin (x + h) - sin x + h * - cos x) by ring. exact T.
Qed.
Definition fwd (a : nat -> R) : R := 3 / 2 * (Rabs (a 1%nat) + Rabs (a 2%nat) + 4 * Rabs (a 3%nat) + 4 * Rabs (a 4%nat)).
Lemma trig_forward a x h : Rabs (trig2 a (x + h) - trig2 a x - h * trig2' a x) <= fwd a * (h * h).
Proof.
  unfold trig2, trig2', fwd. replace (2 * (x + h)) with (2 * x + 2 * h) by ring.
  set (e1 := cos (x + h) - cos x + h * sin x). set (e2 := sin (x + h) - sin x - h * cos x).
  set (e3 := cos (2 * x + 2 * h) - cos (2 * x) + 2 * h * sin (2 * x)). set (e4 := sin (2 * x + 2 * h) - sin (2 * x) - 2 * h * cos (2 * x)).
  match goal with |- Rabs ?t <= _ => replace t with (a 1%nat * e1 + a 2%nat * e2 + a 3%nat * e3 + a 4%nat * e4) by (unfold e1, e2, e3, e4; ring) end.
  pose proof (abs_le_mul (a 1%nat) e1 _ (term_cos x h)). pose proof (abs_le_mul (a 2%nat) e2 _ (term_sin x h)).
  pose proof (abs_le_mul (a 3%nat) e3 _ (term_cos (2 * x) (2 * h))). pose proof (abs_le_mul (a 4%nat) e4 _ (term_sin (2 * x) (2 * h))).
  pose proof (Rabs_triang (a 1%nat * e1 + a 2%nat * e2 + a 3%nat * e3) (a 4%nat * e4)). pose proof (Rabs_triang (a 1%nat * e1 + a 2%nat * e2) (a 3%nat * e3)). pose proof (Rabs_triang (a 1%nat * e1) (a 2%nat * e2)).
  lra.
Qed.
Definition ctr (a : nat -> R) : R := Rabs (a 1%nat) + Rabs (a 2%nat) + 8 * Rabs (a 3%nat) + 8 * Rabs (a 4%nat).
Lemma trig_central a x h : Rabs (trig2 a (x + h) - trig2 a (x - h) - 2 * h * trig2' a x) <= ctr a * (Rabs h * (h * h)).
Proof.
  unfold trig2, trig2', ctr. replace (2 * (x + h)) with (2 * x + 2 * h) by ring. replace (2 * (x - h)) with (2 * x - 2 * h) by ring.
  rewrite !cos_plus, !cos_minus, !sin_plus, !sin_minus.
  set (e := sin h - h). set (g := sin (2 * h) - 2 * h).
  match goal with |- Rabs ?t <= _ => replace t with (a 1%nat * (- sin x * (2 * e)) + a 2%nat * (cos x * (2 * e)) + a 3%nat * (- sin (2 * x) * (2 * g)) + a 4%nat * (cos (2 * x) * (2 * g))) by (unfold e, g; ring) end.
  assert (U : forall s v w, -1 <= s <= 1 -> Rabs v <= w -> Rabs (s * (2 * v)) <= 2 * w).
  { intros s v w Hs Hv. rewrite !Rabs_mult, (Rabs_right 2) by lra. assert (Rabs s <= 1) by (apply Rabs_le; lra). pose proof (Rabs_pos s). pose proof (Rabs_pos v). nra. }
  pose proof (sin_diff h) as A. pose proof (sin_diff (2 * h)) as B. fold e in A. fold g in B. rewrite (Rabs_mult 2 h), (Rabs_right 2) in B by lra.
  pose proof (SIN_bound x). pose proof (COS_bound x). pose proof (SIN_bound (2 * x)). pose proof (COS_bound (2 * x)).
  pose proof (abs_le_mul (a 1%nat) _ _ (U (- sin x) e _ ltac:(lra) A)) as T1. pose proof (abs_le_mul (a 2%nat) _ _ (U (cos x) e _ ltac:(lra) A)) as T2.
  pose proof (abs_le_mul (a 3%nat) _ _ (U (- sin (2 * x)) g _ ltac:(lra) B)) as T3. pose proof (abs_le_mul (a 4%nat) _ _ (U (cos (2 * x)) g _ ltac:(lra) B)) as T4.
  revert T1 T2 T3 T4.
  generalize (- sin x * (2 * e)) (cos x * (2 * e)) (- sin (2 * x) * (2 * g)) (cos (2 * x) * (2 * g)). intros e1 e2 e3 e4 T1 T2 T3 T4.
  pose proof (Rabs_triang (a 1%nat * e1 + a 2%nat * e2 + a 3%nat * e3) (a 4%nat * e4)). pose proof (Rabs_triang (a 1%nat * e1 + a 2%nat * e2) (a 3%nat * e3)). pose proof (Rabs_triang (a 1%nat * e1) (a 2%nat * e2)).
  lra.
Qed.
(** In the parameter itself. *)
Lemma scaled_derivable a (d p : R) : derivable_pt_lim (fun y => trig2 a (y / d)) p (trig2' a (p / d) / d).
Proof.
  pose proof (derivable_pt_lim_comp (mult_real_fct (/ d) id) (trig2 a) p (/ d * 1) (trig2' a (/ d * p)) (derivable_pt_lim_scal id (/ d) p 1 (derivable_pt_lim_id p)) (trig2_derivable a (/ d * p))) as D.
  replace (trig2' a (p / d) / d) with (trig2' a (/ d * p) * (/ d * 1)) by (unfold Rdiv; rewrite (Rmult_comm (/ d) p); ring).
  intros eps He. destruct (D eps He) as [del Hd]. exists del. intros h H0 H1. specialize (Hd h H0 H1). unfold comp, mult_real_fct, id in Hd.
  unfold Rdiv at 2 3. rewrite (Rmult_comm (p + h) (/ d)), (Rmult_comm p (/ d)). exact Hd.
Qed.
Lemma scaled_forward a (d p h : R) : d <> 0 -> 0 < h -> Rabs ((trig2 a ((p + h) / d) - trig2 a (p / d)) / h - trig2' a (p / d) / d) <= fwd a / (d * d) * h.
Proof.
  intros Hd Hh. pose proof (trig_forward a (p / d) (h / d)) as T. replace (p / d + h / d) with ((p + h) / d) in T by (field; exact Hd).
  apply (Rmult_le_reg_l h); [exact Hh|]. rewrite <- (Rabs_right h) at 1 by lra. rewrite <- Rabs_mult.
  match goal with |- Rabs ?t <= _ => replace t with (trig2 a ((p + h) / d) - trig2 a (p / d) - h / d * trig2' a (p / d)) by (field; split; [exact Hd|lra]) end.
  eapply Rle_trans; [exact T|]. right. field. exact Hd.
Qed.
Lemma scaled_central a (d p h : R) : d <> 0 -> 0 < h -> Rabs ((trig2 a ((p + h) / d) - trig2 a ((p - h) / d)) / (2 * h) - trig2' a (p / d) / d) <= ctr a / (2 * Rabs d * (d * d)) * (h * h).
Proof.
  intros Hd Hh. pose proof (trig_central a (p / d) (h / d)) as T. replace (p / d + h / d) with ((p + h) / d) in T by (field; exact Hd). replace (p / d - h / d) with ((p - h) / d) in T by (field; exact Hd).
  apply (Rmult_le_reg_l (2 * h)); [lra|]. rewrite <- (Rabs_right (2 * h)) at 1 by lra. rewrite <- Rabs_mult.
  match goal with |- Rabs ?t <= _ => replace t with (trig2 a ((p + h) / d) - trig2 a ((p - h) / d) - 2 * (h / d) * trig2' a (p / d)) by (field; split; [exact Hd|lra]) end.
  eapply Rle_trans; [exact T|]. right. replace (Rabs (h / d)) with (h / Rabs d) by (unfold Rdiv; rewrite Rabs_mult, Rabs_inv, (Rabs_right h) by lra; reflexivity). field. split; [exact Hd|apply Rabs_no_R0; exact Hd].
Qed.
