(** Four modes with one pair coupling: the data of the example for the Euler step. *)
From Coq Require Import Bool List Arith ZArith QArith Qcanon Reals Qreals Lra Lia.
From Verif Require Import Coeff MatSpec MatLemmas AdjProofs OpSpec FockSpec CircuitSpec CircuitModel CircuitProofs CircuitProofs2 ComplexR OperatorModel OperatorProofs FermiModel FermiProofs
  InvModel InvSpec HamModel HamSpec HamProofs3 TransformModel InitProofs PauliModel PlanSpec PlanProofs PlanProofs5 QuantProofs2 RdmFock ResSpec ResModel ResProofs ResProofs3 HamProofs5 ConsProofs3 KeyProofs EulerSpec EulerModel EulerProofs2 EulerProofs3 EulerProofs4.
Import ListNotations.
Local Open Scope nat_scope.
Add Ring CxRing6 : (c_ring Cx).

(** Rational complex numbers as complex numbers. *)
Definition emb (x : GaussQ) : Cx := (Q2R (this (fst x)), Q2R (this (snd x))).
Lemma emb_q (a b : Qc) : Q2R (this (a + b)) = (Q2R (this a) + Q2R (this b))%R /\ Q2R (this (a * b)) = (Q2R (this a) * Q2R (this b))%R /\ Q2R (this (- a)) = (- Q2R (this a))%R /\ Q2R (this (a - b)) = (Q2R (this a) - Q2R (this b))%R.
Proof.
  assert (P : forall x y : Qc, Q2R (this (x + y)) = (Q2R (this x) + Q2R (this y))%R) by (intros x y; rewrite <- Q2R_plus; apply Qeq_eqR; apply (Qred_correct (this x + this y))).
  assert (M : forall x : Qc, Q2R (this (- x)) = (- Q2R (this x))%R) by (intros x; rewrite <- Q2R_opp; apply Qeq_eqR; apply (Qred_correct (- this x))).
  repeat split.
  - apply P.
  - rewrite <- Q2R_mult. apply Qeq_eqR. apply (Qred_correct (this a * this b)).
  - apply M.
  - unfold Qcminus. rewrite P, M. reflexivity.
Qed.
Lemma emb_add x y : emb (cadd x y) = cadd (emb x) (emb y).
Proof. destruct x as [a b], y as [c d]. apply C_eq; cbn [emb fst snd Cx cadd Cadd]; [exact (proj1 (emb_q a c))|exact (proj1 (emb_q b d))]. Qed.
Lemma emb_mul x y : emb (cmul x y) = cmul (emb x) (emb y).
Proof.
  destruct x as [a b], y as [c d]. apply C_eq; unfold emb; cbn [fst snd Cx cmul Cmul]; change (@cmul GaussQ (a, b) (c, d)) with ((a * c - b * d)%Qc, (a * d + b * c)%Qc); cbn [fst snd].
  - destruct (emb_q (a * c) (b * d)) as [_ [_ [_ E]]]. rewrite E. destruct (emb_q a c) as [_ [E1 _]], (emb_q b d) as [_ [E2 _]]. now rewrite E1, E2.
  - destruct (emb_q (a * d) (b * c)) as [E _]. rewrite E. destruct (emb_q a d) as [_ [E1 _]], (emb_q b c) as [_ [E2 _]]. now rewrite E1, E2.
Qed.
Lemma emb_0 : emb c0 = c0. Proof. apply C_eq; cbn; unfold Q2R; cbn; lra. Qed.
Lemma emb_1 : emb c1 = c1. Proof. apply C_eq; cbn; unfold Q2R; cbn; lra. Qed.
Lemma emb_opp x : emb (copp x) = copp (emb x).
Proof. destruct x as [a b]. apply C_eq; cbn [emb fst snd Cx copp Copp]; [exact (proj1 (proj2 (proj2 (emb_q a b))))|exact (proj1 (proj2 (proj2 (emb_q b a))))]. Qed.
Lemma emb_sub x y : emb (csub x y) = csub (emb x) (emb y).
Proof. replace (csub x y) with (cadd x (copp y)) by (symmetry; apply (Rsub_def (c_ring GaussQ))). rewrite emb_add, emb_opp. ring. Qed.
Lemma emb_sumbits n (f : bits -> GaussQ) : emb (sumbits n f) = sumbits n (fun b => emb (f b)).
Proof. revert f. induction n as [|n IH]; intro f; [reflexivity|]. cbn [sumbits]. now rewrite emb_add, !IH. Qed.
Lemma emb_upto n (f : nat -> GaussQ) : emb (upto n f) = upto n (fun i => emb (f i)).
Proof. unfold upto, over. induction (seq 0 n) as [|i l IH]; cbn [fold_right]; [apply emb_0|]. now rewrite emb_add, IH. Qed.
Lemma emb_fock l r c : emb (fock_mat l r c) = fock_mat l r c.
Proof.
  unfold fock_mat, pmap_mat. destruct (fock l c) as [[s m]|]; [|apply emb_0]. destruct (bits_eqb m r); [|apply emb_0]. destruct s; cbn [sgn]; [rewrite emb_opp|]; now rewrite emb_1.
Qed.
Lemma emb_comm N V p q s t r c : emb (comm N (excitation p q s t) (two_body N V) r c) = comm N (excitation p q s t) (two_body N (fun a b d e => emb (V a b d e))) r c.
Proof.
  assert (T : forall x y, emb (two_body N V x y) = two_body N (fun a b d e => emb (V a b d e)) x y).
  { intros x y. unfold two_body. rewrite emb_upto. apply upto_ext. intros a _. rewrite emb_upto. apply upto_ext. intros b _. rewrite emb_upto. apply upto_ext. intros d _. rewrite emb_upto. apply upto_ext. intros e _.
    rewrite emb_mul. f_equal. apply emb_fock. }
  unfold comm, mmul. rewrite emb_sub, !emb_sumbits. f_equal; apply sumbits_ext; intros b _; rewrite emb_mul, T; f_equal; apply emb_fock.
Qed.

Definition Kq (p q s t : nat) : GaussQ :=
  match p, q, s, t with 0, 1, 2, 3 | 1, 0, 3, 2 | 2, 3, 0, 1 | 3, 2, 1, 0 => gz 1 | _, _, _, _ => gz 0 end.
Definition Kx (p q s t : nat) : Cx := emb (Kq p q s t).
Definition dd : bits := [true; true; false; false].
Definition val (i k j l : nat) : GaussQ := comm 4 (excitation i k j l) (two_body 4 Kq) dd dd.
Definition test (x : GaussQ) : bool := ceqb x (gz 0) || ceqb x (gz 2) || ceqb x (gz (-2)).
Definition all4 (f : nat -> nat -> nat -> nat -> bool) : bool := forallb (fun i => forallb (fun k => forallb (fun j => forallb (fun l => f i k j l) (seq 0 4)) (seq 0 4)) (seq 0 4)) (seq 0 4).
Lemma all4_spec f : all4 f = true -> forall i k j l, i < 4 -> k < 4 -> j < 4 -> l < 4 -> f i k j l = true.
Proof.
  intros T i k j l Hi Hk Hj Hl. unfold all4 in T. rewrite forallb_forall in T. specialize (T i ltac:(apply in_seq; lia)). rewrite forallb_forall in T. specialize (T k ltac:(apply in_seq; lia)).
  rewrite forallb_forall in T. specialize (T j ltac:(apply in_seq; lia)). rewrite forallb_forall in T. exact (T l ltac:(apply in_seq; lia)).
Qed.
Lemma table_true : all4 (fun i k j l => test (val i k j l)) = true. Proof. vm_compute. reflexivity. Qed.
Lemma val_0123 : val 0 1 2 3 = gz 2. Proof. apply (ceqb_spec GaussQ). vm_compute. reflexivity. Qed.
Lemma val_any i k j l : i < 4 -> k < 4 -> j < 4 -> l < 4 -> val i k j l = gz 0 \/ val i k j l = gz 2 \/ val i k j l = gz (-2).
Proof.
  intros Hi Hk Hj Hl. assert (T := all4_spec _ table_true i k j l Hi Hk Hj Hl). cbv beta in T. revert T. generalize (val i k j l). intros x T. unfold test in T.
  apply orb_true_iff in T. destruct T as [T|T]; [apply orb_true_iff in T; destruct T as [T|T]|]; apply (ceqb_spec GaussQ) in T; auto.
Qed.

Lemma Kx_sym : real_symmetric Kx.
Proof.
  unfold real_symmetric, Kx. assert (R1 : cconj (emb (gz 1)) = emb (gz 1)) by (apply C_eq; cbn; unfold Q2R; cbn; lra). assert (R0 : cconj (emb (gz 0)) = emb (gz 0)) by (apply C_eq; cbn; unfold Q2R; cbn; lra).
  repeat split; intros p q s t.
  - destruct p as [|[|[|[|]]]], q as [|[|[|[|]]]], s as [|[|[|[|]]]], t as [|[|[|[|]]]]; cbn [Kq]; assumption.
  - destruct p as [|[|[|[|]]]], q as [|[|[|[|]]]], s as [|[|[|[|]]]], t as [|[|[|[|]]]]; reflexivity.
  - destruct p as [|[|[|[|]]]], q as [|[|[|[|]]]], s as [|[|[|[|]]]], t as [|[|[|[|]]]]; reflexivity.
Qed.
Lemma Kx_size : size4 4 Kx = 4%R.
Proof.
  assert (E1 : fst (emb (gz 1)) = 1%R) by (cbn; unfold Q2R; cbn; lra). assert (E0 : fst (emb (gz 0)) = 0%R) by (cbn; unfold Q2R; cbn; lra).
  unfold size4, rsum, Kx. cbn [seq fold_right Kq]. cbn [Cx] in E1, E0 |- *. rewrite E1, E0, Rabs_R0, Rabs_R1. lra.
Qed.
Lemma gs0_some : exists gs, acse_circuit 4 [0; 1] [] = Some gs /\ exists z, forall x, length x = 4 -> prepared Crt 4 gs x = if bits_eqb x dd then ipow z else c0.
Proof.
  assert (ND : NoDup [0; 1]) by (repeat constructor; cbn; intuition lia). assert (LT : forall k, In k [0; 1] -> k < 4) by (intros k [<-|[<-|[]]]; lia).
  destruct (initial_state Cx Crt Crt_sq 4 [0; 1] ND LT) as [s [z [E [z' F]]]].
  exists (initial_circuit Crt [(s, ipow z)] ++ []). split; [unfold acse_circuit; rewrite E; reflexivity|]. exists z'. intros x Lx. rewrite app_nil_r. specialize (F x Lx). change (map (fun j => existsb (Nat.eqb j) [0; 1]) (seq 0 4)) with dd in F. rewrite <- F.
  unfold prepared, mvec, zero_state.
  transitivity (sumbits 4 (fun c => if bits_eqb c (repeat false 4) then cmat Crt 4 (initial_circuit Crt [(s, ipow z)]) x c else c0)).
  - apply sumbits_ext. intros c _. rewrite (bits_eqb_sym (repeat false 4) c). destruct (bits_eqb c _); ring.
  - apply (sumbits_pick Cx 4 (repeat false 4) (fun c => cmat Crt 4 (initial_circuit Crt [(s, ipow z)]) x c)). apply repeat_length.
Qed.
Lemma ipow_unit z : cmul (cconj (@ipow Cx z)) (ipow z) = c1.
Proof. unfold ipow. repeat match goal with |- context [match ?x with _ => _ end] => destruct x end; apply C_eq; cbn; lra. Qed.
Lemma expect_det N (M : mat Cx) psi d z : length d = N -> (forall x, length x = N -> psi x = if bits_eqb x d then ipow z else c0) -> expect N M psi = M d d.
Proof.
  intros L H. unfold expect. transitivity (sumbits N (fun r => if bits_eqb r d then cmul (cconj (ipow z)) (cmul (M r d) (ipow z)) else c0 : Cx)).
  - apply sumbits_ext. intros r Lr. rewrite (H r Lr). destruct (bits_eqb r d); [|rewrite cconj_0; ring]. f_equal. unfold mvec.
    transitivity (sumbits N (fun c => if bits_eqb c d then cmul (M r c) (ipow z) else c0 : Cx)); [|apply (sumbits_pick Cx N d (fun c => cmul (M r c) (ipow z)) L)].
    apply sumbits_ext. intros c Lc. rewrite (H c Lc). destruct (bits_eqb c d); ring.
  - rewrite (sumbits_pick Cx N d (fun r => cmul (cconj (ipow z)) (cmul (M r d) (ipow z))) L). transitivity (cmul (cmul (cconj (ipow z)) (ipow z)) (M d d)); [ring|]. rewrite ipow_unit. ring.
Qed.
Lemma emb_gz n : emb (gz n) = ((IZR n, 0)%R : Cx).
Proof.
  apply C_eq; unfold emb, gz; cbn [fst snd].
  - transitivity (Q2R (inject_Z n)); [apply Qeq_eqR; apply (Qred_correct (inject_Z n))|]. unfold Q2R, inject_Z. cbn [Qnum Qden]. field.
  - unfold Q2R. cbn. lra.
Qed.
Lemma residual_values psi z : (forall x, length x = 4 -> psi x = if bits_eqb x dd then @ipow Cx z else c0) ->
  (forall i k j l, i < 4 -> k < 4 -> j < 4 -> l < 4 -> let x := residual_of 4 Kx psi i k j l in x = c0 \/ x = ((2, 0)%R : Cx) \/ x = ((-2, 0)%R : Cx)) /\ residual_of 4 Kx psi 0 1 2 3 = ((2, 0)%R : Cx).
Proof.
  intro H. assert (E : forall i k j l, residual_of 4 Kx psi i k j l = ((fst (emb (val i k j l)), 0)%R : Cx)).
  { intros. unfold val. rewrite emb_comm. unfold residual_of. rewrite re_expect_fst, (expect_det 4 _ psi dd z eq_refl H). reflexivity. }
  split.
  - intros i k j l Hi Hk Hj Hl. cbv zeta. rewrite E. destruct (val_any i k j l Hi Hk Hj Hl) as [-> |[-> | ->]]; rewrite emb_gz; cbn [fst]; auto.
  - rewrite E, val_0123, emb_gz. reflexivity.
Qed.
Lemma cx_exact20 (x : Cx) : dyadic 20 x -> small x = true -> x = c0.
Proof.
  intros [a [a' [b [b' E]]]] S. rewrite cx_half, !cx_nat in E.
  assert (E1 : fst x = (IZR (Z.of_nat a - Z.of_nat a') / 1048576)%R).
  { rewrite E. cbn [Cx cmul cadd csub ci Cmul Cadd Csub Ci fst snd pow]. rewrite minus_IZR, <- !INR_IZR_INZ. field. }
  assert (E2 : snd x = (IZR (Z.of_nat b - Z.of_nat b') / 1048576)%R).
  { rewrite E. cbn [Cx cmul cadd csub ci Cmul Cadd Csub Ci fst snd pow]. rewrite minus_IZR, <- !INR_IZR_INZ. field. }
  revert E1 E2. generalize (Z.of_nat a - Z.of_nat a')%Z (Z.of_nat b - Z.of_nat b')%Z. clear E. intros u v E1 E2.
  change (Csmall x = true) in S. unfold Csmall in S. destruct (Rle_dec _ _) as [l|]; [|discriminate]. rewrite E1, E2 in l.
  assert (P : (/ 10 ^ 24 < / 10000000000000)%R).
  { apply Rinv_lt_contravar; [apply Rmult_lt_0_compat; [lra|apply pow_lt; lra]|]. cbn [pow]. lra. }
  pose proof (Rle_0_sqr (IZR u)) as Hu. pose proof (Rle_0_sqr (IZR v)) as Hv. unfold Rsqr in *.
  assert (u = 0%Z) by (apply int_small; lra). assert (v = 0%Z) by (apply int_small; lra). subst u v.
  apply C_eq; [rewrite E1|rewrite E2]; cbn [Cx c0 C0 fst snd]; field.
Qed.

(** The step with the default settings: cutoff 1e-10 on the array, relative threshold 1/10. *)
Definition keep_ex (x : Cx) : bool := if Rle_dec (/ 10 ^ 10) (cabs x) then true else false.
Lemma keep_ex_opp x : keep_ex (copp x) = keep_ex x.
Proof. unfold keep_ex. assert (E : cabs (copp x) = cabs x); [|now rewrite E]. unfold cabs. f_equal. destruct x as [a b]. cbn [Cx copp Copp fst snd]. ring. Qed.
Definition eps_ex : R := (/ 65536)%R.
Lemma pow16 : @cpow Cx chalf 16 = ((/ 65536, 0)%R : Cx).
Proof. rewrite cx_half. apply C_eq; cbn [fst snd pow]; lra. Qed.
Section Ex.
  Variables (gs : list (gate Cx)) (z : Z).
  Hypothesis E : acse_circuit 4 [0; 1] [] = Some gs.
  Hypothesis F : forall x, length x = 4 -> prepared Crt 4 gs x = if bits_eqb x dd then ipow z else c0.
  Notation A := (residual_of 4 Kx (prepared Crt 4 gs)).
  Notation o := (oper 4 A keep_ex).
  Notation T := (truncate_rel (/ 10) o).
  Lemma in_T X c : In (X, c) T -> length X = 4 /\ (c = ((8, 0)%R : Cx) \/ c = ((-8, 0)%R : Cx)).
  Proof.
    rewrite (truncate_filter (/ 10) o (oper_NoDup 4 A keep_ex)). intro I. apply filter_In in I. destruct I as [I _].
    pose proof (A_sw1 4 Kx _ A Kx_sym (fun _ _ _ _ _ _ _ _ => eq_refl)) as S1. pose proof (A_sw2 4 Kx _ A Kx_sym (fun _ _ _ _ _ _ _ _ => eq_refl)) as S2.
    destruct (oper_In 4 A keep_ex keep_ex_opp S1 S2 X c I) as [i [k [j [l [Hi [Hk [Hj [Hl [On [EX ->]]]]]]]]]].
    destruct (sent_spec 4 A keep_ex S1 S2 i k j l Hi Hk Hj Hl On) as [s [u [_ [E1 [L [P _]]]]]]. pose proof (on_ne A keep_ex i k j l On) as NZ. rewrite E1 in *. cbn [fst snd] in *. subst X. split; [exact L|].
    destruct (residual_values _ z F) as [RV _]. destruct (RV i k j l Hi Hk Hj Hl) as [V|[V|V]]; [contradiction| |]; rewrite V; destruct P as [-> | ->];
      [right|left|left|right]; apply C_eq; cbn [Cx cmul cadd copp c1 Cmul Cadd Copp C1 fst snd]; lra.
  Qed.
  Lemma in_step e : In e (euler_operator eps_ex T) -> length (fst e) = 4 /\ (snd e = cmul (cpow chalf 16) (of_nat 8) \/ snd e = copp (cmul (cpow chalf 16) (of_nat 8))).
  Proof.
    intro I. unfold euler_operator in I. apply in_map_iff in I. destruct I as [[X c] [<- I]]. destruct (in_T X c I) as [L C]. cbn [fst snd]. split; [exact L|]. rewrite pow16, cx_nat. unfold eps_ex.
    destruct C as [-> | ->]; [right|left]; apply C_eq; cbn [Cx cmul copp Cmul Copp fst snd INR]; lra.
  Qed.
  Lemma step_dyadic e : In e (euler_operator eps_ex T) -> dyadic 16 (snd e) /\ small (snd e) = false.
  Proof.
    intro I. destruct (in_step e I) as [_ C].
    assert (D : dyadic 16 (cmul (cpow chalf 16) (of_nat 8) : Cx)) by (exists 8, 0, 0, 0; cbn [of_nat]; ring).
    split; [destruct C as [-> | ->]; [exact D|now apply dyadic_opp]|].
    destruct (small (snd e)) eqn:S; [|reflexivity]. exfalso. assert (D20 : dyadic 20 (snd e)) by (apply (dyadic_le Cx 16 20); [lia|destruct C as [-> | ->]; [exact D|now apply dyadic_opp]]).
    pose proof (cx_exact20 _ D20 S) as Z0. rewrite pow16, cx_nat in C. destruct C as [C|C]; rewrite Z0 in C; apply (f_equal fst) in C; cbn [Cx c0 C0 cmul copp Cmul Copp fst snd INR] in C; lra.
  Qed.
  Lemma step_jw : meq 4 (omat (jw_operator (euler_operator eps_ex T))) (fmat (euler_operator eps_ex T)).
  Proof.
    destruct (PlanProofs.jw_operator_exact Cx 20 cx_exact20 4 (euler_operator eps_ex T) 16) as [M _].
    - intros e I. destruct (in_step e I) as [L _]. destruct (step_dyadic e I) as [D _]. split; [exact L|]. split; [exact D|].
      assert (Q : forall i s, length (flat i s) <= length s). { intros i s. revert i. induction s as [|[x|] s IH]; intro i; cbn [flat length]; [lia| |]; specialize (IH (S i)); lia. }
      unfold JWProofs.count_ops. specialize (Q 0 (fst e)). rewrite L in Q. lia.
    - intros r c Lr Lc. rewrite (M r c Lr Lc). unfold RdmSpec.fop_mat. apply HamProofs5.fmat_sumK.
  Qed.
  Lemma step_length : length T <= 256.
  Proof.
    rewrite (truncate_filter (/ 10) o (oper_NoDup 4 A keep_ex)).
    assert (LF : forall {X} (f : X -> bool) l, length (filter f l) <= length l) by (intros X f l; induction l as [|x l IH]; cbn [filter length]; [lia|destruct (f x); cbn [length]; lia]).
    eapply Nat.le_trans; [apply LF|]. unfold oper. eapply Nat.le_trans; [apply (length_fold_add Cx fstr fstr_eqb (strings 4 A keep_ex) [])|]. cbn [length]. unfold strings. rewrite map_length. unfold entries, nonzeros. 
    eapply Nat.le_trans; [apply Nat.add_le_mono; [apply Nat.le_refl|eapply Nat.le_trans; [apply LF|apply LF]]|]. cbn [seq flat_map map app length]. lia.
  Qed.
  Lemma step_nonzero : exists i k j l, i < 4 /\ k < 4 /\ j < 4 /\ l < 4 /\ A i k j l <> c0 /\ keep_ex (A i k j l) = true.
  Proof.
    exists 0, 1, 2, 3. destruct (residual_values _ z F) as [_ V]. rewrite V. repeat split; try lia.
    - intro Z0. apply (f_equal fst) in Z0. cbn [Cx c0 C0 fst] in Z0. lra.
    - unfold keep_ex, cabs. cbn [fst snd]. destruct (Rle_dec _ _) as [_|n]; [reflexivity|]. exfalso. apply n. replace (2 * 2 + 0 * 0)%R with (Rsqr 2) by (unfold Rsqr; ring). rewrite sqrt_Rsqr by lra.
      apply Rle_trans with 1%R; [|lra]. rewrite <- Rinv_1. apply Rinv_le_contravar; [lra|]. cbn [pow]. lra.
  Qed.
  Lemma step_small : (32 * size4 4 Kx * INR (length T) * eps_ex < 1)%R.
  Proof.
    rewrite Kx_size. unfold eps_ex. pose proof (le_INR _ _ step_length) as H. replace (INR 256) with 256%R in H by (rewrite INR_IZR_INZ; reflexivity). lra.
  Qed.
End Ex.
