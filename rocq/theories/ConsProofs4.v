(** A number-conserving operator whose circuit does not conserve the number of particles. *)
From Coq Require Import Bool List Arith Reals Lra Lia Ring.
From Verif Require Import Coeff MatSpec MatLemmas OpSpec CircuitSpec CircuitModel CircuitProofs CircuitProofs2 ComplexR QuantSpec QuantProofs QuantProofs2 RdmSpec
  ConsSpec ConsModel ConsProofs ConsProofs3.
Import ListNotations.
Local Open Scope R_scope.

Definition th : R := Rtrigo1.PI / 4.
Definition mixed : list (list pauli * Cx) :=
  [([PX; PY; PI], (0, th)); ([PI; PX; PY], (0, th)); ([PI; PY; PX], (0, - th)); ([PY; PX; PI], (0, - th))].
Lemma mixed_sum : conserves 3 popcount (omat mixed).
Proof.
  intros r c Lr Lc. destruct r as [|r1 [|r2 [|r3 [|]]]]; try discriminate. destruct c as [|c1 [|c2 [|c3 [|]]]]; try discriminate.
  destruct r1, r2, r3, c1, c2, c3; intro H; try reflexivity; exfalso; apply H; apply C_eq; cbn; ring.
Qed.
Lemma th_big : below14 th = false /\ below14 (- th) = false.
Proof.
  assert (P : / 10 ^ 14 < th).
  { unfold th. pose proof PI2_3_2 as H. apply Rlt_trans with (/ 4); [|lra]. apply Rinv_lt_contravar; [apply Rmult_lt_0_compat; [lra|apply pow_lt; lra]|]. cbn [pow]. lra. }
  assert (Q : 0 < / 10 ^ 14) by (apply Rinv_0_lt_compat, pow_lt; lra).
  unfold below14. rewrite Rabs_Ropp, Rabs_pos_eq by lra. destruct (Rlt_dec th (/ 10 ^ 14)); [lra|]. auto.
Qed.
Definition rot (x : R) (s : list pauli) : mat Cx := madd (mscal ((cos x, 0) : Cx) mone) (mscal ((0, sin x) : Cx) (pmat s)).
Lemma item_rot x s : existsb (fun p => negb (pauli_eqb p PI)) s = true -> meq (length s) (exp_item (chalf_angle (x, 0)) s) (rot x s).
Proof.
  intros E r c _ _. unfold exp_item, rot. rewrite E. unfold madd, mscal. rewrite cos_of_half, sin_of_half. cbn [fst]. apply C_eq; cbn; ring.
Qed.
Definition tab (v : list Cx) : bits -> Cx := fun r => nth (match r with
  | [a; b; c] => (if a then 4 else 0) + (if b then 2 else 0) + (if c then 1 else 0) | _ => 8 end)%nat v c0.
Definition all3 : list bits := [[false;false;false];[false;false;true];[false;true;false];[false;true;true];[true;false;false];[true;false;true];[true;true;false];[true;true;true]].
Lemma step3 x s (v w : list Cx) : (forall r, In r all3 -> mvec 3 (rot x s) (tab v) r = tab w r) -> forall r, length r = 3%nat -> mvec 3 (rot x s) (tab v) r = tab w r.
Proof. intros H r L. apply H. destruct r as [|[] [|[] [|[] [|]]]]; try discriminate; cbn; tauto. Qed.
Section Col.
  Let c := cos th. Let s := sin th.
  Let r (x : R) : Cx := (x, 0).
  Let v0 := [r 0; r 1; r 0; r 0; r 0; r 0; r 0; r 0].
  Let v1 := [r 0; r c; r 0; r 0; r 0; r 0; r 0; r (- s)].
  Let v2 := [r 0; r (c * c); r (c * s); r 0; r (- (s * s)); r 0; r 0; r (- (c * s))].
  Let v3 := [r 0; r (c * c * c - c * s * s); r (2 * c * c * s); r 0; r 0; r 0; r 0; r (- (c * c * s) - s * s * s)].
  Ltac go := apply step3; intros x I; cbn [all3 In] in I; repeat (destruct I as [<-|I]; [cbn; rewrite ?cos_neg, ?sin_neg; fold c; fold s; apply C_eq; cbn; ring|]); destruct I.
  Lemma col1 : forall x, length x = 3%nat -> mvec 3 (rot th [PX; PY; PI]) (tab v0) x = tab v1 x. Proof. go. Qed.
  Lemma col2 : forall x, length x = 3%nat -> mvec 3 (rot th [PI; PX; PY]) (tab v1) x = tab v2 x. Proof. go. Qed.
  Lemma col3 : forall x, length x = 3%nat -> mvec 3 (rot (- th) [PI; PY; PX]) (tab v2) x = tab v3 x. Proof. go. Qed.
  Lemma col4 : mvec 3 (rot (- th) [PY; PX; PI]) (tab v3) [true; true; true] = r (- (2 * c * s * (s * s))).
  Proof.
    cbn. rewrite cos_neg, sin_neg. fold c s. pose proof (sin2_cos2 th) as H. unfold Rsqr in H. fold c s in H.
    assert (E : c * c = 1 - s * s) by lra. apply C_eq; cbn; [|ring].
    transitivity (- (c * s * (c * c + s * s)) + s * c * (c * c - s * s)); [ring|]. rewrite E. ring.
  Qed.
End Col.
Lemma mvec_ext N (A : mat Cx) f g x : (forall y, length y = N -> f y = g y) -> mvec N A f x = mvec N A g x.
Proof. intro H. unfold mvec. apply sumbits_ext. intros y Ly. now rewrite H. Qed.
Theorem order_matters : exists gs, ansatz_gates 1 mixed = Some gs /\ NoDup (map fst mixed) /\ (forall e, In e mixed -> length (fst e) = 3%nat /\ cconj (snd e) = copp (snd e)) /\
  conserves 3 popcount (omat mixed) /\ ~ conserves 3 popcount (cmat Crt 3 gs).
Proof.
  destruct th_big as [B1 B2].
  assert (HM : forall e, In e mixed -> length (fst e) = 3%nat /\ cconj (snd e) = copp (snd e)).
  { intros e I. repeat (destruct I as [<-|I]; [split; [reflexivity|apply C_eq; cbn; ring]|]). destruct I. }
  exists (gadgets [(th, [PX; PY; PI]); (th, [PI; PX; PY]); (- th, [PI; PY; PX]); (- th, [PY; PX; PI])] 1).
  split; [|split; [|split; [exact HM|split; [exact mixed_sum|]]]].
  - rewrite gadgets_of; [|intros e I; apply HM; exact I|lia]. cbn [INR]. rewrite Rinv_1. unfold kept, mixed. cbn [flat_map fst snd]. rewrite B1, B2. reflexivity.
  - cbn [mixed map fst]. repeat constructor; cbn; intuition discriminate.
  - intro H. assert (X : popcount [true; true; true] = popcount [false; false; true]); [|discriminate X].
    apply (H [true; true; true] [false; false; true] eq_refl eq_refl). clear H.
    match goal with |- cmat Crt 3 (gadgets ?l 1) _ _ <> _ => pose proof (gadgets_flow 3 l 1) as G; set (gl := l) in * end.
    assert (L : forall w s, In (w, s) gl -> length s = 3%nat) by (intros w s I; cbn in I; repeat (destruct I as [I|I]; [injection I as _ <-; reflexivity|]); destruct I).
    rewrite (un _ _ _ (G L) [true; true; true] [false; false; true] eq_refl eq_refl). unfold flow, gl, rated. cbn [map fst snd exp_seq].
    rewrite !Rmult_1_r.
    set (v0 := [((0, 0) : Cx); (1, 0); (0, 0); (0, 0); (0, 0); (0, 0); (0, 0); (0, 0)]).
    assert (E : forall (A : mat Cx) x, A x [false; false; true] = mvec 3 A (tab v0) x).
    { intros A x. unfold mvec. cbn. apply C_eq; cbn; ring. }
    rewrite E.
    assert (MV : forall A B D F : mat Cx, mvec 3 (mmul 3 (mmul 3 (mmul 3 (mmul 3 mone A) B) D) F) (tab v0) [true; true; true] = mvec 3 A (mvec 3 B (mvec 3 D (mvec 3 F (tab v0)))) [true; true; true]).
    { intros A B D F. rewrite !mvec_mmul. transitivity (mvec 3 (mmul 3 mone A) (mvec 3 B (mvec 3 D (mvec 3 F (tab v0)))) [true; true; true]); [rewrite mvec_mmul; reflexivity|].
      apply mvec_meq; [apply mmul_one_l|reflexivity]. }
    rewrite MV. clear MV E.
    assert (IR : forall x s f y, existsb (fun p => negb (pauli_eqb p PI)) s = true -> length s = 3%nat -> length y = 3%nat -> mvec 3 (exp_item (chalf_angle (x, 0)) s) f y = mvec 3 (rot x s) f y).
    { intros x s f y Es Ls Ly. apply mvec_meq; [|exact Ly]. rewrite <- Ls. apply item_rot. exact Es. }
    rewrite IR by reflexivity.
    assert (S1 := fun z Lz => eq_trans (IR th [PX; PY; PI] (tab v0) z eq_refl eq_refl Lz) (col1 z Lz)).
    rewrite (mvec_ext 3 _ _ _ [true; true; true] (fun y Ly => mvec_ext 3 _ _ _ y (fun z Lz => mvec_ext 3 _ _ _ z S1))).
    assert (S2 := fun z Lz => eq_trans (IR th [PI; PX; PY] _ z eq_refl eq_refl Lz) (col2 z Lz)).
    rewrite (mvec_ext 3 _ _ _ [true; true; true] (fun y Ly => mvec_ext 3 _ _ _ y S2)).
    assert (S3 := fun z Lz => eq_trans (IR (- th) [PI; PY; PX] _ z eq_refl eq_refl Lz) (col3 z Lz)).
    rewrite (mvec_ext 3 _ _ _ [true; true; true] S3).
    rewrite col4. intro Z. apply (f_equal fst) in Z. cbn [Cx c0 C0 fst] in Z. unfold th in Z. rewrite cos_PI4, sin_PI4 in Z.
    assert (Q : 0 < 1 / sqrt 2) by (apply Rdiv_lt_0_compat; [lra|apply Rlt_sqrt2_0]). set (k := 1 / sqrt 2) in *. clearbody k. 
    assert (0 < k * k) by (apply Rmult_lt_0_compat; exact Q). assert (0 < (k * k) * (k * k)) by (apply Rmult_lt_0_compat; assumption). nra.
Qed.
