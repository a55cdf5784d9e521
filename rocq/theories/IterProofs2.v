(** The run of the ACSE solver: one turn. *)
From Coq Require Import Bool List Arith ZArith Reals Lra Lia Ring Permutation Sorted.
From Verif Require Import Coeff ComplexR MatSpec MatLemmas AdjProofs FockSpec OpSpec OpTotal OperatorModel OperatorProofs FermiModel FermiProofs TransformModel
  CircuitSpec CircuitModel CircuitProofs CircuitProofs2 HamModel HamSpec InvModel InvSpec InvProofs RdmSpec RdmModel RdmProofs RdmFock TomoModel TomoProofs PlanModel PlanProofs2 PlanProofs3 PlanProofs5
  QuantSpec StoreModel StoreProofs InitProofs ResSpec ResModel ResProofs ResProofs3 VqeSpec ConsSpec ConsModel ConsProofs3 EulerSpec AcseModel EulerModel EulerProofs2 EulerProofs3 EulerProofs4
  ShapeSpec LayerSpec LayerProofs LayerProofs2 LayerProofs3 LayerProofs4 PauliModel PlanSpec IterModel IterSpec IterProofs.
Import ListNotations.
Local Open Scope R_scope.
Add Ring CxRingI2 : (c_ring Cx).

Lemma proper_sized simp : proper simp -> sized simp.
Proof. destruct simp as [rel colour|]; [|easy]. intros [_ H] ps. exact (proj1 (H ps)). Qed.

(** Sums over the entries of an array. *)
Lemma fold_app {A} (f : A -> R) l1 l2 : fold_right (fun e s => f e + s) 0 (l1 ++ l2) = fold_right (fun e s => f e + s) 0 l1 + fold_right (fun e s => f e + s) 0 l2.
Proof. induction l1 as [|a l IH]; cbn [app fold_right]; [ring|]. rewrite IH. ring. Qed.
Lemma fold_flat {A} (f : A -> R) (g : nat -> list A) l : fold_right (fun e s => f e + s) 0 (flat_map g l) = fold_right (fun i s => fold_right (fun e s => f e + s) 0 (g i) + s) 0 l.
Proof. induction l as [|a l IH]; [reflexivity|]. cbn [flat_map]. rewrite fold_app, IH. reflexivity. Qed.
Lemma fold_map {A} (f : A -> R) (g : nat -> A) l : fold_right (fun e s => f e + s) 0 (map g l) = fold_right (fun i s => f (g i) + s) 0 l.
Proof. induction l as [|a l IH]; [reflexivity|]. cbn [map fold_right]. now rewrite IH. Qed.
Lemma fold_filter0 {A} (f : A -> R) (b : A -> bool) l : (forall e, b e = false -> f e = 0) -> fold_right (fun e s => f e + s) 0 (filter b l) = fold_right (fun e s => f e + s) 0 l.
Proof. intro H. induction l as [|a l IH]; [reflexivity|]. cbn [filter fold_right]. destruct (b a) eqn:E; cbn [fold_right]; rewrite IH; [reflexivity|]. rewrite (H a E). ring. Qed.
Lemma fold_ext_in {A} (f g : A -> R) l : (forall e, In e l -> f e = g e) -> fold_right (fun e s => f e + s) 0 l = fold_right (fun e s => g e + s) 0 l.
Proof. intro H. induction l as [|a l IH]; [reflexivity|]. cbn [fold_right]. rewrite (H a (or_introl eq_refl)), IH; [reflexivity|]. intros; apply H; now right. Qed.
Lemma cabs_square (x : Cx) : cabs x * cabs x = fst x * fst x + snd x * snd x.
Proof. unfold cabs. apply sqrt_sqrt. nra. Qed.
Lemma nonzeros_sum d (A : nat -> nat -> nat -> nat -> Cx) :
  fold_right (fun e s => cabs (snd e) * cabs (snd e) + s) 0 (nonzeros d A) = rsum d (fun i => rsum d (fun k => rsum d (fun j => rsum d (fun l => fst (A i k j l) * fst (A i k j l) + snd (A i k j l) * snd (A i k j l))))).
Proof.
  unfold nonzeros. rewrite (fold_filter0 (fun e : nat * nat * nat * nat * Cx => cabs (snd e) * cabs (snd e))).
  - unfold rsum. rewrite fold_flat. apply fold_ext_in. intros i _. rewrite fold_flat. apply fold_ext_in. intros k _. rewrite fold_flat. apply fold_ext_in. intros j _. rewrite fold_map. apply fold_ext_in. intros l _. cbn [snd]. apply cabs_square.
  - intros [? x] H. cbn [snd] in *. apply negb_false_iff in H. apply (ceqb_spec Cx) in H. subst x. rewrite cabs_square. cbn [Cx c0 C0 fst snd]. ring.
Qed.
Lemma rsum_ext_in n f g : (forall i, (i < n)%nat -> f i = g i) -> rsum n f = rsum n g.
Proof. intro H. unfold rsum. apply fold_ext_in. intros i I. apply in_seq in I. apply H. lia. Qed.

Lemma frobenius_residual c A psi : (forall i k j l, (i < 2 * rc_N c)%nat -> (k < 2 * rc_N c)%nat -> (j < 2 * rc_N c)%nat -> (l < 2 * rc_N c)%nat -> A i k j l = residual_of (2 * rc_N c) (rc_K2 c) psi i k j l) ->
  / 2 * frobenius c A = residual_norm (2 * rc_N c) (rc_K2 c) psi.
Proof.
  intro H. unfold frobenius, residual_norm. rewrite nonzeros_sum. do 2 f_equal. set (r := (2 * rc_N c)%nat) in *.
  apply rsum_ext_in. intros i Hi. apply rsum_ext_in. intros k Hk. apply rsum_ext_in. intros j Hj. apply rsum_ext_in. intros l Hl. rewrite (H i k j l Hi Hk Hj Hl).
  pose proof (f_equal snd (residual_real Cx r (rc_K2 c) psi i k j l)) as RR. destruct (residual_of r (rc_K2 c) psi i k j l) as [x y]. cbn [Cx cconj Cconj fst snd] in *. assert (y = 0) by lra. subst y. ring.
Qed.

Section Turn.
  Variable c : run_cfg.
  Hypothesis U : usable c.
  Notation r := (2 * rc_N c)%nat.
  Notation ok := (fun L => layer_ok r (fun _ => true) L /\ layer_ok r (fun k => existsb (Nat.eqb k) (seq 0 (rc_N c))) L).
  Notation state gs := (prepared Crt r gs).
  Definition good_state (layers : list cfop) gs : Prop := run_circuit c layers = Some gs /\ (forall g, In g gs -> valid r g) /\ norm2 r (state gs) = c1 /\
    has_particles r (rc_a c + rc_b c) (state gs) /\ has_up r (rc_N c) (rc_a c) (state gs).
  Lemma state_of layers : (forall L, In L layers -> ok L) -> exists gs, good_state layers gs.
  Proof.
    intro H. destruct (acse_state (rc_N c) (rc_a c) (rc_b c) layers (us_a c U) (us_b c U) H) as [occ [gs [E [_ [_ [EC [V [Nm [HU HP]]]]]]]]].
    exists gs. unfold good_state, run_circuit. rewrite E. auto.
  Qed.
  Lemma measured_rdm layers gs simp imag p : good_state layers gs -> proper simp -> (2 <= p <= 3)%nat ->
    exists t, measured c simp imag p layers = Some t /\ forall x y, length x = p -> length y = p -> Forall (fun i => (i < r)%nat) x -> Forall (fun i => (i < r)%nat) y ->
      t (x ++ y) = part true imag (rdm_of r (state gs) x y).
  Proof.
    intros [EC [V [Nm [HP HU]]]] PR Hp. unfold measured. rewrite EC.
    destruct (tomography_returns Cx Crt Crt_sq crt_real (rc_tiny c) (us_tiny c U) cx_exact simp p true imag (rc_N c) gs Hp eq_refl PR) as [t Et].
    exists t. split; [exact Et|]. exact (tomography_rdm Cx Crt Crt_sq crt_real (rc_tiny c) (us_tiny c U) cx_exact simp p true imag (rc_N c) (rc_a c) gs t ltac:(lia) eq_refl (proper_sized _ PR) Nm HU Et).
  Qed.
  Lemma measured_energy layers gs simp imag : good_state layers gs -> proper simp -> exists t, measured c simp imag 2 layers = Some t /\ energy_of c t = energy_at c (state gs).
  Proof.
    intros G PR. destruct (measured_rdm layers gs simp imag 2 G PR ltac:(lia)) as [t [E H]]. exists t. split; [exact E|]. exact (energy_part c imag t (state gs) (us_sym c U) H).
  Qed.
  Lemma get_A_spec layers gs : good_state layers gs ->
    exists o, residual_operator (rc_keep c) r r (residual_of r (rc_K2 c) (state gs)) = Some o /\ get_A c layers = Some (truncate_rel (rc_rel c) o, residual_norm r (rc_K2 c) (state gs)).
  Proof.
    intros G. assert (Hp : (2 <= rc_p c <= 3)%nat) by (destruct (us_order c U) as [[-> _]|[-> _]]; lia).
    destruct (measured_rdm layers gs (rc_simpA c) (rc_imagA c) (rc_p c) G (us_simpA c U) Hp) as [t [E H]]. destruct G as [EC [V [Nm [HP HU]]]].
    destruct (class_residual_re Cx r (rc_a c + rc_b c) (rc_p c) (rc_w c) (run_alpha c ++ run_beta c) t (rc_K2 c) (state gs)) as [A [EA HA]].
    - apply (groups_perm Default). now left.
    - exact (us_sym c U).
    - exact HP.
    - exact (us_order c U).
    - intros x y Lx Ly Fx Fy. rewrite (H x y Lx Ly Fx Fy). apply re_part.
    - destruct (truncated_residual r (rc_K2 c) (residual_of r (rc_K2 c) (state gs)) (state gs) (rc_keep c) (rc_rel c) (us_sym c U) (us_keep c U) (fun _ _ _ _ _ _ _ _ => eq_refl)) as [o [EO _]].
      exists o. split; [exact EO|]. unfold get_A. rewrite E, EA, (residual_operator_ext Cx (rc_keep c) r r A _ HA), EO. cbn [option_map]. now rewrite (frobenius_residual c A (state gs) HA).
  Qed.
  (** The reference energy. *)
  Lemma hf_energy : exists gs, good_state [] gs /\ run_e0 c = energy_at c (state gs).
  Proof.
    destruct (state_of []) as [gs G]; [intros L []|]. exists gs. split; [exact G|].
    destruct (reference Default (rc_N c) (rc_a c) (rc_b c) (or_introl eq_refl) (us_a c U) (us_b c U)) as [occ [E [ND [LT _]]]].
    destruct (acse_initial r occ ND LT) as [gs' [z [EC PS]]]. destruct G as [E' _]. unfold run_circuit in E'. rewrite E, EC in E'. injection E' as ->.
    rewrite qs_initial_spec in E. destruct (_ && _) in E; [|discriminate]. injection E as Eo. unfold run_e0.
    rewrite (energy_part c true (build_hf 2 (rc_a c) (rc_b c) (run_alpha c) (run_beta c)) (@basis_vec Cx (det_state r occ)) (us_sym c U)).
    - unfold energy_at. f_equal. rewrite (expect_det1 r _ (state gs) (det_state r occ) z (det_state_length r occ) PS). f_equal.
      apply (expect_det1 r _ _ (det_state r occ) 0%Z (det_state_length r occ)). intros x Lx. unfold basis_vec. rewrite bits_eqb_sym. reflexivity.
    - intros x y Lx Ly _ _. cbn [part]. rewrite (hf_is_determinant Cx 2 (rc_a c) (rc_b c) (run_alpha c) (run_beta c) r x y); [rewrite <- Eo; reflexivity|lia| |exact Lx|exact Ly].
      intros k I. apply LT. rewrite <- Eo. exact I.
  Qed.
  (** One step lowers the energy by at least a part of the squared residual. *)
  Lemma truncated_sq eps T : T <> [] -> regular (euler_operator eps T) -> 0 < sq T.
  Proof.
    intros NE [RK _]. assert (P : forall l : cfop, 0 <= sq l) by (induction l as [|e l IH]; cbn [sq fold_right]; [lra|]; fold (sq l); nra).
    destruct T as [|[X [x y]] l]; [contradiction|]. pose proof (keepable_not_small Cx _ RK _ (or_introl eq_refl)) as NS. cbn [fst snd] in NS. cbn [sq fold_right fst snd]. fold (sq l). specialize (P l).
    destruct (Req_dec x 0) as [-> |Hx]; [destruct (Req_dec y 0) as [-> |Hy]|]; [|assert (0 < y * y) by nra; nra|assert (0 < x * x) by nra; nra].
    exfalso. replace (cmul ((0, 0) : Cx) ((- (1) * eps, 0) : Cx)) with (c0 : Cx) in NS by (apply C_eq; cbn [Cx cmul c0 Cmul C0 fst snd]; ring). rewrite (small_0 Cx) in NS. discriminate.
  Qed.
  Lemma ans_add_layers layers (P : cfop) : (forall L, In L (layers ++ [P]) -> not_small L) -> forall L, In L (ans_add fstr_eqb 1 layers P) -> In L (layers ++ [P]).
  Proof.
    intros H L. unfold ans_add. destruct layers as [|a l]; [easy|]. cbn [Z.eqb Pos.eqb]. unfold ans_clean. intro I. apply filter_In in I. destruct I as [I _]. apply in_map_iff in I. destruct I as [Q [<- I]].
    rewrite (clean_id Cx fstr Q (H Q I)). exact I.
  Qed.
  Lemma turn layers gs o T : good_state layers gs -> (forall L, In L layers -> ok L) -> residual_operator (rc_keep c) r r (residual_of r (rc_K2 c) (state gs)) = Some o -> T = truncate_rel (rc_rel c) o ->
    regular (euler_operator (rc_eps c) T) ->
    let layers' := ans_add fstr_eqb 1 layers (euler_operator (rc_eps c) T) in
    (forall L, In L layers' -> ok L) /\ exists gs', good_state layers' gs' /\
      energy_at c (state gs') <= energy_at c (state gs) - rc_eps c * (sq T / 4) * (1 - 32 * size4 r (rc_K2 c) * INR (length T) * rc_eps c).
  Proof.
    intros G HL EO -> RG layers'. destruct G as [EC [V [Nm [HP HU]]]]. set (T := truncate_rel (rc_rel c) o) in *. set (P := euler_operator (rc_eps c) T) in *.
    destruct RG as [R1 [R2 R3]]. destruct (residual_layer (rc_N c) (rc_a c) (rc_K2 c) _ (state gs) (rc_keep c) (rc_rel c) (rc_eps c) o (us_sym c U) (us_keep c U) (fun _ _ _ _ _ _ _ _ => eq_refl) HU (us_spin c U) EO R1 R2 R3) as [G1 G2].
    assert (OKP : forall L, In L (layers ++ [P]) -> ok L) by (intros L I; apply in_app_or in I; destruct I as [I|[<-|[]]]; [now apply HL|split; [exact G1|exact G2]]).
    assert (NS : forall L, In L (layers ++ [P]) -> not_small L) by (intros L I; exact (keepable_not_small Cx _ (lo_keep _ _ _ (proj1 (OKP L I))))).
    assert (OK' : forall L, In L layers' -> ok L) by (intros L I; apply OKP, (ans_add_layers _ _ NS), I). split; [exact OK'|].
    destruct (state_of layers' OK') as [gs' G']. exists gs'. split; [exact G'|]. destruct G' as [EC' _].
    unfold run_circuit in EC, EC'. destruct (qs_initial Default (rc_N c) (rc_a c) (rc_b c)) as [occ|] eqn:EQ; [|discriminate].
    destruct (reference Default (rc_N c) (rc_a c) (rc_b c) (or_introl eq_refl) (us_a c U) (us_b c U)) as [occ' [EQ' [ND [LT _]]]]. rewrite EQ in EQ'. injection EQ' as <-.
    assert (SL : sized_layers r layers) by (intros Q e IQ Ie; exact (lo_size _ _ _ (proj1 (HL Q IQ)) e Ie)).
    destruct (euler_energy r (rc_K2 c) (residual_of r (rc_K2 c) (state gs)) occ layers (rc_keep c) (rc_rel c) (rc_eps c) gs (us_sym c U) (us_keep c U) LT SL (fun L I => NS L (in_or_app _ _ _ (or_introl I))) EC (fun _ _ _ _ _ _ _ _ => eq_refl)) as [o' [EO' [B _]]].
    rewrite EO in EO'. injection EO' as <-. fold T in B. destruct (B (NS P (in_elt P layers [])) (lo_exact _ _ _ G1)) as [gs2 [E2 D]].
    unfold euler_step in E2. cbn [snd] in E2. fold P layers' in E2. rewrite EC' in E2. injection E2 as <-.
    pose proof (wt_sq T) as W. match type of D with Rabs ?x <= _ => pose proof (Rle_abs x) as D1 end.
    assert (S0 : 0 <= size4 r (rc_K2 c)). { pose proof (two_body_within r (rc_K2 c) (proj1 (us_sym c U)) (state gs) Nm). lra. }
    unfold energy_at. set (n := INR (length T)) in *. set (S := size4 r (rc_K2 c)) in *. pose proof (us_eps c U) as PE. set (eps := rc_eps c) in *.
    assert (D2 : 4 * S * (eps * eps) * (wt T * wt T) <= 4 * S * (eps * eps) * (2 * n * sq T)) by (apply Rmult_le_compat_l; [nra|exact W]).
    replace (4 * S * (eps * eps) * (2 * n * sq T)) with (eps * (sq T / 4) * (32 * S * n * eps)) in D2 by field. lra.
  Qed.
End Turn.
