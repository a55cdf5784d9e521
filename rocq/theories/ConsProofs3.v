(** Circuits of commuting blocks, and of the unitary coupled cluster ansatz, conserve the particle numbers. *)
From Coq Require Import Bool List Arith Reals Lra Lia Ring.
From Verif Require Import Coeff MatSpec MatLemmas AdjProofs OpSpec FockSpec CircuitSpec CircuitModel CircuitProofs CircuitProofs2 ComplexR PauliModel OperatorModel
  QuantSpec QuantProofs QuantProofs2 RdmSpec RdmFock VqeModel VqeSpec VqeProofs3 VqeProofs4 StoreModel StoreSpec StoreProofs InitProofs HamModel HamSpec TransformModel PlanModel PlanSpec PlanProofs3 PlanProofs5
  ConsSpec ConsModel ConsProofs ConsProofs2.
Import ListNotations.
Local Open Scope R_scope.
Add Ring CxRing3 : (c_ring Cx).

Lemma INR_C_inj a b (x : Cx) : cmul ((INR a, 0) : Cx) x = cmul ((INR b, 0) : Cx) x -> x <> c0 -> a = b.
Proof.
  intros H X. destruct (Nat.eq_dec a b) as [E|E]; [exact E|]. exfalso. apply X.
  assert (D : INR a - INR b <> 0) by (intro Z; apply E, INR_eq; lra).
  pose proof (f_equal fst H) as H1. pose proof (f_equal snd H) as H2. cbn [Cx cmul Cmul fst snd] in H1, H2.
  apply C_eq; cbn [Cx c0 C0 fst snd]; apply (Rmult_eq_reg_l (INR a - INR b)); try exact D; lra.
Qed.
Section Diag.
  Variables (N : nat) (f : bits -> nat).
  Definition diag : mat Cx := fun r c => if bits_eqb r c then (INR (f c), 0) else c0.
  Lemma diag_l (A : mat Cx) r c : length r = N -> mmul N diag A r c = cmul ((INR (f r), 0) : Cx) (A r c).
  Proof.
    intro L. unfold mmul, diag. transitivity (sumbits N (fun m => if bits_eqb m r then cmul ((INR (f m), 0) : Cx) (A m c) else c0)).
    - apply sumbits_ext. intros m _. rewrite (bits_eqb_sym r m). destruct (bits_eqb m r); ring.
    - apply (sumbits_pick Cx N r (fun m => cmul ((INR (f m), 0) : Cx) (A m c)) L).
  Qed.
  Lemma diag_r (A : mat Cx) r c : length c = N -> mmul N A diag r c = cmul ((INR (f c), 0) : Cx) (A r c).
  Proof.
    intro L. unfold mmul, diag. transitivity (sumbits N (fun m => if bits_eqb m c then cmul ((INR (f m), 0) : Cx) (A r m) else c0)).
    - apply sumbits_ext. intros m _. destruct (bits_eqb m c) eqn:E; [|ring]. apply bits_eqb_spec in E. subst m. ring.
    - apply (sumbits_pick Cx N c (fun m => cmul ((INR (f m), 0) : Cx) (A r m)) L).
  Qed.
  Lemma conserves_commutes (A : mat Cx) : conserves N f A <-> commutes N diag A.
  Proof.
    split.
    - intro H. constructor. intros r c Lr Lc. rewrite diag_l, diag_r by assumption.
      destruct (ceqb (A r c) c0) eqn:E; [apply (ceqb_spec Cx) in E; rewrite E; ring|].
      rewrite (H r c Lr Lc); [reflexivity|]. intro Z. rewrite Z, (proj2 (ceqb_spec Cx c0 c0) eq_refl) in E. discriminate.
    - intros H r c Lr Lc X. pose proof (un _ _ _ H r c Lr Lc) as E. rewrite diag_l, diag_r in E by assumption. exact (INR_C_inj _ _ _ E X).
  Qed.
End Diag.

(** The circuit of a list of rotations. *)
Definition gadgets (l : list (R * list pauli)) (t : R) : list (gate Cx) := flat_map (fun e => pauli_gadget (chalf_angle (fst e * t, 0)) (snd e)) l.
Lemma gadgets_flow N l t : (forall w s, In (w, s) l -> length s = N) -> cmat Crt N (gadgets l t) =[N]= flow N l t.
Proof.
  intro H. constructor. unfold flow. eapply meq_trans; [|apply (gadget_seq Cx Crt Crt_sq N)].
  - unfold gadgets, rated. rewrite flat_map_concat_map, (flat_map_concat_map _ (map _ _)), map_map. apply meq_refl.
  - intros v s I. unfold rated in I. apply in_map_iff in I. destruct I as [[w s'] [E I]]. injection E as _ <-. exact (H w s' I).
Qed.
Lemma half_angle_real x : @real_angle Cx (chalf_angle x).
Proof.
  unfold real_angle, chalf_angle. cbn [fst snd]. split; [apply C_eq; cbn; ring|]. split; [apply C_eq; cbn; ring|].
  apply C_eq; cbn [Cx cmul cadd c1 Cmul Cadd C1 fst snd]; [|ring]. pose proof (sin2_cos2 (fst x / 2)) as H. unfold Rsqr in H. lra.
Qed.
Lemma scaled_real (v : angle Cx) : real_angle v -> real_angle (scaled v).
Proof.
  intros [A [B C]]. unfold scaled. split; [|split]; cbn [fst snd].
  - transitivity (cconj (cadd (cmul (fst v) (fst v)) (copp (cmul (snd v) (snd v)))) : Cx); [f_equal; ring|]. rewrite cconj_add, cconj_opp, !cconj_mul, A, B. ring.
  - rewrite cconj_opp, !cconj_mul, cconj_add, !cconj_1, A, B. reflexivity.
  - transitivity (cmul (cadd (cmul (fst v) (fst v)) (cmul (snd v) (snd v))) (cadd (cmul (fst v) (fst v)) (cmul (snd v) (snd v))) : Cx); [ring|]. rewrite C. ring.
Qed.
Lemma gadget_valid (v : angle Cx) s : real_angle v -> forall g, In g (pauli_gadget v s) -> valid (length s) g.
Proof.
  intros H g I. split; [exact (gadget_ok Cx s v g I)|]. pose proof (scaled_real v H) as Sv.
  assert (P : forall inv a, In g (flat_map (fun e => pauli_op (fst e) (snd e) inv) a) -> match g with Grx t _ | Gry t _ | Grz t _ => real_angle t | _ => True end).
  { intros inv a J. apply in_flat_map in J. destruct J as [[q p] [_ J]]. cbn [fst snd] in J. destruct p, inv; cbn in J; repeat (destruct J as [<-|J]; [exact Logic.I|]); destruct J. }
  assert (Q : forall a, In g (ladder_cx a) -> match g with Grx t _ | Gry t _ | Grz t _ => real_angle t | _ => True end).
  { induction a as [|x [|y a] IH]; intro J; [destruct J|destruct J|]. cbn [ladder_cx] in J. destruct J as [<-|J]; [exact Logic.I|exact (IH J)]. }
  unfold pauli_gadget in I. destruct s as [|p [|p' s]].
  - destruct I.
  - destruct p; [destruct I| | |]; destruct I as [<-|[]]; exact Sv.
  - destruct (active 0 (p :: p' :: s)) as [|[q0 p0] a] eqn:E; [destruct I|]. cbv zeta in I. rewrite !in_app_iff in I.
    destruct I as [I|[I|[[<-|[]]|[I|I]]]]; [exact (P _ _ I)|exact (Q _ I)|exact Sv|apply in_rev in I; exact (Q _ I)|exact (P _ _ I)].
Qed.
Lemma gadgets_valid N l t : (forall w s, In (w, s) l -> length s = N) -> forall g, In g (gadgets l t) -> valid N g.
Proof.
  intros H g I. unfold gadgets in I. apply in_flat_map in I. destruct I as [[w s] [I J]]. cbn [fst snd] in J. rewrite <- (H w s I).
  exact (gadget_valid _ s (half_angle_real _) g J).
Qed.
Lemma flow_block N f l t : commuting N l -> conserves N f (sumop l) -> conserves N f (flow N l t).
Proof.
  intros H C. apply conserves_commutes. apply flow_commutes; [exact H|].
  destruct (sumop_gen N l) as [x Hx]; [intros w s I; exact (proj1 (H w s w s I I))|].
  apply (commutes_ext N _ (madd (sumop l) (mscal (copp x) mone))).
  - constructor. intros r c Lr Lc. unfold madd, mscal. rewrite (Hx r c Lr Lc). unfold madd, mscal. ring.
  - apply commutes_add; [apply conserves_commutes; exact C|apply commutes_scal, commutes_one].
Qed.
Lemma gadgets_concat ls t : gadgets (concat ls) t = concat (map (fun l => gadgets l t) ls).
Proof. induction ls as [|l ls IH]; [reflexivity|]. cbn [concat map]. rewrite <- IH. unfold gadgets. apply flat_map_app. Qed.
Theorem blocks_conserve N f ls t : (forall l, In l ls -> commuting N l /\ conserves N f (sumop l)) -> conserves N f (cmat Crt N (gadgets (concat ls) t)).
Proof.
  rewrite gadgets_concat. induction ls as [|l ls IH]; intro H; apply conserves_commutes; cbn [map concat]; [apply commutes_one|].
  apply (commutes_ext N _ (mmul N (cmat Crt N (concat (map (fun l => gadgets l t) ls))) (cmat Crt N (gadgets l t)))).
  - symmetry. constructor. apply cmat_app.
  - apply commutes_mul; apply conserves_commutes; [apply IH; intros m I; apply H; right; exact I|].
    destruct (H l (or_introl eq_refl)) as [A B]. apply conserves_commutes.
    apply (commutes_ext N _ (flow N l t)); [symmetry; apply gadgets_flow; intros w s I; exact (proj1 (A w s w s I I))|].
    apply conserves_commutes. apply flow_block; assumption.
Qed.

(** The rotations recorded for an operator with imaginary coefficients. *)
Section Items.
  Variable tiny : R -> bool.
  Hypothesis tiny_0 : tiny 0 = true.
  Notation pop := (list (list pauli * Cx)).
  Definition kept (b : pop) : list (R * list pauli) := flat_map (fun e => if tiny (snd (snd e)) then [] else [(snd (snd e), fst e)]) b.
  Lemma imag_part (x : Cx) : cconj x = copp x -> fst x = 0.
  Proof. intro H. apply (f_equal fst) in H. cbn [Cx cconj copp Cconj Copp fst] in H. lra. Qed.
  Lemma recorded (b : pop) : (forall e, In e b -> cconj (snd e) = copp (snd e)) -> pauli_set tiny None b = Some (kept b).
  Proof.
    intro H. rewrite (pauli_set_own R tiny b None).
    - f_equal. unfold kept. induction b as [|[s [u v]] b IH]; [reflexivity|]. cbn [flat_map fst snd].
      rewrite IH by (intros e I; apply H; right; exact I). f_equal.
      pose proof (imag_part _ (H _ (or_introl eq_refl))) as Z. cbn [fst snd] in Z. subst u. destruct (tiny v) eqn:T; [rewrite tiny_0; reflexivity|rewrite T; reflexivity].
    - intros s u v I. left. pose proof (imag_part _ (H _ I)) as Z. cbn [fst snd] in Z. subst u. exact tiny_0.
  Qed.
  Lemma kept_in (b : pop) w s : In (w, s) (kept b) -> exists x : Cx, In (s, x) b /\ w = snd x /\ tiny w = false.
  Proof.
    unfold kept. intro I. apply in_flat_map in I. destruct I as [[s' x] [I J]]. cbn [fst snd] in J. destruct (tiny (snd x)) eqn:T; [destruct J|].
    destruct J as [J|[]]. injection J as <- <-. exists x. auto.
  Qed.
  Lemma kept_sum (b : pop) r c : (forall e, In e b -> cconj (snd e) = copp (snd e)) -> (forall e, In e b -> tiny (snd (snd e)) = true -> snd (snd e) = 0) ->
    omat b r c = cmul ci (sumop (kept b) r c).
  Proof.
    induction b as [|[s [u v]] b IH]; intros H T; cbn [omat kept flat_map]; [unfold mzero; cbn [sumop]; unfold mzero; ring|].
    fold (kept b). unfold madd at 1. unfold mscal. rewrite IH; [|intros e I; apply H; right; exact I|intros e I; apply T; right; exact I]. cbn [fst snd].
    pose proof (imag_part _ (H _ (or_introl eq_refl))) as Z. cbn [fst snd] in Z. subst u. pose proof (T _ (or_introl eq_refl)) as T0. cbn [snd] in T0.
    destruct (tiny v) eqn:Tv; cbn [app sumop].
    - rewrite (T0 eq_refl). replace ((0, 0) : Cx) with (c0 : Cx) by reflexivity. ring.
    - unfold madd, mscal. replace ((0, v) : Cx) with (cmul ci ((v, 0) : Cx)) by (apply C_eq; cbn; ring). ring.
  Qed.
  Lemma kept_concat (bs : list pop) : kept (concat bs) = concat (map kept bs).
  Proof. induction bs as [|b bs IH]; [reflexivity|]. cbn [concat map]. rewrite <- IH. unfold kept. apply flat_map_app. Qed.

  (** One excitation. *)
  Lemma generator_block N m t (p : Cx) (b : pop) f : cconj p = p -> meq N (omat b) (generator m t p) -> NoDup (keys b) ->
    (forall e, In e b -> length (fst e) = N /\ cconj (snd e) = copp (snd e)) -> (forall e, In e b -> tiny (snd (snd e)) = true -> snd (snd e) = 0) ->
    conserves N f (generator m t p) -> commuting N (kept b) /\ conserves N f (sumop (kept b)).
  Proof.
    intros Rp M ND HB HT C.
    assert (G : forall s x, In (s, x) b -> x <> c0 -> (forall k, (k < N)%nat -> flips1 (nth k s PI) = Nat.odd (count_occ Nat.eq_dec t k)) /\ yodd s = true).
    { apply (strings_class Cx N (fun k => Nat.odd (count_occ Nat.eq_dec t k)) b ND HB).
      - intros r c Lr Lc. rewrite (M r c Lr Lc). apply generator_real. exact Rp.
      - intros r c Lr Lc X. rewrite (M r c Lr Lc) in X. apply (generator_differ Cx m t p r c); [congruence|exact X]. }
    split.
    - intros w s w' s' I I'. apply kept_in in I. apply kept_in in I'. destruct I as [x [I [-> Tx]]]. destruct I' as [x' [I' [-> Tx']]].
      assert (X : x <> c0) by (intros ->; cbn in Tx; rewrite tiny_0 in Tx; discriminate).
      assert (X' : x' <> c0) by (intros ->; cbn in Tx'; rewrite tiny_0 in Tx'; discriminate).
      destruct (G s x I X) as [F Y]. destruct (G s' x' I' X') as [F' Y'].
      pose proof (proj1 (HB _ I)) as L. pose proof (proj1 (HB _ I')) as L'. cbn [fst] in L, L'. split; [exact L|].
      constructor. apply class_commute; [exact L|exact L'| |congruence].
      intro k. destruct (lt_dec k N) as [Hk|Hk]; [rewrite F, F' by exact Hk; reflexivity|]. rewrite !nth_overflow by lia. reflexivity.
    - intros r c Lr Lc X. apply (C r c Lr Lc). rewrite <- (M r c Lr Lc), kept_sum; [|intros e I; apply HB; exact I|exact HT].
      intro Z. apply X. transitivity (cmul (copp ci) (cmul ci (sumop (kept b) r c)) : Cx); [|rewrite Z; ring].
      transitivity (cmul (copp (cmul ci ci)) (sumop (kept b) r c) : Cx); [|ring]. rewrite (ci_sq Cx). ring.
  Qed.
End Items.

Lemma below14_0 : below14 0 = true.
Proof. unfold below14. destruct (Rlt_dec _ _) as [|n]; [reflexivity|]. exfalso. apply n. rewrite Rabs_R0. apply Rinv_0_lt_compat, pow_lt. lra. Qed.
Lemma below14_small y : below14 y = true -> small ((0, y) : Cx) = true.
Proof.
  unfold below14. destruct (Rlt_dec _ _) as [l|]; [|discriminate]. intros _. change (Csmall (0, y) = true). unfold Csmall. destruct (Rle_dec _ _) as [|n]; [reflexivity|].
  exfalso. apply n. cbn [fst snd]. apply Rabs_def2 in l. cbn [pow] in *. nra.
Qed.
Lemma below10_small (p : Cx) : below10 p = false -> small (cmul (cpow chalf 4) p) = false.
Proof.
  unfold below10. destruct (Rlt_dec _ _) as [|n]; [discriminate|]. intros _. change (Csmall (cmul (cpow chalf 4) p) = false). rewrite cx_half. unfold Csmall. destruct (Rle_dec _ _) as [l|]; [|reflexivity].
  exfalso. apply n. revert l. destruct p as [u v]. cbn [Cx cmul Cmul fst snd]. cbn [pow]. intro l. lra.
Qed.
Lemma gadgets_of depth b : (forall e, In e b -> cconj (snd e) = copp (snd e)) -> (0 < depth)%nat ->
  ansatz_gates depth b = Some (gadgets (kept below14 b) (/ INR depth)).
Proof. intros H T. unfold ansatz_gates. rewrite (recorded below14 below14_0 b H). destruct (kept below14 b); [reflexivity|]. destruct depth; [lia|reflexivity]. Qed.

(** Operators returned by the transform hold no small coefficient. *)
Lemma jw_clean (o : list (fstr * Cx)) e : In e (jw_operator o) -> small (snd e) = false.
Proof.
  unfold jw_operator, op_transform. assert (G : forall l (a : list (list pauli * Cx)), (forall e, In e a -> small (snd e) = false) -> forall e, In e (fold_left (op_add pauli_list_eqb) l a) -> small (snd e) = false).
  { induction l as [|x l IH]; intros a H; [exact H|]. cbn [fold_left]. apply IH. intros e' I. unfold op_add, op_clean in I. apply filter_In in I. destruct I as [_ I]. now destruct (small (snd e')). }
  apply G. intros e' [].
Qed.
Lemma assign_clean skip N (l : list (list nat * Cx)) : forall psi, assign skip N l = Some psi -> forall e, In e psi -> small (snd e) = false.
Proof.
  induction l as [|[t p] l IH]; intros psi E e I; cbn [assign] in E; [injection E as <-; destruct I|].
  destruct (skip p); [exact (IH psi E e I)|]. destruct (assign_op N t p) as [o|]; [|discriminate]. destruct (assign skip N l) as [r|]; [|discriminate].
  injection E as <-. apply in_app_iff in I. destruct I as [I|I]; [exact (jw_clean o e I)|exact (IH r eq_refl e I)].
Qed.
Lemma Forall2_in_r {A B} (Q : A -> B -> Prop) l m : Forall2 Q l m -> forall b, In b m -> exists a, In a l /\ Q a b.
Proof.
  induction 1 as [|a b l m H F IH]; intros b' []; [subst; exists a; split; [left; reflexivity|exact H]|].
  destruct (IH b' H0) as [a' [I J]]. exists a'. split; [right; exact I|exact J].
Qed.
(** The ansatz. *)
Theorem ucc_circuit depth N s d tr q ga gb ini L (ps : list Cx) : (0 < depth)%nat -> NoDup (ga ++ gb) -> (forall i, In i (ga ++ gb) -> (i < N)%nat) ->
  ucc s d tr q ga gb ini = Some L -> (forall p, In p ps -> snd p = 0) ->
  exists psi gs, assign below10 N (combine L ps) = Some psi /\ ansatz_gates depth psi = Some gs /\ (forall g, In g gs -> valid N g) /\
    conserves N (count_in (fun x => existsb (Nat.eqb x) ga)) (cmat Crt N gs) /\ conserves N (count_in (fun _ => true)) (cmat Crt N gs).
Proof.
  intros D0 ND HN HU HR.
  assert (HP : forall p, In p ps -> cconj p = p /\ (below10 p = false -> small (cmul (cpow chalf 4) p) = false)).
  { intros p I. split; [|apply below10_small]. apply C_eq; cbn [Cx cconj Cconj fst snd]; [reflexivity|]. rewrite (HR p I). ring. }
  destruct (ucc_ansatz Cx below10 N s d tr q ga gb ini L ps ND HN HU HP) as [bs [E F]].
  exists (concat bs).
  assert (B : forall b, In b bs -> exists t p, In t L /\ In p ps /\ meq N (omat b) (generator (Nat.div2 (length t)) t p) /\ NoDup (keys b) /\ forall e, In e b -> length (fst e) = N /\ cconj (snd e) = copp (snd e)).
  { intros b Ib. destruct (Forall2_in_r _ _ _ F b Ib) as [[t p] [I [H1 [H2 H3]]]]. apply filter_In in I. destruct I as [I _].
    exists t, p. split; [exact (in_combine_l _ _ _ _ I)|]. split; [exact (in_combine_r _ _ _ _ I)|]. cbn [fst snd] in H1. auto. }
  assert (BE : forall e, In e (concat bs) -> length (fst e) = N /\ cconj (snd e) = copp (snd e)).
  { intros e I. apply in_concat in I. destruct I as [b [Ib I]]. destruct (B b Ib) as [t [p [_ [_ [_ [_ H]]]]]]. exact (H e I). }
  exists (gadgets (kept below14 (concat bs)) (/ INR depth)). split; [exact E|]. split; [apply gadgets_of; [intros e I; exact (proj2 (BE e I))|exact D0]|].
  split; [apply gadgets_valid; intros w u I; apply kept_in in I; destruct I as [x [I _]]; exact (proj1 (BE _ I))|].
  rewrite kept_concat.
  assert (TT : forall b e, In b bs -> In e b -> below14 (snd (snd e)) = true -> snd (snd e) = 0).
  { intros b e Ib I J. exfalso. apply below14_small in J. assert (I' : In e (concat bs)) by (apply in_concat; exists b; auto).
    pose proof (assign_clean _ _ _ _ E e I') as Z. pose proof (imag_part _ (proj2 (BE e I'))) as Y. destruct e as [u [x y]]. cbn [fst snd] in *. subst x. congruence. }
  split; apply blocks_conserve; intros l I; apply in_map_iff in I; destruct I as [b [<- Ib]]; destruct (B b Ib) as [t [p [It [Ip [M [NB H]]]]]];
    (apply (generator_block below14 below14_0 N (Nat.div2 (length t)) t p b); [exact (proj1 (HP p Ip))|exact M|exact NB|exact H|intros e; exact (TT b e Ib)|]);
    intros r c Lr Lc X; destruct (ucc_conserves Cx s d tr q ga gb ini L t p r c ND HU It X) as [C1 C2]; assumption.
Qed.

(** States with a definite value of a conserved quantity. *)
Lemma definite N f n (A : mat Cx) (psi : bits -> Cx) : conserves N f A -> (forall x, length x = N -> f x <> n -> psi x = c0) ->
  forall x, length x = N -> f x <> n -> mvec N A psi x = c0.
Proof.
  intros C H x Lx Fx. unfold mvec. transitivity (sumbits N (fun _ => c0 : Cx)); [|apply sumbits_0]. apply sumbits_ext. intros c Lc.
  destruct (ceqb (A x c) c0) eqn:E; [apply (ceqb_spec Cx) in E; rewrite E; ring|].
  rewrite (H c Lc); [ring|]. rewrite <- (C x c Lx Lc); [exact Fx|]. intro Z. rewrite Z, (proj2 (ceqb_spec Cx c0 c0) eq_refl) in E. discriminate.
Qed.

(** The initial determinant. *)
Lemma apply_pauli_valid s : forall n0 N g, (n0 + length s <= N)%nat -> In g (apply_pauli Crt n0 s) -> valid N g.
Proof.
  assert (H : @real_angle Cx (half_pi Crt)).
  { unfold real_angle, half_pi. cbn [fst snd]. rewrite crt_real. split; [reflexivity|]. split; [reflexivity|]. rewrite Crt_sq. apply chalf_dbl. }
  assert (F : @real_angle Cx full_pi).
  { unfold real_angle, full_pi. cbn [fst snd]. split; [apply cconj_0|]. split; [apply cconj_1|]. ring. }
  induction s as [|p s IH]; intros n0 N g L I; [destruct I|]. cbn [apply_pauli length] in *. apply in_app_iff in I. destruct I as [I|I]; [|apply (IH (S n0) N); [lia|exact I]].
  destruct p; repeat (destruct I as [<-|I]; [split; [cbn; lia|try exact Logic.I; assumption]|]); destruct I.
Qed.
Lemma pcnt_ext P Q : (forall k, P k = Q k) -> forall x i, pcnt P i x = pcnt Q i x.
Proof. intros H x. induction x as [|b x IH]; intro i; [reflexivity|]. cbn [pcnt]. now rewrite H, IH. Qed.
Lemma count_all x : count_in (fun _ => true) x = popcount x.
Proof. rewrite count_pcnt, (popcount_pcnt x 0). reflexivity. Qed.
Lemma count_up N x : count_in (fun k => existsb (Nat.eqb k) (seq 0 N)) x = popcount (firstn N x).
Proof.
  rewrite count_pcnt, (popcount_firstn N x 0). apply pcnt_ext. intro k. cbn [Nat.add]. destruct (k <? N)%nat eqn:E.
  - apply Nat.ltb_lt in E. apply existsb_exists. exists k. split; [apply in_seq; lia|apply Nat.eqb_refl].
  - apply Nat.ltb_ge in E. destruct (existsb (Nat.eqb k) (seq 0 N)) eqn:X; [|reflexivity]. apply existsb_exists in X. destruct X as [y [I Y]]. apply Nat.eqb_eq in Y. subst y. apply in_seq in I. lia.
Qed.
Lemma occ_length No occ (f := fun k => existsb (Nat.eqb k)) : NoDup occ -> (forall k, In k occ -> (k < 2 * No)%nat) ->
  length occ = (length (filter (fun k => existsb (Nat.eqb k) (fst (qs_groups Default No))) occ) + length (filter (fun k => existsb (Nat.eqb k) (snd (qs_groups Default No))) occ))%nat.
Proof.
  intros _ LT. cbn [qs_groups fst snd]. rewrite map_id. induction occ as [|k occ IH]; [reflexivity|]. cbn [filter].
  specialize (IH (fun x I => LT x (or_intror I))). pose proof (LT k (or_introl eq_refl)) as Lk.
  destruct (existsb (Nat.eqb k) (seq 0 No)) eqn:E1; destruct (existsb (Nat.eqb k) (map (fun i => (i + No)%nat) (seq 0 No))) eqn:E2; cbn [length]; try lia.
  - exfalso. apply mem_spec in E1. apply mem_spec in E2. apply in_seq in E1. apply in_map_iff in E2. destruct E2 as [y [<- I]]. lia.
  - exfalso. destruct (lt_dec k No) as [H|H].
    + assert (existsb (Nat.eqb k) (seq 0 No) = true) by (apply mem_spec, in_seq; lia). congruence.
    + assert (existsb (Nat.eqb k) (map (fun i => (i + No)%nat) (seq 0 No)) = true); [|congruence]. apply mem_spec, in_map_iff. exists (k - No)%nat. split; [lia|apply in_seq; lia].
Qed.
Theorem vqe_state depth s d tr q No a b ps : (0 < depth)%nat -> (a <= No)%nat -> (b <= No)%nat -> negb s && (tr || q) = false -> (forall p : Cx, In p ps -> snd p = 0) ->
  exists prep, vqe_circuit depth s d tr q No a b ps = Some prep /\ (forall g, In g prep -> valid (2 * No) g) /\
    has_up (2 * No) No a (prepared Crt (2 * No) prep) /\ has_particles (2 * No) (a + b) (prepared Crt (2 * No) prep).
Proof.
  intros D0 A B HO HR. destruct (reference Default No a b (or_introl eq_refl) A B) as [occ [E [ND [LT [P1 P2]]]]]. cbv zeta in P1, P2.
  pose proof (occ_length No occ ND LT) as LO. rewrite <- !(particles_filter _ (2 * No) occ ND LT), P1, P2 in LO.
  destruct (init_op Cx (2 * No) occ LT) as [z0 [I0 L0]].
  destruct (initial_state Cx Crt Crt_sq (2 * No) occ ND LT) as [st [z [I [z' F]]]]. rewrite I0 in I. injection I as <- Ez.
  destruct (ucc s d tr q (fst (qs_groups Default No)) (snd (qs_groups Default No)) occ) as [L|] eqn:HU; [|unfold ucc in HU; rewrite HO in HU; discriminate].
  assert (NG : NoDup (fst (qs_groups Default No) ++ snd (qs_groups Default No))).
  { apply (Permutation.Permutation_NoDup (Permutation.Permutation_sym (groups_perm Default No (or_introl eq_refl)))). apply seq_NoDup. }
  assert (LG : forall i, In i (fst (qs_groups Default No) ++ snd (qs_groups Default No)) -> (i < 2 * No)%nat).
  { intros i Hi. apply (Permutation.Permutation_in i (groups_perm Default No (or_introl eq_refl))) in Hi. apply in_seq in Hi. lia. }
  destruct (ucc_circuit depth (2 * No) s d tr q _ _ occ L ps D0 NG LG HU HR) as [psi [gs [EP [EG [V [C1 C2]]]]]].
  exists (initial_circuit Crt [(init_str (2 * No) occ, ipow z0)] ++ gs).
  split; [unfold vqe_circuit; rewrite E, I0, HU, EP, EG; reflexivity|].
  split.
  { intros g Ig. apply in_app_iff in Ig. destruct Ig as [Ig|Ig]; [|exact (V g Ig)]. unfold initial_circuit in Ig. cbn [flat_map fst] in Ig. rewrite app_nil_r in Ig.
    apply (apply_pauli_valid (init_str (2 * No) occ) 0 (2 * No) g); [lia|exact Ig]. }
  rewrite <- Ez in F.
  set (dd := map (fun j => existsb (Nat.eqb j) occ) (seq 0 (2 * No))) in *.
  assert (S0 : forall x, length x = (2 * No)%nat -> prepared Crt (2 * No) (initial_circuit Crt [(init_str (2 * No) occ, ipow z0)]) x = if bits_eqb x dd then ipow z' else c0).
  { intros x Lx. rewrite <- (F x Lx). unfold prepared, mvec, zero_state.
    transitivity (sumbits (2 * No) (fun c => if bits_eqb c (repeat false (2 * No)) then cmat Crt (2 * No) (initial_circuit Crt [(init_str (2 * No) occ, ipow z0)]) x c else c0)).
    - apply sumbits_ext. intros c _. rewrite (bits_eqb_sym (repeat false (2 * No)) c). destruct (bits_eqb c _); ring.
    - apply (sumbits_pick Cx (2 * No) (repeat false (2 * No)) (fun c => cmat Crt (2 * No) (initial_circuit Crt [(init_str (2 * No) occ, ipow z0)]) x c)). apply repeat_length. }
  assert (SP : forall x, length x = (2 * No)%nat -> prepared Crt (2 * No) (initial_circuit Crt [(init_str (2 * No) occ, ipow z0)] ++ gs) x
      = mvec (2 * No) (cmat Crt (2 * No) gs) (prepared Crt (2 * No) (initial_circuit Crt [(init_str (2 * No) occ, ipow z0)])) x).
  { intros x Lx. unfold prepared. rewrite (mvec_meq Cx (2 * No) _ _ (zero_state (2 * No)) x (cmat_app Cx Crt (2 * No) _ _) Lx). apply mvec_mmul. }
  split; intros x Lx Hx; rewrite (SP x Lx).
  - apply (definite (2 * No) _ a _ _ C1); [|exact Lx|].
    + intros y Ly Hy. rewrite (S0 y Ly). destruct (bits_eqb y dd) eqn:Q; [|reflexivity]. apply bits_eqb_spec in Q. subst y. exfalso. apply Hy. exact P1.
    + cbn [qs_groups fst snd]. rewrite map_id, count_up. exact Hx.
  - apply (definite (2 * No) _ (a + b)%nat _ _ C2); [|exact Lx|].
    + intros y Ly Hy. rewrite (S0 y Ly). destruct (bits_eqb y dd) eqn:Q; [|reflexivity]. apply bits_eqb_spec in Q. subst y. exfalso. apply Hy.
      rewrite count_all, <- LO. apply (RdmProofs.popcount_det (2 * No) occ ND LT).
    + rewrite count_all. exact Hx.
Qed.
