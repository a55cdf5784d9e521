(** Proofs about AdCircModel: the circuits conserve the numbers of electrons. *)
From Coq Require Import Bool List Arith Sorted Reals Lra Lia Ring.
From Verif Require Import Coeff MatSpec MatLemmas AdjProofs OpSpec FockSpec CircuitSpec CircuitModel CircuitProofs CircuitProofs2 ComplexR PauliModel OperatorModel
  QuantSpec QuantProofs QuantProofs2 FermiModel RdmModel RdmSpec RdmFock VqeModel VqeSpec VqeProofs3 VqeProofs4 StoreModel StoreSpec StoreProofs InitProofs HamModel HamSpec TransformModel PlanModel PlanSpec PlanProofs3 PlanProofs5
  ConsSpec ConsModel ConsProofs ConsProofs2 ConsProofs3 EulerProofs3 AdaptProofs3 AdCircModel AdCircSpec.
From Verif Require RdmProofs RdmEnum.
Import ListNotations.
Local Open Scope R_scope.
Add Ring CxRing4 : (c_ring Cx).

Definition up (No x : nat) : bool := (x <? No)%nat.
Lemma assign_vars_clean N l psi : assign_all N (l : list (list nat * Cx)) = Some psi -> forall e, In e psi -> small (snd e) = false.
Proof. apply assign_clean. Qed.

Theorem ad_circuit_gates depth No (L : list (list nat)) (ps : list Cx) : (0 < depth)%nat -> (forall t, In t L -> ansatz_term No t) -> (forall p, In p ps -> snd p = 0) ->
  exists psi gs, assign_variables (2 * No) (combine L ps) = Some psi /\ ansatz_gates depth psi = Some gs /\ (forall g, In g gs -> valid (2 * No) g) /\
    conserves (2 * No) (count_in (up No)) (cmat Crt (2 * No) gs) /\ conserves (2 * No) (count_in (fun _ => true)) (cmat Crt (2 * No) gs).
Proof.
  intros D0 HB HR. set (N := (2 * No)%nat).
  assert (HP : forall p, In p ps -> cconj p = p).
  { intros p I. apply C_eq; cbn [Cx cconj Cconj fst snd]; [reflexivity|]. rewrite (HR p I). ring. }
  destruct (assign_any Cx pkeq cx_domain N (combine L ps)) as [bs [E F]].
  { intros t p I. pose proof (in_combine_l _ _ _ _ I) as It. pose proof (in_combine_r _ _ _ _ I) as Ip. destruct (HB t It) as [i [k [l [j [-> [H [Hi _]]]]]]].
    split; [exists 2%nat; reflexivity|]. split; [exact H|]. split; [exact Hi|exact (HP p Ip)]. }
  assert (F4 : forallb (fun e : list nat * Cx => (length (fst e) =? 4)%nat) (combine L ps) = true).
  { apply forallb_forall. intros [t p] I. destruct (HB t (in_combine_l _ _ _ _ I)) as [i [k [l [j [-> _]]]]]. reflexivity. }
  exists (concat bs). unfold assign_variables. rewrite F4. clear F4.
  assert (B : forall b, In b bs -> exists t p, In t L /\ In p ps /\ (b = [] \/ meq N (omat b) (generator 2 t p)) /\ NoDup (keys b) /\ forall e, In e b -> length (fst e) = N /\ cconj (snd e) = copp (snd e)).
  { intros b Ib. destruct (Forall2_in_r _ _ _ F b Ib) as [[t p] [I [H1 [_ [H2 H3]]]]].
    exists t, p. pose proof (in_combine_l _ _ _ _ I) as It. split; [exact It|]. split; [exact (in_combine_r _ _ _ _ I)|]. cbn [fst snd] in H1.
    destruct (HB t It) as [i [k [l [j [Et _]]]]]. replace (Nat.div2 (length t)) with 2%nat in H1 by (rewrite Et; reflexivity). auto. }
  assert (BE : forall e, In e (concat bs) -> length (fst e) = N /\ cconj (snd e) = copp (snd e)).
  { intros e I. apply in_concat in I. destruct I as [b [Ib I]]. destruct (B b Ib) as [t [p [_ [_ [_ [_ H]]]]]]. exact (H e I). }
  exists (gadgets (kept below14 (concat bs)) (/ INR depth)). split; [exact E|]. split; [apply gadgets_of; [intros e I; exact (proj2 (BE e I))|exact D0]|].
  split; [apply gadgets_valid; intros w u I; apply kept_in in I; destruct I as [x [I _]]; exact (proj1 (BE _ I))|].
  rewrite kept_concat.
  assert (TT : forall b e, In b bs -> In e b -> below14 (snd (snd e)) = true -> snd (snd e) = 0).
  { intros b e Ib I J. exfalso. apply below14_small in J. assert (I' : In e (concat bs)) by (apply in_concat; exists b; auto).
    pose proof (assign_vars_clean _ _ _ E e I') as Z. pose proof (imag_part _ (proj2 (BE e I'))) as Y. destruct e as [u [x y]]. cbn [fst snd] in *. subst x. congruence. }
  assert (G : forall P : nat -> bool, (forall t, In t L -> cnt P (firstn 2 t) = cnt P (skipn 2 t)) -> conserves N (count_in P) (cmat Crt N (gadgets (concat (map (kept below14) bs)) (/ INR depth)))).
  { intros P HC. apply blocks_conserve. intros l I. apply in_map_iff in I. destruct I as [b [<- Ib]]. destruct (B b Ib) as [t [p [It [Ip [M [NB H]]]]]].
    destruct M as [-> |M].
    - split; [intros w s w' s' []|]. intros r c Lr Lc X. exfalso. apply X. reflexivity.
    - apply (generator_block below14 below14_0 N 2 t p b); [exact (HP p Ip)|exact M|exact NB|exact H|intros e; exact (TT b e Ib)|].
      intros r c Lr Lc X. apply (generator_conserves Cx P 2 t p r c); [|exact (HC t It)|exact X]. destruct (HB t It) as [i [k [l [j [-> _]]]]]. reflexivity. }
  split; apply G; intros t It; destruct (HB t It) as [i [k [l [j [-> [_ [_ C]]]]]]]; [exact C|reflexivity].
Qed.

(** The state after gates that conserve both numbers. *)
Lemma after_reference No a b occ (gs : list (gate Cx)) : (a <= No)%nat -> (b <= No)%nat -> qs_initial Default No a b = Some occ ->
  (forall g, In g gs -> valid (2 * No) g) -> conserves (2 * No) (count_in (up No)) (cmat Crt (2 * No) gs) -> conserves (2 * No) (count_in (fun _ => true)) (cmat Crt (2 * No) gs) ->
  exists o, initial_operator (2 * No) occ = Some o /\ (forall g, In g (initial_circuit Crt o ++ gs) -> valid (2 * No) g) /\
    has_up (2 * No) No a (prepared Crt (2 * No) (initial_circuit Crt o ++ gs)) /\ has_particles (2 * No) (a + b) (prepared Crt (2 * No) (initial_circuit Crt o ++ gs)).
Proof.
  intros A B EI V C1 C2. destruct (reference Default No a b (or_introl eq_refl) A B) as [occ' [E [ND [LT [P1 P2]]]]]. rewrite EI in E. injection E as <-. cbv zeta in P1, P2.
  pose proof (occ_length No occ ND LT) as LO. rewrite <- !(particles_filter _ (2 * No) occ ND LT), P1, P2 in LO.
  destruct (init_op Cx (2 * No) occ LT) as [z0 [I0 L0]].
  destruct (initial_state Cx Crt Crt_sq (2 * No) occ ND LT) as [st [z [I [z' F]]]]. rewrite I0 in I. injection I as <- Ez.
  exists [(init_str (2 * No) occ, ipow z0)]. split; [exact I0|]. split.
  { intros g Ig. apply in_app_iff in Ig. destruct Ig as [Ig|Ig]; [|exact (V g Ig)]. unfold initial_circuit in Ig. cbn [flat_map fst] in Ig. rewrite app_nil_r in Ig.
    apply (apply_pauli_valid (init_str (2 * No) occ) 0 (2 * No) g); [lia|exact Ig]. }
  rewrite <- Ez in F.
  set (dd := map (fun j => existsb (Nat.eqb j) occ) (seq 0 (2 * No))) in *.
  assert (S0 : forall x, length x = (2 * No)%nat -> prepared Crt (2 * No) (initial_circuit Crt [(init_str (2 * No) occ, ipow z0)]) x = if bits_eqb x dd then ipow z' else c0).
  { intros x Lx. rewrite <- (F x Lx). unfold prepared, mvec, zero_state.
    transitivity (sumbits (2 * No) (fun c => if bits_eqb c (repeat false (2 * No)) then cmat Crt (2 * No) (initial_circuit Crt [(init_str (2 * No) occ, ipow z0)]) x c else c0)).
    - apply sumbits_ext. intros c _. rewrite (bits_eqb_sym (repeat false (2 * No)) c). destruct (bits_eqb c _); ring.
    - apply (sumbits_pick Cx (2 * No) (repeat false (2 * No)) (fun c => cmat Crt (2 * No) (initial_circuit Crt [(init_str (2 * No) occ, ipow z0)]) x c)). apply repeat_length. }
  assert (SP : forall x, length x = (2 * No)%nat -> prepared Crt (2 * No) (initial_circuit Crt [(init_str (2 * No) occ, ipow z0)] ++ gs) x
      = mvec (2 * No) (cmat Crt (2 * No) gs) (prepared Crt (2 * No) (initial_circuit Crt [(init_str (2 * No) occ, ipow z0)])) x).
  { intros x Lx. unfold prepared. rewrite (mvec_meq Cx (2 * No) _ _ (zero_state (2 * No)) x (cmat_app Cx Crt (2 * No) _ _) Lx). apply mvec_mmul. }
  assert (CU : forall x, count_in (up No) x = popcount (firstn No x)).
  { intro x. rewrite <- count_up, !count_pcnt. apply pcnt_ext. intro k. unfold up. destruct (k <? No)%nat eqn:E.
    - apply Nat.ltb_lt in E. symmetry. apply existsb_exists. exists k. split; [apply in_seq; lia|apply Nat.eqb_refl].
    - apply Nat.ltb_ge in E. destruct (existsb (Nat.eqb k) (seq 0 No)) eqn:X; [|reflexivity]. apply existsb_exists in X. destruct X as [y [Iy Y]]. apply Nat.eqb_eq in Y. subst y. apply in_seq in Iy. lia. }
  split; intros x Lx Hx; rewrite (SP x Lx).
  - apply (definite (2 * No) _ a _ _ C1); [|exact Lx|rewrite CU; exact Hx].
    intros y Ly Hy. rewrite (S0 y Ly). destruct (bits_eqb y dd) eqn:Q; [|reflexivity]. apply bits_eqb_spec in Q. subst y. exfalso. apply Hy.
    rewrite CU, <- count_up. rewrite <- P1. cbn [qs_groups fst snd]. rewrite map_id. reflexivity.
  - apply (definite (2 * No) _ (a + b)%nat _ _ C2); [|exact Lx|].
    + intros y Ly Hy. rewrite (S0 y Ly). destruct (bits_eqb y dd) eqn:Q; [|reflexivity]. apply bits_eqb_spec in Q. subst y. exfalso. apply Hy.
      rewrite count_all, <- LO. apply (RdmProofs.popcount_det (2 * No) occ ND LT).
    + rewrite count_all. exact Hx.
Qed.
Theorem ad_state depth No a b L ps : (0 < depth)%nat -> (a <= No)%nat -> (b <= No)%nat -> (forall t, In t L -> ansatz_term No t) -> (forall p : Cx, In p ps -> snd p = 0) ->
  exists prep, ad_circuit depth No a b L ps = Some prep /\ (forall g, In g prep -> valid (2 * No) g) /\
    has_up (2 * No) No a (prepared Crt (2 * No) prep) /\ has_particles (2 * No) (a + b) (prepared Crt (2 * No) prep).
Proof.
  intros D0 A B HB HR. destruct (ad_circuit_gates depth No L ps D0 HB HR) as [psi [gs [EP [EG [V [C1 C2]]]]]].
  destruct (reference Default No a b (or_introl eq_refl) A B) as [occ [E _]].
  destruct (after_reference No a b occ gs A B E V C1 C2) as [o [I0 [V' [U P]]]].
  exists (initial_circuit Crt o ++ gs). split; [unfold ad_circuit; rewrite E, I0, EP, EG; reflexivity|]. auto.
Qed.

Lemma keys_terms N real imag r : real || imag = true -> In r (RdmEnum.rdm_elements 2 real imag (seq 0 N) (seq N N)) -> ansatz_term N r.
Proof.
  intros RI Hr. assert (E : exists c a, element 2 N c a /\ r = listed c a).
  { destruct (RdmEnum.enumeration 2 N real imag ltac:(lia)) as [En1 En2]. destruct real.
    - destruct (En1 (or_introl eq_refl)) as [_ [H _]]. exact (H r Hr).
    - destruct imag; [|discriminate]. destruct (En2 eq_refl eq_refl) as [_ [H _]]. destruct (H r Hr) as [c [a [El [_ X]]]]. exists c, a. auto. }
  destruct E as [c [a [El ->]]]. pose proof (RdmProofs.element_intact 2 N c a El (or_introl (le_n 2))) as Sh. apply RdmProofs.shortens_spec in Sh.
  destruct El as [_ [_ [Lc [La [Fc [Fa U]]]]]]. destruct c as [|i [|k [|? ?]]]; try discriminate. destruct a as [|j [|l [|? ?]]]; try discriminate.
  exists i, k, l, j. split; [reflexivity|]. split; [|split; [exact Sh|]].
  - rewrite Forall_forall in Fc, Fa. intros x I. unfold listed in I. apply in_app_iff in I. destruct I as [I|I]; [exact (Fc x I)|]. apply in_rev in I. exact (Fa x I).
  - unfold up_count in U. rewrite U. cbn [filter]. destruct (j <? N)%nat, (l <? N)%nat; reflexivity.
Qed.
Lemma assign_shortened tiny N (l : list (list nat * Cx)) t p : In (t, p) l -> tiny p = false -> shortens t = true -> assign tiny N l = None.
Proof.
  intros I T S. induction l as [|[u q] l IH]; [destruct I|]. cbn [assign]. destruct I as [I|I].
  - injection I as -> ->. rewrite T. unfold assign_op. rewrite S. destruct (fermi_new true p (rdme_letters t) N); reflexivity.
  - rewrite (IH I). destruct (tiny q); [reflexivity|]. destruct (assign_op N u q); reflexivity.
Qed.
Lemma ad_ascending depth No a b (L : list (list nat)) (ps : list Cx) t p : In (t, p) (combine L ps) -> Sorted le t -> ~ NoDup t -> ad_circuit depth No a b L ps = None.
Proof.
  intros I S D. pose proof (RdmProofs.shortens_true t S D) as Sh. unfold ad_circuit. destruct (qs_initial Default No a b) as [occ|]; [|reflexivity].
  destruct (initial_operator (2 * No) occ) as [o|]; [|reflexivity]. unfold assign_variables. destruct (forallb _ _); [|reflexivity].
  unfold assign_all. rewrite (assign_shortened _ _ _ t p I eq_refl Sh). reflexivity.
Qed.
