(** The circuit of an ansatz is the product of the rotations of its excitations. *)
From Coq Require Import Bool List Arith Reals Lra Lia Ring.
From Verif Require Import Coeff MatSpec MatLemmas AdjProofs OpSpec FockSpec CircuitSpec CircuitModel CircuitProofs CircuitProofs2 ComplexR PauliModel OperatorModel FermiModel FermiProofs KeyProofs
  QuantSpec QuantProofs QuantProofs2 RdmModel RdmSpec RdmFock VqeModel VqeSpec VqeProofs3 VqeProofs4 StoreModel PlanSpec ConsSpec ConsModel ConsProofs ConsProofs2 ConsProofs3 StoreProofs InitProofs HamModel HamSpec TransformModel PlanModel PlanSpec PlanProofs3 PlanProofs5 EulerProofs3 AdaptProofs3 AdCircModel AdaptProofs4 RotSpec RotProofs.
Import ListNotations.
Local Open Scope R_scope.
Add Ring CxRing6 : (c_ring Cx).

Lemma yodd_letters s : yodd s = true -> existsb (fun p => negb (pauli_eqb p PI)) s = true.
Proof. induction s as [|[] s IH]; cbn [yodd existsb pauli_eqb negb orb xorb]; intro H; try reflexivity; try discriminate. apply IH. destruct (yodd s); [reflexivity|discriminate]. Qed.
Lemma gen_sumop (l : list (R * list pauli)) r c : (forall w s, In (w, s) l -> existsb (fun p => negb (pauli_eqb p PI)) s = true) -> gen l r c = sumop l r c.
Proof.
  induction l as [|[w s] l IH]; intro H; [reflexivity|]. cbn [gen sumop]. unfold madd, mscal. rewrite IH by (intros w' s' I; apply (H w' s'); right; exact I). rewrite (H w s (or_introl eq_refl)). reflexivity.
Qed.
Lemma block_rotation N m t (p : Cx) (b : list (list pauli * Cx)) u : length t = (2 * m)%nat -> (forall i, In i t -> (i < N)%nat) -> snd p = 0 ->
  meq N (omat b) (generator m t p) -> NoDup (keys b) -> (forall e, In e b -> length (fst e) = N /\ cconj (snd e) = copp (snd e)) -> (forall e, In e b -> below14 (snd (snd e)) = true -> snd (snd e) = 0) ->
  cmat Crt N (gadgets (kept below14 b) u) =[N]= rotation N (generator m t c1) (fst p * u).
Proof.
  intros HL HN HR M ND HB HT.
  assert (Rp : cconj p = p) by (apply C_eq; cbn [Cx cconj Cconj fst snd]; [reflexivity|rewrite HR; ring]).
  assert (CM : commuting N (kept below14 b)).
  { apply (generator_block below14 below14_0 N m t p b (fun _ => 0%nat) Rp M ND HB HT). intros r c _ _ _. reflexivity. }
  assert (LN : forall w s, In (w, s) (kept below14 b) -> existsb (fun q => negb (pauli_eqb q PI)) s = true).
  { intros w s I. apply kept_in in I. destruct I as [x [I [-> Tx]]]. apply yodd_letters.
    apply (proj2 (A := forall k, (k < N)%nat -> flips1 (nth k s PI) = Nat.odd (count_occ Nat.eq_dec t k))).
    apply (strings_class Cx N (fun k => Nat.odd (count_occ Nat.eq_dec t k)) b ND HB) with (x := x); [| |exact I|].
    - intros r c Lr Lc. rewrite (M r c Lr Lc). apply generator_real. exact Rp.
    - intros r c Lr Lc X. rewrite (M r c Lr Lc) in X. apply (generator_differ Cx m t p r c); [congruence|exact X].
    - intros ->. cbn in Tx. rewrite below14_0 in Tx. discriminate. }
  rewrite gadgets_flow by (intros w s I; exact (proj1 (CM w s w s I I))).
  pose proof (generator_cube N m t HL HN) as Q. cbv zeta in Q.
  apply (groups_equal N (flow N (kept below14 b)) (fun v => rotation N (generator m t c1) (fst p * v)) (mscal ((fst p, 0) : Cx) (generator m t c1))).
  - intros x y. apply flow_add. exact CM.
  - intros x y. rewrite Rmult_plus_distr_l. apply rotation_add. exact Q.
  - eapply MD_congr; [apply meq_refl| |apply MD_seq]. intros r c Lr Lc. unfold mscal. rewrite (gen_sumop _ r c LN).
    rewrite <- (kept_sum below14 b r c (fun e I => proj2 (HB e I)) HT), (M r c Lr Lc), !generator_split.
    replace ((fst p, 0) : Cx) with p by (apply C_eq; cbn [fst snd]; [reflexivity|exact HR]). ring.
  - apply rotation_MD.
Qed.

(** An ansatz. *)
Lemma rotations_app N depth l1 l2 : rotations N depth (l1 ++ l2) =[N]= mmul N (rotations N depth l2) (rotations N depth l1).
Proof.
  induction l1 as [|[t p] l1 IH]; cbn [app rotations]; [symmetry; apply mul1r|]. rewrite IH, (mulA N). reflexivity.
Qed.
Theorem ansatz_rotations depth N (l : list (list nat * Cx)) : (0 < depth)%nat ->
  (forall t p, In (t, p) l -> Nat.even (length t) = true /\ (forall i, In i t -> (i < N)%nat) /\ intact t /\ snd p = 0 /\ (p = c0 \/ small (cmul (cpow chalf (length t)) p) = false)) ->
  exists psi gs, assign_all N l = Some psi /\ ansatz_gates depth psi = Some gs /\ (forall g, In g gs -> valid N g) /\ meq N (cmat Crt N gs) (rotations N depth l).
Proof.
  intros D0 H.
  assert (EV : forall t : list nat, Nat.even (length t) = true -> length t = (2 * Nat.div2 (length t))%nat).
  { intros t E. pose proof (Nat.div2_odd (length t)) as X. unfold Nat.odd in X. rewrite E in X. cbn [negb Nat.b2n] in X. lia. }
  destruct (assign_any Cx pkeq cx_domain N l) as [bs [E F]].
  { intros t p I. destruct (H t p I) as [Ev [HN [Hi [HR _]]]]. split; [exists (Nat.div2 (length t)); now apply EV|]. split; [exact HN|]. split; [exact Hi|]. apply C_eq; cbn [Cx cconj Cconj fst snd]; [reflexivity|rewrite HR; ring]. }
  exists (concat bs).
  assert (BE : forall e, In e (concat bs) -> length (fst e) = N /\ cconj (snd e) = copp (snd e)).
  { intros e I. apply in_concat in I. destruct I as [b [Ib I]]. destruct (Forall2_in_r _ _ _ F b Ib) as [tp [_ [_ [_ [_ X]]]]]. exact (X e I). }
  exists (gadgets (kept below14 (concat bs)) (/ INR depth)). split; [exact E|]. split; [apply gadgets_of; [intros e I; exact (proj2 (BE e I))|exact D0]|].
  split; [apply gadgets_valid; intros w u I; apply kept_in in I; destruct I as [x [I _]]; exact (proj1 (BE _ I))|].
  assert (TT : forall b e, In b bs -> In e b -> below14 (snd (snd e)) = true -> snd (snd e) = 0).
  { intros b e Ib I J. exfalso. apply below14_small in J. assert (I' : In e (concat bs)) by (apply in_concat; exists b; auto).
    pose proof (assign_vars_clean _ _ _ E e I') as Z. pose proof (imag_part _ (proj2 (BE e I'))) as Y. destruct e as [u [x y]]. cbn [fst snd] in *. subst x. congruence. }
  clear BE E. apply un. rewrite kept_concat, gadgets_concat. revert H TT. induction F as [|[t p] b l bs [_ [M [NB HB]]] F IH]; intros H TT; cbn [map concat rotations]; [reflexivity|].
  destruct (H t p (or_introl eq_refl)) as [Ev [HN [_ [HR Hs]]]]. cbn [fst snd] in M, HB. specialize (M Hs).
  transitivity (mmul N (cmat Crt N (concat (map (fun l => gadgets l (/ INR depth)) (map (kept below14) bs)))) (cmat Crt N (gadgets (kept below14 b) (/ INR depth)))); [constructor; apply cmat_app|].
  rewrite IH; [|intros t' p' I; apply H; right; exact I|intros b' e I; apply TT; right; exact I].
  apply mmul_proper; [reflexivity|].
  rewrite (block_rotation N (Nat.div2 (length t)) t p b (/ INR depth) (EV t Ev) HN HR M NB HB (fun e => TT b e (or_introl eq_refl))). reflexivity.
Qed.
(** Skipped excitations. *)
Lemma assign_filter tiny N (l : list (list nat * Cx)) : assign tiny N l = assign_all N (filter (fun e => negb (tiny (snd e))) l).
Proof.
  unfold assign_all. induction l as [|[t p] l IH]; [reflexivity|]. cbn [assign filter snd]. destruct (tiny p); cbn [negb assign]; [exact IH|]. now rewrite IH.
Qed.

Lemma four_indices N (l : list (list nat * Cx)) : (forall e, In e l -> length (fst e) = 4%nat) -> assign_variables N l = assign_all N l.
Proof. intro H. unfold assign_variables. replace (forallb _ l) with true; [reflexivity|]. symmetry. apply forallb_forall. intros e I. rewrite (H e I). reflexivity. Qed.

(** The prepared states. *)
Lemma take_from_spec n : forall g i acc, (i + n <= length g)%nat -> take_from g i n acc = Some (acc ++ firstn n (skipn i g)).
Proof.
  induction n as [|n IH]; intros g i acc L; cbn [take_from]; [cbn [firstn]; now rewrite app_nil_r|].
  destruct (nth_error g i) as [x|] eqn:E; [|apply nth_error_None in E; lia]. rewrite IH by lia. f_equal. rewrite <- app_assoc. f_equal.
  clear - E. revert i E. induction g as [|y g IH]; intros [|i] E; try discriminate; [injection E as ->; reflexivity|]. cbn [skipn nth_error] in *. apply IH. exact E.
Qed.
Lemma firstn_seq n : forall s m, (n <= m)%nat -> firstn n (seq s m) = seq s n.
Proof. induction n as [|n IH]; intros s [|m] L; try reflexivity; try lia. cbn [seq firstn]. f_equal. apply IH. lia. Qed.
Lemma initial_default No a b : (a <= No)%nat -> (b <= No)%nat -> qs_initial Default No a b = Some (seq 0 a ++ seq No b).
Proof.
  intros A B. unfold qs_initial. cbn [qs_groups fst snd]. rewrite map_id.
  rewrite take_from_spec by (rewrite seq_length; lia). cbn [skipn app]. rewrite firstn_seq by exact A.
  rewrite take_from_spec by (rewrite map_length, seq_length; lia). cbn [skipn]. rewrite firstn_map, firstn_seq by exact B. do 2 f_equal.
  change No with (0 + No)%nat at 2. generalize 0%nat. clear. induction b as [|b IH]; intro k; [reflexivity|]. cbn [seq map]. f_equal. apply (IH (S k)).
Qed.
Lemma map_const {A B} (f : A -> B) v l : (forall x, In x l -> f x = v) -> map f l = repeat v (length l).
Proof. induction l as [|x l IH]; intro H; [reflexivity|]. cbn [map length repeat]. rewrite (H x (or_introl eq_refl)), IH by (intros y I; apply H; right; exact I). reflexivity. Qed.
Lemma reference_map No a b : (a <= No)%nat -> (b <= No)%nat -> map (fun j => existsb (Nat.eqb j) (seq 0 a ++ seq No b)) (seq 0 (2 * No)) = reference_bits No a b.
Proof.
  intros A B. assert (X : forall j v, (j < a \/ No <= j < No + b <-> v = true)%nat -> existsb (Nat.eqb j) (seq 0 a ++ seq No b) = v).
  { intros j v H. destruct (existsb (Nat.eqb j) (seq 0 a ++ seq No b)) eqn:E.
    - apply existsb_exists in E. destruct E as [y [I Y]]. apply Nat.eqb_eq in Y. subst y. apply in_app_iff in I. rewrite !in_seq in I. symmetry. apply H. lia.
    - destruct v; [|reflexivity]. exfalso. assert (T : existsb (Nat.eqb j) (seq 0 a ++ seq No b) = true); [|congruence]. apply existsb_exists. exists j. split; [|apply Nat.eqb_refl]. apply in_app_iff. rewrite !in_seq. pose proof (proj2 H eq_refl). lia. }
  unfold reference_bits. replace (2 * No)%nat with (a + ((No - a) + (b + (No - b))))%nat by lia. rewrite !seq_app, !map_app.
  rewrite (map_const _ true (seq 0 a)), (map_const _ false (seq (0 + a) (No - a))), (map_const _ true (seq _ b)), (map_const _ false (seq _ (No - b)));
    [rewrite !seq_length; reflexivity| | | |]; intros x I; apply in_seq in I; apply X; split; intro Y; try reflexivity; try discriminate; try lia.
Qed.
Lemma prepared_rotations No a b (gs : list (gate Cx)) (A : mat Cx) : (a <= No)%nat -> (b <= No)%nat -> meq (2 * No) (cmat Crt (2 * No) gs) A ->
  exists o z, initial_operator (2 * No) (seq 0 a ++ seq No b) = Some o /\ forall x, length x = (2 * No)%nat ->
    prepared Crt (2 * No) (initial_circuit Crt o ++ gs) x = cmul (A x (reference_bits No a b)) (ipow z).
Proof.
  intros HA HB M.
  destruct (reference Default No a b (or_introl eq_refl) HA HB) as [occ [E [ND [LT _]]]]. rewrite (initial_default No a b HA HB) in E. injection E as <-.
  destruct (initial_state Cx Crt Crt_sq (2 * No) _ ND LT) as [st [z [I [z' F]]]]. rewrite (reference_map No a b HA HB) in F.
  exists [(st, ipow z)], z'. split; [exact I|]. intros x Lx.
  assert (LR : length (reference_bits No a b) = (2 * No)%nat) by (unfold reference_bits; rewrite !app_length, !repeat_length; lia).
  unfold prepared. rewrite (mvec_meq Cx (2 * No) _ _ (zero_state (2 * No)) x (cmat_app Cx Crt (2 * No) _ _) Lx), (mvec_mmul Cx).
  rewrite (mvec_meq Cx (2 * No) _ _ _ x M Lx). unfold mvec at 1.
  transitivity (sumbits (2 * No) (fun c => if bits_eqb c (reference_bits No a b) then cmul (A x c) (ipow z') else c0 : Cx)).
  - apply sumbits_ext. intros c Lc.
    replace (mvec (2 * No) (cmat Crt (2 * No) (initial_circuit Crt [(st, ipow z)])) (zero_state (2 * No)) c) with (cmat Crt (2 * No) (initial_circuit Crt [(st, ipow z)]) c (repeat false (2 * No))).
    + rewrite (F c Lc). destruct (bits_eqb c _); ring.
    + symmetry. unfold mvec, zero_state.
      transitivity (sumbits (2 * No) (fun d => if bits_eqb d (repeat false (2 * No)) then cmat Crt (2 * No) (initial_circuit Crt [(st, ipow z)]) c d else c0)).
      * apply sumbits_ext. intros d _. rewrite (bits_eqb_sym (repeat false (2 * No)) d). destruct (bits_eqb d _); ring.
      * apply (sumbits_pick Cx (2 * No) (repeat false (2 * No)) (fun d => cmat Crt (2 * No) (initial_circuit Crt [(st, ipow z)]) c d)). apply repeat_length.
  - apply (sumbits_pick Cx (2 * No) (reference_bits No a b) (fun c => cmul (A x c) (ipow z'))). exact LR.
Qed.
Theorem adapt_rotations depth No a b (L : list (list nat)) (ps : list Cx) : (0 < depth)%nat -> (a <= No)%nat -> (b <= No)%nat ->
  (forall t p, In (t, p) (combine L ps) -> Nat.even (length t) = true /\ (forall i, In i t -> (i < 2 * No)%nat) /\ intact t /\ snd p = 0 /\ (p = c0 \/ small (cmul (cpow chalf (length t)) p) = false)) -> (forall t, In t L -> length t = 4%nat) ->
  exists prep z, ad_circuit depth No a b L ps = Some prep /\
    forall x, length x = (2 * No)%nat -> prepared Crt (2 * No) prep x = cmul (rotations (2 * No) depth (combine L ps) x (reference_bits No a b)) (ipow z).
Proof.
  intros D A B H H4. destruct (ansatz_rotations depth (2 * No) (combine L ps) D H) as [psi [gs [EP [EG [V M]]]]].
  destruct (prepared_rotations No a b gs _ A B M) as [o [z [EO S]]].
  exists (initial_circuit Crt o ++ gs), z. split; [|exact S]. unfold ad_circuit. rewrite (initial_default No a b A B), EO. unfold assign_variables.
  replace (forallb _ (combine L ps)) with true; [rewrite EP, EG; reflexivity|]. symmetry. apply forallb_forall. intros [t p] I. cbn [fst]. rewrite (H4 t (in_combine_l _ _ _ _ I)). reflexivity.
Qed.
Lemma ucc_rotations depth N s d tr q ga gb ini L (ps : list Cx) : (0 < depth)%nat -> NoDup (ga ++ gb) -> (forall i, In i (ga ++ gb) -> (i < N)%nat) ->
  ucc s d tr q ga gb ini = Some L -> (forall p, In p ps -> snd p = 0) ->
  exists psi gs, assign below10 N (combine L ps) = Some psi /\ ansatz_gates depth psi = Some gs /\
    meq N (cmat Crt N gs) (rotations N depth (filter (fun e => negb (below10 (snd e))) (combine L ps))).
Proof.
  intros D0 ND HN HU HR.
  destruct (ansatz_rotations depth N (filter (fun e => negb (below10 (snd e))) (combine L ps)) D0) as [psi [gs [EP [EG [V M]]]]].
  { intros t p I. apply filter_In in I. destruct I as [I T]. cbn [snd] in T. apply negb_true_iff in T.
    pose proof (in_combine_l _ _ _ _ I) as It. pose proof (in_combine_r _ _ _ _ I) as Ip. apply (ucc_sub s d tr q ga gb ini L HU) in It.
    destruct (member_shape ga gb ini t ND It) as [NDt [HI [m [Em [M0 [M2 _]]]]]]. rewrite Em. apply below10_small in T.
    split; [rewrite Nat.even_mul; reflexivity|]. split; [intros i Hi; apply HN, HI, Hi|]. split; [right; exact NDt|]. split; [exact (HR p Ip)|]. right.
    destruct m as [|[|[|m]]]; try lia; [apply (VqeProofs4.half2 Cx); exact T|exact T]. }
  exists psi, gs. split; [rewrite assign_filter; exact EP|]. split; [exact EG|exact M].
Qed.
Theorem vqe_rotations depth s d tr q No a b (ps : list Cx) : (0 < depth)%nat -> (a <= No)%nat -> (b <= No)%nat -> negb s && (tr || q) = false -> (forall p, In p ps -> snd p = 0) ->
  exists L prep z, ucc s d tr q (seq 0 No) (seq No No) (seq 0 a ++ seq No b) = Some L /\ vqe_circuit depth s d tr q No a b ps = Some prep /\
    forall x, length x = (2 * No)%nat -> prepared Crt (2 * No) prep x = cmul (rotations (2 * No) depth (filter (fun e => negb (below10 (snd e))) (combine L ps)) x (reference_bits No a b)) (ipow z).
Proof.
  intros D A B HO HR.
  assert (EG : qs_groups Default No = (seq 0 No, seq No No)).
  { cbn [qs_groups]. rewrite map_id. f_equal. change (seq No No) with (seq (0 + No) No). assert (Q : forall n k, map (fun i => (i + No)%nat) (seq k n) = seq (k + No) n); [|apply Q].
    induction n as [|n IH]; intro k; [reflexivity|]. cbn [seq map]. f_equal. apply (IH (S k)). }
  assert (NG : NoDup (seq 0 No ++ seq No No)) by (pose proof (seq_app No No 0) as X; cbn [Nat.add] in X; rewrite <- X; apply seq_NoDup).
  assert (LG : forall i, In i (seq 0 No ++ seq No No) -> (i < 2 * No)%nat) by (intros i Hi; apply in_app_iff in Hi; rewrite !in_seq in Hi; lia).
  destruct (ucc s d tr q (seq 0 No) (seq No No) (seq 0 a ++ seq No b)) as [L|] eqn:HU; [|unfold ucc in HU; rewrite HO in HU; discriminate].
  destruct (ucc_rotations depth (2 * No) s d tr q _ _ _ L ps D NG LG HU HR) as [psi [gs [EP [EQ M]]]].
  destruct (prepared_rotations No a b gs _ A B M) as [o [z [EO S]]].
  exists L, (initial_circuit Crt o ++ gs), z. split; [reflexivity|]. split; [|exact S].
  unfold vqe_circuit. cbv zeta. rewrite EG, (initial_default No a b A B), EO. cbn [fst snd]. rewrite HU, EP, EQ. reflexivity.
Qed.
Lemma not_small k (p : Cx) : snd p = 0 -> 2 ^ k / 10 ^ 12 < Rabs (fst p) -> small (cmul (cpow chalf k) p) = false.
Proof.
  intros HR H. change (Csmall (cmul (cpow chalf k) p) = false). destruct p as [u v]. cbn [fst snd] in *. subst v.
  assert (E : cmul (cpow chalf k) ((u, 0) : Cx) = (((/ 2) ^ k * u, 0) : Cx)).
  { clear H. induction k as [|k IH]; cbn [cpow pow]; [apply C_eq; cbn [Cx cmul Cmul c1 C1 fst snd]; ring|].
    transitivity (cmul chalf (cmul (cpow chalf k) ((u, 0) : Cx)) : Cx); [ring|]. rewrite IH. apply C_eq; cbn [Cx cmul Cmul chalf Chalf fst snd]; lra. }
  rewrite E. unfold Csmall. destruct (Rle_dec _ _) as [l|]; [|reflexivity]. exfalso. cbn [fst snd] in l.
  assert (P : 0 < 2 ^ k) by (apply pow_lt; lra).
  assert (Q : (/ 2) ^ k * 2 ^ k = 1) by (rewrite <- Rpow_mult_distr; replace (/ 2 * 2) with 1 by field; apply pow1).
  assert (W : / 10 ^ 12 < Rabs ((/ 2) ^ k * u)).
  { rewrite Rabs_mult, (Rabs_right ((/ 2) ^ k)) by (left; apply pow_lt; lra). apply (Rmult_lt_reg_l (2 ^ k) _ _ P).
    replace (2 ^ k * ((/ 2) ^ k * Rabs u)) with ((/ 2) ^ k * 2 ^ k * Rabs u) by ring. rewrite Q, Rmult_1_l. exact H. }
  assert (T : / 10 ^ 24 = / 10 ^ 12 * / 10 ^ 12) by (replace (10 ^ 24) with (10 ^ 12 * 10 ^ 12) by ring; apply Rinv_mult).
  assert (Z : 0 < / 10 ^ 12) by (apply Rinv_0_lt_compat, pow_lt; lra).
  assert (Y : (/ 2) ^ k * u * ((/ 2) ^ k * u) = Rabs ((/ 2) ^ k * u) * Rabs ((/ 2) ^ k * u)) by (rewrite <- Rabs_mult; symmetry; apply Rabs_right, Rle_ge, Rle_0_sqr).
  rewrite T in l. revert W l Z. rewrite Y. generalize (Rabs ((/ 2) ^ k * u)) (/ 10 ^ 12). intros w e. nra.
Qed.
Lemma usable_small N l : usable N l -> forall t p, In (t, p) l -> Nat.even (length t) = true /\ (forall i, In i t -> (i < N)%nat) /\ intact t /\ snd p = 0 /\ (p = c0 \/ small (cmul (cpow chalf (length t)) p) = false).
Proof.
  intros H t p I. destruct (H t p I) as [A [B [Hi [C D]]]]. split; [exact A|]. split; [exact B|]. split; [exact Hi|]. split; [exact C|].
  destruct D as [D|D]; [left; apply C_eq; [exact D|exact C]|right; apply not_small; assumption].
Qed.
(** The period of a parameter. *)
Lemma rotation_period N G x : rotation N G (x + 2 * Rtrigo1.PI) = rotation N G x.
Proof. unfold rotation. now rewrite (sin_plus (x)), (cos_plus x), sin_2PI, cos_2PI, !Rmult_0_r, !Rmult_1_r, Rplus_0_r, Rminus_0_r. Qed.
Lemma rotations_period N depth t (p : Cx) l1 l2 : (0 < depth)%nat ->
  rotations N depth (l1 ++ (t, (fst p + 2 * Rtrigo1.PI * INR depth, 0) : Cx) :: l2) = rotations N depth (l1 ++ (t, p) :: l2).
Proof.
  intro D. assert (H : INR depth <> 0) by (apply not_0_INR; lia).
  induction l1 as [|[t' p'] l1 IH]; cbn [app rotations]; [|now rewrite IH].
  cbn [fst]. replace ((fst p + 2 * Rtrigo1.PI * INR depth) / INR depth) with (fst p / INR depth + 2 * Rtrigo1.PI) by (field; exact H). now rewrite rotation_period.
Qed.
Theorem rotation_group N m t : length t = (2 * m)%nat -> (forall i, In i t -> (i < N)%nat) ->
  let G := generator m t (c1 : Cx) in
  meq N (mmul N G (mmul N G G)) (mscal (copp c1) G) /\ meq N (rotation N G 0) mone /\
  (forall x y, meq N (rotation N G (x + y)) (mmul N (rotation N G x) (rotation N G y))) /\
  (forall r c, length r = N -> length c = N -> derivable_pt_lim (fun x => fst (rotation N G x r c)) 0 (fst (G r c)) /\ derivable_pt_lim (fun x => snd (rotation N G x r c)) 0 (snd (G r c))).
Proof.
  intros HL HN G. pose proof (generator_cube N m t HL HN) as Q. cbv zeta in Q. fold G in Q.
  split; [apply un; exact Q|split; [|split]].
  - intros r c Lr Lc. unfold rotation, madd, mscal. rewrite sin_0, cos_0, Rminus_diag_eq by reflexivity. apply C_eq; cbn [Cx cadd cmul Cadd Cmul fst snd]; ring.
  - intros x y. apply un. apply rotation_add. exact Q.
  - intros r c Lr Lc. destruct (proj2 (MD_ext N (fun x => rotation N G (1 * x)) (fun x => rotation N G x) mone (mscal ((1, 0) : Cx) G) (fun x => ltac:(intros r' c' _ _; rewrite Rmult_1_l; reflexivity)) (rotation_MD N G 1)) r c Lr Lc) as [A B].
    replace (mscal ((1, 0) : Cx) G r c) with (G r c) in A, B by (unfold mscal; change ((1, 0) : Cx) with (c1 : Cx); ring). split; assumption.
Qed.
