(** Rational complex numbers inside the complex numbers: the transform commutes with the inclusion, and the conditions on a
    layer can be computed.  Used in examples. *)
From Coq Require Import Bool List Arith ZArith QArith Qcanon Reals Qreals Lra Lia.
From Verif Require Import Coeff ComplexR MatSpec OpSpec OpTotal FockSpec PauliModel PauliProofs OperatorModel FermiModel TransformModel HamModel ResModel InvSpec VqeSpec ConsSpec VqeProofs4 ShapeSpec LayerSpec EulerExample.
Import ListNotations.
Local Open Scope nat_scope.
Add Ring CxRingE : (c_ring Cx).

Lemma emb_small x : small (emb x) = small x.
Proof.
  destruct x as [a b]. change (Csmall (emb (a, b)) = gqsmall (a, b)). unfold Csmall, gqsmall, gqnorm2, emb. cbn [fst snd].
  assert (E : (Q2R (this a) * Q2R (this a) + Q2R (this b) * Q2R (this b))%R = Q2R (this (a * a + b * b)%Qc)).
  { destruct (emb_q (a * a) (b * b)) as [E1 _]. destruct (emb_q a a) as [_ [E2 _]], (emb_q b b) as [_ [E3 _]]. now rewrite E1, E2, E3. }
  assert (S : (/ 10 ^ 24)%R = Q2R smallQ).
  { unfold Q2R, smallQ. cbn [Qnum Qden]. rewrite Rmult_1_l. f_equal. cbn [pow]. lra. }
  rewrite E, S. destruct (Qle_bool (this (a * a + b * b)%Qc) smallQ) eqn:L; destruct (Rle_dec _ _) as [l|n]; try reflexivity.
  - exfalso. apply n. apply Qle_Rle. now apply Qle_bool_iff.
  - exfalso. apply Rle_Qle in l. apply Qle_bool_iff in l. congruence.
Qed.
Lemma emb_half : emb chalf = chalf. Proof. apply C_eq; cbn; unfold Q2R; cbn; lra. Qed.
Lemma emb_i : emb ci = ci. Proof. apply C_eq; cbn; unfold Q2R; cbn; lra. Qed.
Lemma emb_ipow z : emb (ipow z) = ipow z.
Proof. unfold ipow. repeat match goal with |- context [match ?x with _ => _ end] => destruct x end; rewrite ?emb_opp, ?emb_1, ?emb_i; reflexivity. Qed.
Lemma emb_pow x k : emb (cpow x k) = cpow (emb x) k.
Proof. induction k as [|k IH]; cbn [cpow]; [apply emb_1|]. now rewrite emb_mul, IH. Qed.

Definition em {key} (e : key * GaussQ) : key * Cx := (fst e, emb (snd e)).
Notation emo := (map em).
Section Keyed.
  Variable key : Type.
  Variable keqb : key -> key -> bool.
  Lemma emo_get k (o : list (key * GaussQ)) : op_get keqb k (emo o) = option_map emb (op_get keqb k o).
  Proof. induction o as [|[k' x] o IH]; [reflexivity|]. cbn [map em fst snd op_get]. destruct (keqb k k'); [reflexivity|exact IH]. Qed.
  Lemma emo_set k x (o : list (key * GaussQ)) : op_set keqb k (emb x) (emo o) = emo (op_set keqb k x o).
  Proof. induction o as [|[k' y] o IH]; [reflexivity|]. cbn [map em fst snd op_set]. destruct (keqb k k'); [reflexivity|]. cbn [map em fst snd]. now rewrite IH. Qed.
  Lemma emo_add_string (o : list (key * GaussQ)) e : op_add_string keqb (emo o) (em e) = emo (op_add_string keqb o e).
  Proof.
    unfold op_add_string. cbn [em fst snd]. rewrite emo_get. destruct (op_get keqb (fst e) o) as [y|]; cbn [option_map]; [|apply emo_set].
    rewrite <- emb_add. apply emo_set.
  Qed.
  Lemma emo_clean (o : list (key * GaussQ)) : op_clean (emo o) = emo (op_clean o).
  Proof. unfold op_clean. induction o as [|e o IH]; [reflexivity|]. cbn [map filter em snd]. rewrite emb_small. destruct (small (snd e)); cbn [negb]; [exact IH|]. cbn [map]. now rewrite IH. Qed.
  Lemma emo_fold (a o : list (key * GaussQ)) : fold_left (op_add_string keqb) (emo a) (emo o) = emo (fold_left (op_add_string keqb) a o).
  Proof. revert o. induction a as [|e a IH]; intro o; [reflexivity|]. cbn [map fold_left]. rewrite emo_add_string. apply IH. Qed.
  Lemma emo_add (o a : list (key * GaussQ)) : op_add keqb (emo o) (emo a) = emo (op_add keqb o a).
  Proof. unfold op_add. now rewrite emo_fold, emo_clean. Qed.
End Keyed.
Lemma em_pauli_mul (x y : list pauli * GaussQ) : pauli_mul (em x) (em y) = em (pauli_mul x y).
Proof. unfold pauli_mul, em. cbn [fst snd]. now rewrite !emb_mul, !emb_ipow. Qed.
Lemma emo_mul (o a : list (list pauli * GaussQ)) : pop_mul (emo o) (emo a) = emo (pop_mul o a).
Proof.
  unfold pop_mul, op_mul. rewrite <- emo_clean. f_equal. change (@nil (list pauli * Cx)) with (emo (@nil (list pauli * GaussQ))).
  generalize (@nil (list pauli * GaussQ)). induction a as [|x a IH]; intro new; [reflexivity|]. cbn [map fold_left].
  assert (S : forall o new, fold_left (fun n s => op_add_string pauli_list_eqb n (pauli_mul s (em x))) (emo o) (emo new) = emo (fold_left (fun n s => op_add_string pauli_list_eqb n (pauli_mul s x)) o new)).
  { clear. intro o. induction o as [|s o IH]; intro new; [reflexivity|]. cbn [map fold_left]. rewrite em_pauli_mul, emo_add_string. apply IH. }
  rewrite S. apply IH.
Qed.
Lemma emo_two s1 a1 s2 a2 : two_term s1 (emb a1) s2 (emb a2) = emo (two_term s1 a1 s2 a2).
Proof.
  unfold two_term, pop_add_string. change (s1, emb a1) with (em (s1, a1)). change (s2, emb a2) with (em (s2, a2)). change (@nil (list pauli * Cx)) with (emo (@nil (list pauli * GaussQ))).
  now rewrite !emo_add_string.
Qed.
Lemma emo_term N q o : @jw_term Cx N q o = emo (@jw_term GaussQ N q o).
Proof.
  assert (L : @ladder_c2 Cx o = emb (@ladder_c2 GaussQ o)) by (destruct o; cbn [ladder_c2]; now rewrite emb_mul, emb_sub, ?emb_1, ?emb_0, emb_half, emb_i).
  assert (M : @number_c2 Cx o = emb (@number_c2 GaussQ o)) by (destruct o; cbn [number_c2]; now rewrite emb_sub, ?emb_1, ?emb_0, emb_half).
  unfold jw_term. rewrite L, M, <- emb_half. destruct (ladder o); apply emo_two.
Qed.
Lemma emo_jw_string e : jw_string (em e) = emo (jw_string e).
Proof.
  unfold jw_string. cbn [em fst snd]. unfold pop_add_string. change (repeat PI (length (fst e)), emb (snd e)) with (em (repeat PI (length (fst e)), snd e)).
  change (@nil (list pauli * Cx)) with (emo (@nil (list pauli * GaussQ))). rewrite emo_add_string.
  generalize (op_add_string pauli_list_eqb [] (repeat PI (length (fst e)), snd e)). generalize (length (fst e)). intro N.
  induction (rev (fst e)) as [|[o|] rs IH]; intro new; cbn [jw_loop]; [reflexivity| |apply IH]. rewrite emo_term, emo_mul. apply IH.
Qed.
Lemma emo_jw_operator (o : list (fstr * GaussQ)) : jw_operator (emo o) = emo (jw_operator o).
Proof.
  unfold jw_operator, op_transform. change (@nil (list pauli * Cx)) with (emo (@nil (list pauli * GaussQ))). generalize (@nil (list pauli * GaussQ)).
  induction o as [|e o IH]; intro new; [reflexivity|]. cbn [map fold_left]. rewrite emo_jw_string, emo_add. apply IH.
Qed.
Lemma emo_coefficient s (l : list (list pauli * GaussQ)) : coefficient s (emo l) = emb (coefficient s l).
Proof. unfold coefficient. induction l as [|e l IH]; cbn [map fold_right]; [symmetry; apply emb_0|]. rewrite IH. cbn [em fst snd]. destruct (pauli_list_eqb s (fst e)); [symmetry; apply emb_add|reflexivity]. Qed.
Lemma emo_flat (o : list (fstr * GaussQ)) : flat_map jw_string (emo o) = emo (flat_map jw_string o).
Proof. induction o as [|e o IH]; [reflexivity|]. cbn [map flat_map]. now rewrite emo_jw_string, map_app, IH. Qed.

(** A test that a list satisfies the three conditions. *)
Definition regular_b (o : list (fstr * GaussQ)) : bool :=
  forallb (fun e => negb (small (cmul (cpow chalf (length (flat 0 (fst e)))) (snd e)))) o &&
  forallb (fun k => let l := flat_map jw_string (firstn k o) in
    forallb (fun e => let x := coefficient (fst e) l in if small x then ceqb x c0 && negb (odd_y (fst e)) else true) l) (seq 0 (S (length o))).
Lemma coefficient_absent {K : CoefRing} s (l : list (list pauli * K)) : ~ In s (map fst l) -> coefficient s l = c0.
Proof.
  unfold coefficient. induction l as [|e l IH]; intro H; [reflexivity|]. cbn [map In fold_right] in *. destruct (pauli_list_eqb s (fst e)) eqn:E.
  - exfalso. apply H. left. symmetry. now apply pauli_list_eqb_spec.
  - apply IH. tauto.
Qed.
Theorem regular_b_spec o : regular_b o = true -> above_cutoff (emo o) /\ no_cancel (emo o) /\ exact_sums (emo o).
Proof.
  intro H. apply andb_true_iff in H. destruct H as [H1 H2]. rewrite forallb_forall in H1, H2.
  assert (G : forall o1 o2 s, emo o = o1 ++ o2 -> exists q, o1 = emo q /\ (In s (map fst (flat_map jw_string q)) -> small (coefficient s (flat_map jw_string q)) = true -> coefficient s (flat_map jw_string q) = c0 /\ odd_y s = false)).
  { intros o1 o2 s E. exists (firstn (length o1) o).
    assert (E1 : o1 = emo (firstn (length o1) o)) by (rewrite <- firstn_map, E, firstn_app, Nat.sub_diag, firstn_all; cbn; now rewrite app_nil_r).
    split; [exact E1|]. intros I SM. assert (Q : In (length o1) (seq 0 (S (length o)))).
    { apply in_seq. split; [lia|]. pose proof (f_equal (@length _) E) as L. rewrite map_length, app_length in L. lia. }
    specialize (H2 _ Q). cbv zeta in H2. rewrite forallb_forall in H2. apply in_map_iff in I. destruct I as [e [<- I]]. specialize (H2 e I). rewrite SM in H2.
    apply andb_true_iff in H2. destruct H2 as [A B]. split; [now apply ceqb_spec|now apply negb_true_iff]. }
  split; [|split].
  - intros e I. apply in_map_iff in I. destruct I as [q [<- I]]. specialize (H1 q I). apply negb_true_iff in H1. cbn [em fst snd]. rewrite <- emb_half, <- emb_pow, <- emb_mul, emb_small. exact H1.
  - intros o1 o2 s E O [e [I J]]. destruct (G o1 o2 s E) as [q [-> F]]. rewrite emo_flat, emo_coefficient, emb_small. destruct (small _) eqn:S; [|reflexivity]. exfalso.
    destruct F as [_ F]; [|reflexivity|congruence]. apply in_map_iff in I. destruct I as [e' [<- I]]. rewrite emo_jw_string in J. rewrite map_map in J. cbn [em fst] in J.
    apply in_map_iff in J. destruct J as [x [<- J]]. apply in_map. apply in_flat_map. exists e'. now split.
  - intros o1 o2 s E S. destruct (G o1 o2 s E) as [q [-> F]]. rewrite emo_flat, emo_coefficient in *. rewrite emb_small in S.
    destruct (in_dec pkeq s (map fst (flat_map jw_string q))) as [I|I].
    + rewrite (proj1 (F I S)). apply emb_0.
    + rewrite (coefficient_absent s _ I). apply emb_0.
Qed.
(** A test that an operator is a generator. *)
Fixpoint all_bits (n : nat) : list bits := match n with O => [[]] | S n' => map (cons false) (all_bits n') ++ map (cons true) (all_bits n') end.
Lemma all_bits_in x : In x (all_bits (length x)).
Proof. induction x as [|b x IH]; cbn [length all_bits]; [now left|]. apply in_app_iff. destruct b; [right|left]; now apply in_map. Qed.
Lemma emb_fmat (o : list (fstr * GaussQ)) r c : fmat (emo o) r c = emb (fmat o r c).
Proof.
  induction o as [|[s x] o IH]; [symmetry; apply emb_0|]. cbn [map em fst snd fmat]. unfold madd, mscal, fstr_mat in *. rewrite IH, emb_add, emb_mul. f_equal. f_equal. symmetry. apply emb_fock.
Qed.
Lemma emb_conj x : emb (cconj x) = cconj (emb x).
Proof. destruct x as [a b]. apply C_eq; cbn [emb fst snd Cx cconj Cconj]; [reflexivity|exact (proj1 (proj2 (proj2 (emb_q b a))))]. Qed.
Definition generator_b (N : nat) (P : nat -> bool) (o : list (fstr * GaussQ)) : bool :=
  forallb (fun e => Nat.eqb (length (fst e)) N && ceqb (cconj (snd e)) (snd e)) o &&
  forallb (fun r => forallb (fun c => ceqb (cconj (fmat o c r)) (copp (fmat o r c)) && (ceqb (fmat o r c) c0 || Nat.eqb (count_in P r) (count_in P c))) (all_bits N)) (all_bits N).
Theorem generator_b_spec N P o : generator_b N P o = true -> generator N P (emo o).
Proof.
  intro H. apply andb_true_iff in H. destruct H as [H1 H2]. rewrite forallb_forall in H1, H2.
  assert (G : forall r c, length r = N -> length c = N -> cconj (fmat o c r) = copp (fmat o r c) /\ (fmat o r c = c0 \/ count_in P r = count_in P c)).
  { intros r c Lr Lc. assert (Ir : In r (all_bits N)) by (rewrite <- Lr; apply all_bits_in). assert (Ic : In c (all_bits N)) by (rewrite <- Lc; apply all_bits_in).
    specialize (H2 r Ir). rewrite forallb_forall in H2. specialize (H2 c Ic). apply andb_true_iff in H2. destruct H2 as [A B]. split; [now apply ceqb_spec|].
    apply orb_true_iff in B. destruct B as [B|B]; [left; now apply ceqb_spec|right; now apply Nat.eqb_eq]. }
  split; [|split].
  - intros e I. apply in_map_iff in I. destruct I as [q [<- I]]. specialize (H1 q I). apply andb_true_iff in H1. destruct H1 as [A B]. cbn [em fst snd]. split; [now apply Nat.eqb_eq|].
    rewrite <- emb_conj. f_equal. now apply ceqb_spec.
  - intros r c Lr Lc. rewrite !emb_fmat, <- emb_conj, <- emb_opp. f_equal. exact (proj1 (G r c Lr Lc)).
  - intros r c Lr Lc X. rewrite emb_fmat in X. destruct (proj2 (G r c Lr Lc)) as [Z|Q]; [|exact Q]. exfalso. apply X. rewrite Z. apply emb_0.
Qed.
Lemma Q2R_this_inj (a b : Qc) : Q2R (this a) = Q2R (this b) -> a = b.
Proof. intro H. apply Qc_is_canon. now apply eqR_Qeq. Qed.
Lemma emb_inj x y : emb x = emb y -> x = y.
Proof. destruct x as [a b], y as [c d]. unfold emb. cbn [fst snd]. intro H. injection H as H1 H2. now rewrite (Q2R_this_inj a c H1), (Q2R_this_inj b d H2). Qed.
Lemma emb_eqb x y : ceqb (emb x) (emb y) = ceqb x y.
Proof.
  destruct (ceqb x y) eqn:E.
  - apply ceqb_spec in E. subst y. now apply ceqb_spec.
  - destruct (ceqb (emb x) (emb y)) eqn:F; [|reflexivity]. apply ceqb_spec in F. apply emb_inj in F. subst y. rewrite (proj2 (ceqb_spec _ x x) eq_refl) in E. discriminate.
Qed.
Lemma emb_sort anti f : forall c l, sort_loop anti f (emb c) l = option_map (fun e => (emb (fst e), snd e)) (sort_loop anti f c l).
Proof.
  induction f as [|f IH]; intros c l; [reflexivity|]. cbn [sort_loop]. destruct (bubble_pass l) as [[s l']|]; [|reflexivity].
  rewrite <- IH. f_equal. destruct (anti && s); [|reflexivity]. now rewrite emb_mul, emb_opp, emb_1.
Qed.
Lemma emb_generate anti c l N : generate anti (emb c) l N = option_map em (generate anti c l N).
Proof.
  unfold generate. rewrite emb_sort. destruct (sort_loop anti _ c l) as [[c' l']|]; [|reflexivity]. cbn [option_map fst snd].
  destruct (merge_stage l') as [[m|]|]; [| |reflexivity].
  - rewrite <- emb_0, emb_eqb. destruct (ceqb c' c0); [reflexivity|]. now destruct m.
  - rewrite <- emb_0, emb_eqb. destruct (ceqb c0 c0); [reflexivity|]. now rewrite ?emb_0.
Qed.
Lemma emb_new anti c l N : fermi_new anti (emb c) l N = option_map em (fermi_new anti c l N).
Proof. destruct l as [|e l]; [reflexivity|]. exact (emb_generate anti c (e :: l) N). Qed.
Lemma emo_add_strings N l : forall o, add_strings N (map (fun e : GaussQ * _ => (emb (fst e), snd e)) l) (emo o) = option_map emo (add_strings N l o).
Proof.
  induction l as [|[c w] l IH]; intro o; [reflexivity|]. cbn [map add_strings fst snd]. rewrite emb_new. destruct (fermi_new true c w N) as [e|]; [|reflexivity]. cbn [option_map]. rewrite emo_add_string. apply IH.
Qed.
Lemma filter_map_swap {A B} (f : A -> B) (p : B -> bool) (q : A -> bool) l : (forall x, In x l -> p (f x) = q x) -> filter p (map f l) = map f (filter q l).
Proof. induction l as [|x l IH]; intro H; [reflexivity|]. cbn [map filter]. rewrite (H x (or_introl eq_refl)), IH by (intros y I; apply H; now right). now destruct (q x). Qed.
Lemma flat_map_map {A B C} (f : B -> C) (g : A -> list B) l : flat_map (fun x => map f (g x)) l = map f (flat_map g l).
Proof. induction l as [|x l IH]; [reflexivity|]. cbn [flat_map]. now rewrite IH, map_app. Qed.
Lemma emb_nonzeros d (A : nat -> nat -> nat -> nat -> GaussQ) : nonzeros d (fun i k j l => emb (A i k j l)) = emo (nonzeros d A).
Proof.
  unfold nonzeros. rewrite <- (filter_map_swap em (fun e => negb (ceqb (snd e) c0)) (fun e => negb (ceqb (snd e) c0))).
  - f_equal. rewrite <- flat_map_map. apply flat_map_ext. intro i. rewrite <- flat_map_map. apply flat_map_ext. intro k. rewrite <- flat_map_map. apply flat_map_ext. intro j. rewrite map_map. reflexivity.
  - intros x _. cbn [em snd]. now rewrite <- emb_0, emb_eqb.
Qed.
Lemma emb_residual_operator keep keepq d N (A : nat -> nat -> nat -> nat -> GaussQ) : (forall e, In e (nonzeros d A) -> keep (emb (snd e)) = keepq (snd e)) ->
  residual_operator keep d N (fun i k j l => emb (A i k j l)) = option_map emo (residual_operator keepq d N A).
Proof.
  intro H. unfold residual_operator. rewrite emb_nonzeros, (filter_map_swap em (fun e => keep (snd e)) (fun e => keepq (snd e))) by exact H.
  rewrite <- (emo_add_strings N _ []). cbn [map]. f_equal. rewrite !map_map. apply map_ext. intros [[[[i k] j] l] x]. cbn [em fst snd]. now rewrite emb_opp.
Qed.
