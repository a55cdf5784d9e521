(** The letters of the string built from a word of creators followed by annihilators, and of its ordered form. *)
From Coq Require Import Bool List Arith Lia Permutation.
From Verif Require Import Coeff MatSpec MatLemmas FockSpec FermiModel FermiProofs JWProofs OrderModel OrderSpec OrderProofs KeyProofs.
Import ListNotations.

Definition creI (l : list (fop * nat)) : list nat := flat_map (fun e => match fst e with Cre | Par => [snd e] | _ => [] end) l.
Definition annI (l : list (fop * nat)) : list nat := flat_map (fun e => match fst e with Ann | Par => [snd e] | _ => [] end) l.
Definition nohol (l : list (fop * nat)) : Prop := forall e, In e l -> fst e <> Hol.
Definition neat (l : list (fop * nat)) : Prop := apart l /\ nohol l /\ NoDup (creI l) /\ NoDup (annI l).
Lemma creI_perm l l' : Permutation l l' -> Permutation (creI l) (creI l').
Proof. apply Permutation_flat_map. Qed.
Lemma annI_perm l l' : Permutation l l' -> Permutation (annI l) (annI l').
Proof. apply Permutation_flat_map. Qed.
Lemma in_creI o i l : (o = Cre \/ o = Par) -> In (o, i) l -> In i (creI l).
Proof. intros Ho H. apply in_flat_map. exists (o, i). split; [exact H|]. destruct Ho as [-> | ->]; now left. Qed.
Lemma in_annI o i l : (o = Ann \/ o = Par) -> In (o, i) l -> In i (annI l).
Proof. intros Ho H. apply in_flat_map. exists (o, i). split; [exact H|]. destruct Ho as [-> | ->]; now left. Qed.
Lemma apart_inv x l : apart (x :: l) -> apart l /\ forall y, In y l -> fst x = Ann -> fst y = Cre -> snd x <> snd y.
Proof. intro H. inversion H as [|? ? F A]; subst. split; [exact A|]. exact (proj1 (Forall_forall _ _) F). Qed.
Lemma apart_cons x l : apart l -> (forall y, In y l -> fst x = Ann -> fst y = Cre -> snd x <> snd y) -> apart (x :: l).
Proof. intros A F. constructor; [exact (proj2 (Forall_forall _ _) F)|exact A]. Qed.
Lemma bubble_apart l s l' : bubble_pass l = Some (s, l') -> apart l -> apart l'.
Proof.
  revert s l'. induction l as [|[a i] t IH]; intros s l'; [discriminate|]. cbn [bubble_pass]. destruct t as [|[b j] t']; [discriminate|].
  destruct (Nat.ltb_spec j i).
  - intros E A. injection E as <- <-. apply apart_inv in A. destruct A as [A X]. apply apart_inv in A. destruct A as [A Y].
    apply apart_cons; [apply apart_cons; [exact A|intros y Hy; apply X; now right]|]. intros y [<-|Hy]; [cbn; lia|now apply Y].
  - destruct (bubble_pass ((b, j) :: t')) as [[s1 l1]|] eqn:B; [|discriminate]. intros E A. injection E as <- <-. apply apart_inv in A. destruct A as [A X].
    apply apart_cons; [now apply (IH s1 l1)|]. intros y Hy. apply X. apply (Permutation_in _ (Permutation_sym (bubble_pass_perm _ _ _ B)) Hy).
Qed.
Lemma neat_bubble l s l' : bubble_pass l = Some (s, l') -> neat l -> neat l'.
Proof.
  intros B [A [H [C N]]]. assert (P := bubble_pass_perm _ _ _ B). split; [now apply (bubble_apart l s)|]. split; [|split].
  - intros e He. apply H. apply (Permutation_in _ (Permutation_sym P) He).
  - apply (Permutation_NoDup (creI_perm _ _ P) C).
  - apply (Permutation_NoDup (annI_perm _ _ P) N).
Qed.
(** Two letters of the same mode in a neat list are a creator and an annihilator. *)
Lemma neat_pair a b i l : neat ((a, i) :: (b, i) :: l) -> a = Cre /\ b = Ann.
Proof.
  intros [A [H [C N]]]. apply apart_inv in A. destruct A as [_ X]. specialize (X (b, i) (or_introl eq_refl)). cbn [fst snd] in X.
  assert (Ha := H (a, i) (or_introl eq_refl)). assert (Hb := H (b, i) (or_intror (or_introl eq_refl))). cbn [fst] in *.
  unfold creI in C. unfold annI in N. cbn [flat_map fst snd] in C, N.
  destruct a, b; cbn [app] in *; try contradiction; try (now split); try (exfalso; now apply X);
    exfalso; [inversion C as [|? ? Q _]|inversion C as [|? ? Q _]|inversion N as [|? ? Q _]|inversion N as [|? ? Q _]|inversion C as [|? ? Q _]|inversion N as [|? ? Q _]|inversion C as [|? ? Q _]]; apply Q; now left.
Qed.
Lemma neat_tail x l : neat (x :: l) -> neat l.
Proof.
  intros [A [H [C N]]]. split; [now apply apart_inv in A|]. split; [intros e He; apply H; now right|].
  unfold creI, annI in *. cbn [flat_map] in C, N. split; [clear - C|clear - N]; destruct (fst x); cbn [app] in *; try assumption; [inversion C|inversion C|inversion N|inversion N]; assumption.
Qed.
Lemma merge_neat l : neat l -> merge_pass l <> MZero /\ forall l', merge_pass l = MCont l' -> neat l' /\ creI l' = creI l /\ annI l' = annI l.
Proof.
  induction l as [|[a i] t IH]; intro H; [split; [discriminate|intros l' E; discriminate]|]. cbn [merge_pass]. destruct t as [|[b j] t']; [split; [discriminate|intros l' E; discriminate]|].
  destruct (Nat.eqb_spec i j) as [<-|Nij].
  - destruct (neat_pair a b i t' H) as [-> ->]. cbn [merge_table]. split; [discriminate|]. intros l' E. injection E as <-.
    destruct H as [A [Hh [C N]]]. split; [|split; reflexivity]. split; [|split; [|split; [exact C|exact N]]].
    + apply apart_inv in A. destruct A as [A _]. apply apart_inv in A. destruct A as [A _]. apply apart_cons; [exact A|intros y _ E; discriminate].
    + intros e [<-|He]; [discriminate|]. apply Hh. right. now right.
  - destruct (IH (neat_tail _ _ H)) as [Z M]. destruct (merge_pass ((b, j) :: t')) as [| |l1] eqn:E; [split; [discriminate|intros l' E'; discriminate]|contradiction|].
    split; [discriminate|]. intros l' E'. injection E' as <-. destruct (M l1 eq_refl) as [Q [C1 N1]].
    assert (CC : creI ((a, i) :: l1) = creI ((a, i) :: (b, j) :: t')) by (unfold creI in *; cbn [flat_map fst snd] in *; now rewrite C1).
    assert (NN : annI ((a, i) :: l1) = annI ((a, i) :: (b, j) :: t')) by (unfold annI in *; cbn [flat_map fst snd] in *; now rewrite N1).
    split; [|split; assumption]. destruct H as [A [Hh [C N]]]. split; [|split; [|split; [now rewrite CC|now rewrite NN]]].
    + apply apart_cons; [apply Q|]. intros [o k] Hy Ea Eo. cbn [fst snd] in *. subst o. intro Eik. subst k.
      assert (I1 : In i (creI ((b, j) :: t'))) by (rewrite <- C1; now apply (in_creI Cre); [left|]).
      unfold creI in I1. apply in_flat_map in I1. destruct I1 as [[o k] [I1 I2]]. cbn [fst snd] in I2.
      assert (k = i /\ (o = Cre \/ o = Par)) as [-> Ho] by (destruct o; cbn in I2; try contradiction; destruct I2 as [I2|[]]; subst; auto).
      destruct Ho as [-> | ->].
      * apply apart_inv in A. destruct A as [_ X]. exact (X (Cre, i) I1 Ea eq_refl eq_refl).
      * subst a. assert (I3 : In i (annI ((b, j) :: t'))) by (now apply (in_annI Par); [right|]). unfold annI in N, I3. change (NoDup (i :: flat_map (fun e => match fst e with Ann | Par => [snd e] | _ => [] end) ((b, j) :: t'))) in N. inversion N as [|? ? G _]. contradiction.
    + intros e [<-|He]; [apply Hh; now left|]. now apply Q.
Qed.

Section Letters.
  Variable K : CoefRing.
  Add Ring KRing : (c_ring K).
  Local Open Scope coef_scope.
  (** [s] is the string of the word [w], with the sign [u]. *)
  Definition wkey (N : nat) (w : list (fop * nat)) (s : fstr) (u : K) : Prop :=
    length s = N /\ pm K u /\ (forall r c, fock_mat w r c = u * fstr_mat s r c) /\ ~ In (Some Hol) s /\ Permutation (creI (flat 0 s)) (creI w) /\ Permutation (annI (flat 0 s)) (annI w).
  Lemma flat_in s : forall n o, In (Some o) s -> exists i, In (o, i) (flat n s).
  Proof.
    induction s as [|x s IH]; intros n o H; [destruct H|]. destruct H as [-> |H]; [exists n; cbn; now left|].
    destruct (IH (S n) o H) as [i Hi]. exists i. destruct x as [x|]; cbn [flat]; [now right|exact Hi].
  Qed.
  Lemma sort_neat fuel : forall (c : K) l c' l', sort_loop true fuel c l = Some (c', l') -> neat l -> neat l'.
  Proof.
    induction fuel as [|f IH]; intros c l c' l' H N; [discriminate|]. cbn [sort_loop] in H. destruct (bubble_pass l) as [[s l1]|] eqn:B.
    - apply IH in H; [exact H|]. now apply (neat_bubble l s).
    - injection H as _ <-. exact N.
  Qed.
  Lemma merge_loop_neat fuel : forall l m, merge_loop fuel l = Some m -> neat l -> exists l', m = Some l' /\ neat l' /\ creI l' = creI l /\ annI l' = annI l.
  Proof.
    induction fuel as [|f IH]; intros l m H N; [discriminate|]. cbn [merge_loop] in H. destruct (merge_neat l N) as [Z M]. destruct (merge_pass l) as [| |l1] eqn:E.
    - injection H as <-. exists l. auto.
    - contradiction.
    - destruct (M l1 eq_refl) as [N1 [C1 A1]]. destruct (IH l1 m H N1) as [l' [-> [N' [C' A']]]]. exists l'. rewrite C', A'. auto.
  Qed.
  Lemma new_key (c : K) w N : w <> [] -> neat w -> (forall e, In e w -> (snd e < N)%nat) -> c <> 0 ->
    exists s u, fermi_new true c w N = Some (s, c * u) /\ wkey N w s u.
  Proof.
    intros Hne HN HB Hc. replace (fermi_new true c w N) with (generate true c w N) by (destruct w; [contradiction|reflexivity]). unfold generate.
    destruct (sort_loop_spec K true (S (length w * length w)%nat) c w) as [s [l1 [E [R [P So]]]]]; [pose proof (inversions_le w); lia|].
    assert (N1 := sort_neat _ _ _ _ _ E HN). rewrite E. cbn [andb].
    assert (Hne1 : l1 <> []) by (intros ->; apply Permutation_sym, Permutation_nil in P; contradiction).
    assert (G : exists l2, merge_stage l1 = Some (Some l2) /\ neat l2 /\ creI l2 = creI l1 /\ annI l2 = annI l1).
    { unfold merge_stage. destruct (nodup_inds l1); [exists l1; auto|]. destruct (merge_loop_spec (S (length l1)) l1 So (Nat.lt_succ_diag_r _)) as [[X _]|[l' [X _]]]; destruct (merge_loop_neat _ _ _ X N1) as [l2 [Y Q]].
      - discriminate.
      - injection Y as ->. exists l2. auto. }
    destruct G as [l2 [M [N2 [C2 A2]]]]. destruct (merge_stage_spec l1 So) as [[M' _]|[l2' [M' [R2 [S2 [I2 Q2]]]]]]; rewrite M in M'; [discriminate|]. injection M' as <-. rewrite M.
    cbn beta iota zeta. destruct (ceqb (c * sgn s) 0) eqn:Ec.
    { exfalso. apply Hc. apply ceqb_spec in Ec. transitivity (c * sgn s * sgn s); [|rewrite Ec; ring]. transitivity (c * (sgn s * sgn s)); [rewrite sgn_sq|]; ring. }
    specialize (Q2 Hne1). destruct l2 as [|e2 l2]; [contradiction|].
    destruct (assemble_spec (e2 :: l2) N) as [F L]; [discriminate|exact S2| |].
    { intros e He. destruct (I2 e He) as [o Ho]. apply (Permutation_in _ (Permutation_sym P)) in Ho. now apply HB in Ho. }
    eexists. exists (sgn s). split; [reflexivity|]. split; [exact L|]. split; [apply pm_sgn|]. split; [|split; [|split]].
    - intros r q. unfold fstr_mat. rewrite F, (fock_mat_rel K s w l1 r q R), (fock_mat_rel K false l1 _ r q R2). cbn [sgn]. ring.
    - intro H. destruct (flat_in _ 0 Hol H) as [i Hi]. rewrite F in Hi. exact (proj1 (proj2 N2) _ Hi eq_refl).
    - rewrite F, C2. apply creI_perm. now apply Permutation_sym.
    - rewrite F, A2. apply annI_perm. now apply Permutation_sym.
  Qed.

  (** ** The ordered form *)
  Lemma expand_creI s : ~ In (Some Hol) s -> forall n, creI (expand n s) = creI (flat n s) /\ annI (expand n s) = annI (flat n s).
  Proof.
    intro H. induction s as [|x s IH]; intro n; [split; reflexivity|]. assert (H' : ~ In (Some Hol) s) by (intro G; apply H; now right).
    destruct (IH H' (S n)) as [C A]. unfold creI, annI in *. destruct x as [[]|]; cbn [expand flat flat_map fst snd app]; rewrite ?C, ?A; try (now split). exfalso. apply H. now left.
  Qed.
  Lemma order_perm fuel : forall N (c : K) l R, apart l -> order_loop fuel N c l = Some R -> exists c' l', R = [(c', l')] /\ Permutation l l'.
  Proof.
    induction fuel as [|f IH]; intros N c l R A H; [discriminate|]. cbn [order_loop] in H. destruct (ordered l); [injection H as <-; exists c, l; auto|].
    destruct (first_swap l) as [[[[pre i] j] post]|] eqn:ES; [|now apply (IH N c l)].
    apply first_swap_eq in ES. subst l. destruct (apart_swap _ _ _ _ A) as [Nij A']. destruct (Nat.eqb_spec i j); [contradiction|].
    destruct (IH _ _ _ _ A' H) as [c' [l' [-> P]]]. exists c', l'. split; [reflexivity|]. eapply perm_trans; [|exact P]. apply Permutation_app_head. constructor.
  Qed.
  Lemma creI_app a b : creI (a ++ b) = creI a ++ creI b.
  Proof. apply flat_map_app. Qed.
  Lemma annI_app a b : annI (a ++ b) = annI a ++ annI b.
  Proof. apply flat_map_app. Qed.
  Lemma creI_cre a : (forall x, In x a -> fst x = Cre) -> creI a = map snd a /\ annI a = [].
  Proof. induction a as [|[o i] a IH]; intro H; [split; reflexivity|]. assert (E := H (o, i) (or_introl eq_refl)). cbn in E. subst o. destruct (IH (fun x Hx => H x (or_intror Hx))) as [C A]. unfold creI, annI in *. cbn. now rewrite C, A. Qed.
  Lemma annI_ann a : (forall x, In x a -> fst x = Ann) -> annI a = map snd a /\ creI a = [].
  Proof. induction a as [|[o i] a IH]; intro H; [split; reflexivity|]. assert (E := H (o, i) (or_introl eq_refl)). cbn in E. subst o. destruct (IH (fun x Hx => H x (or_intror Hx))) as [C A]. unfold creI, annI in *. cbn. now rewrite C, A. Qed.
  Lemma in_str s : forall n o i, In (o, i) (flat n s) -> In (Some o) s.
  Proof. induction s as [|x s IH]; intros n o i H; [destruct H|]. destruct x as [x|]; cbn [flat] in H; [destruct H as [H|H]; [injection H as -> _; now left|]|]; right; now apply (IH (S n) o i). Qed.
  Lemma expand_length s : ~ In (Some Hol) s -> forall n, (length (expand n s) = length (creI (flat n s)) + length (annI (flat n s)))%nat.
  Proof.
    intro H. induction s as [|x s IH]; intro n; [reflexivity|]. assert (H' : ~ In (Some Hol) s) by (intro G; apply H; now right). specialize (IH H' (S n)).
    unfold creI, annI in *. destruct x as [[]|]; cbn [expand flat flat_map fst snd app length]; try lia. exfalso. apply H. now left.
  Qed.
  Lemma order_key N w s u (c : K) fuel : wkey N w s u -> creI w <> [] -> annI w <> [] -> ((length (creI w) + length (annI w)) * (length (creI w) + length (annI w)) < fuel)%nat ->
    exists c' a b, order_as_D_matrix fuel (s, c) = Some [(c', a ++ b)] /\ Permutation (map snd a) (creI w) /\ Permutation (map snd b) (annI w).
  Proof.
    intros [L [P [M [H [C A]]]]] Cn An Hf. set (l := expand 0 s). destruct (expand_creI s H 0) as [EC EA]. fold l in EC, EA.
    assert (Len : length l = (length (creI w) + length (annI w))%nat). { unfold l. rewrite (expand_length s H). now rewrite (Permutation_length C), (Permutation_length A). }
    assert (HL : lad l) by (intros x Hx; now apply expand_in in Hx).
    assert (Pos : forall o, ladder o = true -> (In (Some o) s \/ In (Some Par) s) -> (1 <= count o l)%nat) by (intros o Ho Hi; now apply expand_pos).
    assert (X1 : In (Some Cre) s \/ In (Some Par) s).
    { destruct (creI w) as [|i t] eqn:E; [contradiction|]. assert (I : In i (creI (flat 0 s))) by (apply (Permutation_in _ (Permutation_sym C)); now left).
      apply in_flat_map in I. destruct I as [[o k] [I I']]. apply in_str in I. cbn [fst] in I'. destruct o; destruct I'; auto; contradiction. }
    assert (X2 : In (Some Ann) s \/ In (Some Par) s).
    { destruct (annI w) as [|i t] eqn:E; [contradiction|]. assert (I : In i (annI (flat 0 s))) by (apply (Permutation_in _ (Permutation_sym A)); now left).
      apply in_flat_map in I. destruct I as [[o k] [I I']]. apply in_str in I. cbn [fst] in I'. destruct o; destruct I'; auto; contradiction. }
    destruct (order_loop_spec K fuel (length s) c l HL (expand_apart s 0 H) (Pos Cre eq_refl X1) (Pos Ann eq_refl X2)) as [c' [a [b [E [Ha [Hb _]]]]]].
    { assert (Q := bad_le l). rewrite Len in Q. lia. }
    destruct (order_perm fuel (length s) c l _ (expand_apart s 0 H) E) as [c2 [l2 [E2 PP]]]. injection E2 as <- <-.
    exists c', a, b. split.
    - unfold order_as_D_matrix. cbn [fst snd]. fold l. destruct l as [|x l0]; [cbn in Len; destruct (creI w); [contradiction|discriminate]|exact E].
    - destruct (creI_cre a Ha) as [Ca Aa]. destruct (annI_ann b Hb) as [Ab Cb].
      assert (P1 := creI_perm _ _ PP). assert (P2 := annI_perm _ _ PP). rewrite creI_app, Ca, Cb, app_nil_r in P1. rewrite annI_app, Aa, Ab in P2. cbn [app] in P2.
      rewrite EC in P1. rewrite EA in P2. split; [apply (perm_trans (Permutation_sym P1) C)|apply (perm_trans (Permutation_sym P2) A)].
  Qed.
  Lemma wkey_unique N w s u s' u' : wkey N w s u -> wkey N w s' u' -> s = s' /\ u = u'.
  Proof. intros [L [P [M _]]] [L' [P' [M' _]]]. apply (mat_inj K N); auto. intros r c _ _. now rewrite <- M, <- M'. Qed.
End Letters.
