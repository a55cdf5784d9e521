(** Proofs about build_2rdm: the entries. *)
From Coq Require Import Bool List Arith ZArith Lia Ring.
From Verif Require Import Coeff MatSpec MatLemmas OpSpec FockSpec CircuitSpec FermiModel FermiProofs RdmSpec RdmFock RdmEnum RdmBuild InvModel IntsModel W2Model W2Proofs.
Import ListNotations.
Local Open Scope nat_scope.

Section W2P.
  Variable K : CoefRing.
  Add Ring KRing : (c_ring K).
  Local Open Scope coef_scope.
  Notation array4 := (nat -> nat -> nat -> nat -> K).
  Notation quad := (nat * nat * nat * nat)%type.

  (** The state of a dictionary. *)
  Definition psi_of (wf : wavefunction K) (x : bits) : K := match wf_get x wf with Some v => v | None => 0 end.

  Lemma wf_get_none wf x : ~ In x (map fst wf) -> wf_get (K := K) x wf = None.
  Proof.
    induction wf as [|[d v] wf IH]; intro H; [reflexivity|]. cbn [wf_get]. destruct (bits_eqb d x) eqn:E.
    - apply bits_eqb_spec in E. destruct H. left. exact E.
    - apply IH. intro C. apply H. right. exact C.
  Qed.
  Lemma sum_wf R (F : bits -> K) wf : NoDup (map fst wf) -> (forall d v, In (d, v) wf -> length d = R) ->
    sumbits R (fun c => F c * psi_of wf c) = lsum wf (fun e => F (fst e) * snd e).
  Proof.
    induction wf as [|[d v] wf IH]; intros Hn Hl.
    - cbn [lsum fold_right]. transitivity (sumbits R (fun _ => (0:K))); [|apply sumbits_0]. apply sumbits_ext. intros c _. unfold psi_of. cbn [wf_get]. ring.
    - cbn [map fst] in Hn. inversion Hn as [|? ? Hd Hn']. subst. change (lsum ((d, v) :: wf) (fun e => F (fst e) * snd e)) with (F d * v + lsum wf (fun e => F (fst e) * snd e)).
      rewrite <- IH by (try assumption; intros; eapply Hl; right; eassumption).
      rewrite <- (sumbits_pick K R d (fun b => F b * v)) by (eapply Hl; left; reflexivity). rewrite <- sumbits_add. apply sumbits_ext. intros c _.
      unfold psi_of. cbn [wf_get]. rewrite (bits_eqb_sym d c). destruct (bits_eqb c d) eqn:E; [|ring]. apply bits_eqb_spec in E. subst c. rewrite (wf_get_none wf d Hd). ring.
  Qed.
  Definition reach (l : list (fop * nat)) (psi : bits -> K) (d : bits) : K :=
    match fock l d with Some (s, m) => sgn s * cconj (psi m) | None => 0 end.
  Lemma expect_reach R l psi : expect R (fock_mat l) psi = sumbits R (fun c => reach l psi c * psi c).
  Proof.
    unfold expect, mvec. transitivity (sumbits R (fun r => sumbits R (fun c => cconj (psi r) * (fock_mat l r c * psi c)))).
    - apply sumbits_ext. intros r _. now rewrite sumbits_scal.
    - rewrite sumbits_swap. apply sumbits_ext. intros c Hc. unfold reach, fock_mat, pmap_mat. destruct (fock l c) as [[s m]|] eqn:E.
      + assert (Lm : length m = R) by (rewrite (fock_length _ _ _ _ E); exact Hc).
        rewrite <- (sumbits_pick K R m (fun r => sgn s * cconj (psi r) * psi c) Lm). apply sumbits_ext. intros r _. rewrite (bits_eqb_sym r m).
        destruct (bits_eqb m r); [|ring]. ring.
      + transitivity (sumbits R (fun _ => (0:K))); [|rewrite sumbits_0; ring]. apply sumbits_ext. intros; ring.
  Qed.
  Lemma expect_wf R l wf : NoDup (map fst wf) -> (forall d v, In (d, v) wf -> length d = R) ->
    expect R (fock_mat l) (psi_of wf) = lsum wf (fun e => reach l (psi_of wf) (fst e) * snd e).
  Proof. intros. rewrite expect_reach. now apply sum_wf. Qed.

  Lemma lsum_cons' {A} (x : A) l (f : A -> K) : lsum (x :: l) f = f x + lsum l f. Proof. reflexivity. Qed.
  (** One determinant. *)
  Definition ind (q p : quad) : K :=
    let '(i, k, l, j) := q in let '(a, b, c, d) := p in if Nat.eqb a i && Nat.eqb b k && Nat.eqb c l && Nat.eqb d j then 1 else 0.
  Definition weight (q p : quad) : K :=
    let '(i, k, l, j) := q in - ind (i, k, l, j) p - ind (k, i, j, l) p + ind (i, k, j, l) p + ind (k, i, l, j) p.
  Lemma add4_at q v (t : array4) p : at4 (add4 q v t) p = at4 t p + ind q p * v.
  Proof.
    destruct q as [[[i k] l] j], p as [[[a b] c] d]. unfold add4, at4, set4, ind.
    destruct (Nat.eqb_spec a i) as [->|]; cbn [andb]; [|ring]. destruct (Nat.eqb_spec b k) as [->|]; cbn [andb]; [|ring].
    destruct (Nat.eqb_spec c l) as [->|]; cbn [andb]; [|ring]. destruct (Nat.eqb_spec d j) as [->|]; ring.
  Qed.
  Lemma of_phase_zs s : of_phase (K := K) (zs s) = sgn s. Proof. destruct s; reflexivity. Qed.
  Definition inside (R : nat) (q : quad) : Prop := let '(i, k, l, j) := q in (i < R /\ k < R /\ l < R /\ j < R)%nat.
  Definition letters (q : quad) : list (fop * nat) := let '(i, k, l, j) := q in two_body i k l j.
  Lemma det_step_spec R wf i k l j t e : inside R (i, k, l, j) -> length (fst e) = R ->
    exists t', det_step wf i k l j t e = Some t' /\
      forall p, at4 t' p = at4 t p + weight (i, k, l, j) p * (reach (two_body i k l j) (psi_of wf) (fst e) * snd e).
  Proof.
    intros (Hi & Hk & Hl & Hj) He. subst R. unfold det_step. destruct e as [de ve]. cbn [fst snd] in *.
    destruct (phase_2e_spec i k l j de Hi Hk Hl Hj) as (ph & nd & E & Ep & En). rewrite E.
    unfold reach. destruct (fock (two_body i k l j) de) as [[s m]|] eqn:F; cbn [phase_of] in Ep.
    - rewrite (En s m eq_refl) in *. subst ph. replace (zs s =? 0)%Z with false by (destruct s; reflexivity). unfold psi_of.
      destruct (wf_get m wf) as [w|]; (eexists; split; [reflexivity|]); intro p.
      + rewrite !add4_at, of_phase_zs. unfold weight. ring.
      + rewrite cconj_0. ring.
    - subst ph. cbn [Z.eqb]. eexists. split; [reflexivity|]. intro p. ring.
  Qed.
  Lemma det_fold R wf i k l j : inside R (i, k, l, j) -> forall wf' t, (forall d v, In (d, v) wf' -> length d = R) ->
    exists t', fold_opt (det_step wf i k l j) wf' t = Some t' /\
      forall p, at4 t' p = at4 t p + weight (i, k, l, j) p * lsum wf' (fun e => reach (two_body i k l j) (psi_of wf) (fst e) * snd e).
  Proof.
    intro Hq. induction wf' as [|e wf' IH]; intros t Hl.
    - exists t. split; [reflexivity|]. intro p. cbn [lsum fold_right]. ring.
    - destruct (det_step_spec R wf i k l j t e Hq) as (t1 & E1 & H1); [destruct e as [d v]; eapply Hl; left; reflexivity|].
      destruct (IH t1) as (t2 & E2 & H2); [intros; eapply Hl; right; eassumption|]. exists t2. cbn [fold_opt]. rewrite E1. split; [exact E2|].
      intro p. rewrite H2, H1, lsum_cons'. cbn beta. ring.
  Qed.

  (** The element of an entry. *)
  Definition elem (R : nat) (psi : bits -> K) (p : quad) : K := let '(a, b, c, d) := p in rdm_of R psi [a; b] [c; d].
  Definition touches (q p : quad) : bool :=
    let '(i, k, l, j) := q in let '(a, b, c, d) := p in
    (Nat.eqb a i && Nat.eqb b k || Nat.eqb a k && Nat.eqb b i) && (Nat.eqb c l && Nat.eqb d j || Nat.eqb c j && Nat.eqb d l).
  Definition distinct (q : quad) : Prop := let '(i, k, l, j) := q in i <> k /\ l <> j.
  Lemma weight_elem R psi q p : distinct q -> weight q p * expect R (fock_mat (letters q)) psi = if touches q p then elem R psi p else 0.
  Proof.
    destruct q as [[[i k] l] j], p as [[[a b] c] d]. intros [N1 N2]. change (expect R (fock_mat (letters (i, k, l, j))) psi) with (rdm_of R psi [i; k] [j; l]).
    unfold weight, ind, touches, elem.
    pose proof (rdm_antisym_cre K R psi [] i k [] [j; l]) as A1. pose proof (rdm_antisym_ann K R psi [] j l [] [i; k]) as A2. pose proof (rdm_antisym_cre K R psi [] i k [] [l; j]) as A3. cbn [app] in A1, A2, A3.
    destruct (Nat.eqb_spec a i) as [->|Nai], (Nat.eqb_spec b k) as [->|Nbk]; cbn [andb orb].
    - rewrite (proj2 (Nat.eqb_neq i k) N1). cbn [andb orb].
      destruct (Nat.eqb_spec c l) as [->|], (Nat.eqb_spec d j) as [->|]; cbn [andb orb]; rewrite ?(proj2 (Nat.eqb_neq l j) N2); cbn [andb].
      + rewrite A2. ring.
      + ring.
      + destruct (Nat.eqb_spec c j); cbn [andb]; [|ring]. destruct (Nat.eqb_spec j l); [congruence|ring].
      + destruct (Nat.eqb_spec c j) as [->|]; cbn [andb]; [|ring]. destruct (Nat.eqb_spec d l) as [->|]; [ring|ring].
    - rewrite (proj2 (Nat.eqb_neq i k) N1). cbn [andb orb]. ring.
    - destruct (Nat.eqb_spec k i); [congruence|]. rewrite andb_false_r. cbn [andb orb]. ring.
    - destruct (Nat.eqb_spec a k) as [->|]; cbn [andb orb]; [|ring]. destruct (Nat.eqb_spec b i) as [->|]; cbn [andb orb]; [|ring].
      destruct (Nat.eqb_spec c l) as [->|], (Nat.eqb_spec d j) as [->|]; cbn [andb orb]; rewrite ?(proj2 (Nat.eqb_neq l j) N2); cbn [andb].
      + transitivity (rdm_of R psi [i; k] [j; l]); [ring|]. rewrite A2, A3. ring.
      + ring.
      + destruct (Nat.eqb_spec c j); cbn [andb]; [|ring]. destruct (Nat.eqb_spec j l); [congruence|ring].
      + destruct (Nat.eqb_spec c j) as [->|]; cbn [andb]; [|ring]. destruct (Nat.eqb_spec d l) as [->|]; [|ring]. rewrite A1. ring.
  Qed.

  (** One quadruple. *)
  Lemma set4_at q v (t : array4) p : at4 (set4 q v t) p = if (let '(i, k, l, j) := q in let '(a, b, c, d) := p in Nat.eqb a i && Nat.eqb b k && Nat.eqb c l && Nat.eqb d j) then v else at4 t p.
  Proof. destruct q as [[[i k] l] j], p as [[[a b] c] d]. reflexivity. Qed.
  Definition cleared (q : quad) (t : array4) : array4 :=
    let '(i, k, l, j) := q in set4 (i, k, j, l) 0 (set4 (k, i, j, l) 0 (set4 (k, i, l, j) 0 (set4 (i, k, l, j) 0 t))).
  Lemma cleared_at q t p : at4 (cleared q t) p = if touches q p then 0 else at4 t p.
  Proof.
    destruct q as [[[i k] l] j], p as [[[a b] c] d]. unfold cleared. rewrite !set4_at. unfold touches.
    destruct (Nat.eqb a i), (Nat.eqb b k), (Nat.eqb a k), (Nat.eqb b i), (Nat.eqb c l), (Nat.eqb d j), (Nat.eqb c j), (Nat.eqb d l); reflexivity.
  Qed.
  Definition all_in (o : list nat) (q : quad) : bool := let '(i, k, l, j) := q in forallb (fun x => existsb (Nat.eqb x) o) [i; j; k; l].
  Section Wave.
    Variables (R : nat) (wf : wavefunction K).
    Hypothesis keys : NoDup (map fst wf).
    Hypothesis lens : forall d v, In (d, v) wf -> length d = R.
    Notation psi := (psi_of wf).
    Lemma quad_full fixed t q : inside R q -> distinct q ->
      exists t', quad_step Full fixed wf t q = Some t' /\ forall p, at4 t' p = at4 t p + (if touches q p then elem R psi p else 0).
    Proof.
      intros Hi Hd. destruct q as [[[i k] l] j]. destruct (det_fold R wf i k l j Hi wf t lens) as (t' & E & H). exists t'. split; [exact E|].
      intro p. rewrite H, <- (expect_wf R _ wf keys lens). f_equal. exact (weight_elem R psi (i, k, l, j) p Hd).
    Qed.
    Lemma quad_active fixed t q : inside R q -> distinct q ->
      exists t', quad_step Active fixed wf t q = Some t' /\
        forall p, at4 t' p = if negb (all_in fixed q) && touches q p then elem R psi p else at4 t p.
    Proof.
      intros Hi Hd. destruct q as [[[i k] l] j]. unfold quad_step, all_in. destruct (forallb _ [i; j; k; l]); cbn [negb andb]; [eexists; split; reflexivity|].
      destruct (det_fold R wf i k l j Hi wf (cleared (i, k, l, j) t) lens) as (t' & E & H). exists t'. split; [exact E|].
      intro p. rewrite H, <- (expect_wf R _ wf keys lens), cleared_at. change (two_body i k l j) with (letters (i, k, l, j)). rewrite (weight_elem R psi (i, k, l, j) p Hd).
      destruct (touches (i, k, l, j) p); ring.
    Qed.
    Lemma fold_full fixed : forall Q t, Forall (inside R) Q -> Forall distinct Q ->
      exists t', fold_opt (quad_step Full fixed wf) Q t = Some t' /\
        forall p, at4 t' p = at4 t p + lsum Q (fun q => if touches q p then elem R psi p else 0).
    Proof.
      induction Q as [|q Q IH]; intros t H1 H2.
      - exists t. split; [reflexivity|]. intro p. cbn [lsum fold_right]. ring.
      - inversion H1; inversion H2; subst. destruct (quad_full fixed t q) as (t1 & E1 & P1); try assumption. destruct (IH t1) as (t2 & E2 & P2); try assumption.
        exists t2. cbn [fold_opt]. rewrite E1. split; [exact E2|]. intro p. rewrite P2, P1, lsum_cons'. ring.
    Qed.
    Lemma fold_active fixed : forall Q t, Forall (inside R) Q -> Forall distinct Q ->
      exists t', fold_opt (quad_step Active fixed wf) Q t = Some t' /\
        forall p, at4 t' p = if existsb (fun q => negb (all_in fixed q) && touches q p) Q then elem R psi p else at4 t p.
    Proof.
      induction Q as [|q Q IH]; intros t H1 H2.
      - exists t. split; reflexivity.
      - inversion H1; inversion H2; subst. destruct (quad_active fixed t q) as (t1 & E1 & P1); try assumption. destruct (IH t1) as (t2 & E2 & P2); try assumption.
        exists t2. cbn [fold_opt]. rewrite E1. split; [exact E2|]. intro p. rewrite P2, P1. cbn [existsb].
        destruct (negb (all_in fixed q) && touches q p); cbn [orb]; [|reflexivity]. destruct (existsb _ Q); reflexivity.
    Qed.
  End Wave.
  Lemma lsum_once {A} (f : A -> bool) (x : K) Q : NoDup Q -> (forall q q', In q Q -> In q' Q -> f q = true -> f q' = true -> q = q') ->
    lsum Q (fun q => if f q then x else 0) = if existsb f Q then x else 0.
  Proof.
    induction Q as [|q Q IH]; intros Hn Hu; [reflexivity|]. inversion Hn as [|? ? Hq Hn']. subst. rewrite lsum_cons'. cbn [existsb].
    rewrite IH by (try assumption; intros; apply Hu; try (right; assumption); assumption).
    destruct (f q) eqn:E; cbn [orb]; [|ring]. destruct (existsb f Q) eqn:X; [|ring]. apply existsb_exists in X as (q' & Hq' & Eq').
    assert (q = q') by (apply Hu; [left; reflexivity|right; assumption|assumption|assumption]). subst. contradiction.
  Qed.
End W2P.

(** The quadruples. *)
Notation quad := (nat * nat * nat * nat)%type.
Lemma in_same i k l j o : In (i, k, l, j) (same_spin o) <-> In i o /\ In k o /\ In l o /\ In j o /\ i < k /\ l < j.
Proof.
  unfold same_spin. rewrite in_flat_map. split.
  - intros (x & Hx & H). apply in_flat_map in H as (y & Hy & H). destruct (Nat.ltb_spec x y); [|destruct H]. apply in_flat_map in H as (z & Hz & H).
    apply in_flat_map in H as (w & Hw & H). destruct (Nat.ltb_spec z w); [|destruct H]. destruct H as [E|[]]. injection E as <- <- <- <-. auto 10.
  - intros (Hi & Hk & Hl & Hj & L1 & L2). exists i. split; [assumption|]. apply in_flat_map. exists k. split; [assumption|].
    rewrite (proj2 (Nat.ltb_lt i k) L1). apply in_flat_map. exists l. split; [assumption|]. apply in_flat_map. exists j. split; [assumption|].
    rewrite (proj2 (Nat.ltb_lt l j) L2). left. reflexivity.
Qed.
Lemma in_mixed i k l j a b : In (i, k, l, j) (mixed_spin a b) <-> In i a /\ In k b /\ In l b /\ In j a.
Proof.
  unfold mixed_spin. rewrite in_flat_map. split.
  - intros (x & Hx & H). apply in_flat_map in H as (y & Hy & H). apply in_flat_map in H as (z & Hz & H). apply in_map_iff in H as (w & E & Hw).
    injection E as <- <- <- <-. auto.
  - intros (Hi & Hk & Hl & Hj). exists i. split; [assumption|]. apply in_flat_map. exists j. split; [assumption|]. apply in_flat_map. exists k. split; [assumption|].
    apply in_map_iff. exists l. auto.
Qed.
Lemma same_nodup o : NoDup o -> NoDup (same_spin o).
Proof.
  intro H. unfold same_spin. apply (NoDup_flat_map_key (fun q : quad => fst (fst (fst q)))); [assumption| |].
  - intros i _. apply (NoDup_flat_map_key (fun q : quad => snd (fst (fst q)))); [assumption| |].
    + intros k _. destruct (i <? k); [|constructor]. apply (NoDup_flat_map_key (fun q : quad => snd (fst q))); [assumption| |].
      * intros l _. apply (NoDup_flat_map_key (fun q : quad => snd q)); [assumption| |].
        -- intros j _. destruct (l <? j); repeat constructor. intros [].
        -- intros j y _. destruct (l <? j); intros []; [subst; reflexivity|contradiction].
      * intros l y _ Hy. apply in_flat_map in Hy as (j & _ & Hy). destruct (l <? j); destruct Hy; [subst; reflexivity|contradiction].
    + intros k y _. destruct (i <? k); [|intros []]. intro Hy. apply in_flat_map in Hy as (l & _ & Hy). apply in_flat_map in Hy as (j & _ & Hy). destruct (l <? j); destruct Hy; [subst; reflexivity|contradiction].
  - intros i y _ Hy. apply in_flat_map in Hy as (k & _ & Hy). destruct (i <? k); [|destruct Hy]. apply in_flat_map in Hy as (l & _ & Hy). apply in_flat_map in Hy as (j & _ & Hy). destruct (l <? j); destruct Hy; [subst; reflexivity|contradiction].
Qed.
Lemma mixed_nodup a b : NoDup a -> NoDup b -> NoDup (mixed_spin a b).
Proof.
  intros Ha Hb. unfold mixed_spin. apply (NoDup_flat_map_key (fun q : quad => fst (fst (fst q)))); [assumption| |].
  - intros i _. apply (NoDup_flat_map_key (fun q : quad => snd q)); [assumption| |].
    + intros j _. apply (NoDup_flat_map_key (fun q : quad => snd (fst (fst q)))); [assumption| |].
      * intros k _. apply FinFun.Injective_map_NoDup; [|assumption]. intros x y E. now injection E.
      * intros k y _ Hy. apply in_map_iff in Hy as (l & <- & _). reflexivity.
    + intros j y _ Hy. apply in_flat_map in Hy as (k & _ & Hy). apply in_map_iff in Hy as (l & <- & _). reflexivity.
  - intros i y _ Hy. apply in_flat_map in Hy as (j & _ & Hy). apply in_flat_map in Hy as (k & _ & Hy). apply in_map_iff in Hy as (l & <- & _). reflexivity.
Qed.
Lemma touches_true i k l j a b c d : touches (i, k, l, j) (a, b, c, d) = true <-> (a = i /\ b = k \/ a = k /\ b = i) /\ (c = l /\ d = j \/ c = j /\ d = l).
Proof. unfold touches. rewrite andb_true_iff, !orb_true_iff, !andb_true_iff, !Nat.eqb_eq. tauto. Qed.
Lemma same_unique o q q' p : In q (same_spin o) -> In q' (same_spin o) -> touches q p = true -> touches q' p = true -> q = q'.
Proof.
  destruct q as [[[i k] l] j], q' as [[[i' k'] l'] j'], p as [[[a b] c] d]. rewrite !in_same, !touches_true. intros H H' T T'.
  assert (i = i' /\ k = k' /\ l = l' /\ j = j') as (-> & -> & -> & ->) by lia. reflexivity.
Qed.
Lemma mixed_unique A B q q' p : (forall x, In x A -> In x B -> False) -> In q (mixed_spin A B) -> In q' (mixed_spin A B) -> touches q p = true -> touches q' p = true -> q = q'.
Proof.
  intro D. destruct q as [[[i k] l] j], q' as [[[i' k'] l'] j'], p as [[[a b] c] d]. rewrite !in_mixed, !touches_true. intros (H1 & H2 & H3 & H4) (H1' & H2' & H3' & H4') T T'.
  assert (i = i' /\ k = k') as [<- <-].
  { destruct T as [[[-> ->]|[-> ->]] _], T' as [[[E1 E2]|[E1 E2]] _]; subst; auto; exfalso; eauto. }
  assert (l = l' /\ j = j') as [<- <-].
  { destruct T as [_ [[-> ->]|[-> ->]]], T' as [_ [[E1 E2]|[E1 E2]]]; subst; auto; exfalso; eauto. }
  reflexivity.
Qed.
Definition has (o : list nat) (x : nat) : bool := existsb (Nat.eqb x) o.
Lemma has_In o x : has o x = true <-> In x o.
Proof. unfold has. rewrite existsb_exists. split; [intros (y & H & E); apply Nat.eqb_eq in E; now subst|intro H; exists x; split; [assumption|apply Nat.eqb_refl]]. Qed.
(** Same number of orbitals of A on both sides, everything in A or B, two different orbitals on each side. *)
Definition covered (A B : list nat) (p : quad) : bool :=
  let '(a, b, c, d) := p in
  negb (Nat.eqb a b) && negb (Nat.eqb c d) && forallb (has (A ++ B)) [a; b; c; d] && Nat.eqb (length (filter (has A) [a; b])) (length (filter (has A) [c; d])).
Definition both (o : list nat) (p : quad) : bool :=
  let '(a, b, c, d) := p in negb (Nat.eqb a b) && negb (Nat.eqb c d) && forallb (has o) [a; b; c; d].
Definition cross (A B : list nat) (p : quad) : bool :=
  let '(a, b, c, d) := p in (has A a && has B b || has B a && has A b) && (has A c && has B d || has B c && has A d).
Lemma same_touched o p : existsb (fun q => touches q p) (same_spin o) = both o p.
Proof.
  destruct p as [[[a b] c] d]. apply eq_true_iff_eq. rewrite existsb_exists. unfold both. cbn [forallb]. rewrite !andb_true_iff, !negb_true_iff, !Nat.eqb_neq, !has_In. split.
  - intros ([[[i k] l] j] & H & T). rewrite in_same in H. rewrite touches_true in T. destruct H as (H1 & H2 & H3 & H4 & L1 & L2).
    destruct T as [[[-> ->]|[-> ->]] [[-> ->]|[-> ->]]]; repeat split; auto; lia.
  - intros [[N1 N2] (H1 & H2 & H3 & H4 & _)].
    exists (Nat.min a b, Nat.max a b, Nat.min c d, Nat.max c d). rewrite in_same, touches_true.
    destruct (Nat.le_gt_cases a b), (Nat.le_gt_cases c d);
      repeat (rewrite ?(Nat.min_l a b), ?(Nat.max_r a b), ?(Nat.min_r a b), ?(Nat.max_l a b), ?(Nat.min_l c d), ?(Nat.max_r c d), ?(Nat.min_r c d), ?(Nat.max_l c d) by lia); repeat split; auto; lia.
Qed.
Lemma mixed_touched A B p : existsb (fun q => touches q p) (mixed_spin A B) = cross A B p.
Proof.
  destruct p as [[[a b] c] d]. apply eq_true_iff_eq. rewrite existsb_exists. unfold cross. rewrite andb_true_iff, !orb_true_iff, !andb_true_iff, !has_In. split.
  - intros ([[[i k] l] j] & H & T). rewrite in_mixed in H. rewrite touches_true in T. destruct H as (H1 & H2 & H3 & H4).
    destruct T as [[[-> ->]|[-> ->]] [[-> ->]|[-> ->]]]; auto.
  - intros [[[H1 H2]|[H1 H2]] [[H3 H4]|[H3 H4]]].
    + exists (a, b, d, c). rewrite in_mixed, touches_true. auto 8.
    + exists (a, b, c, d). rewrite in_mixed, touches_true. auto 8.
    + exists (b, a, d, c). rewrite in_mixed, touches_true. auto 8.
    + exists (b, a, c, d). rewrite in_mixed, touches_true. auto 8.
Qed.
