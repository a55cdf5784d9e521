(** Spin expectation values from reduced density matrices. *)
From Coq Require Import Bool List Arith Lia Ring.
From Verif Require Import Coeff MatSpec MatLemmas FockSpec OpSpec CircuitSpec FermiModel FermiProofs AdjProofs InvModel RdmModel RdmSpec RdmFock RdmProofs
  TaperSpec TaperProofs TaperProofs2 HamModel HamSpec HamProofs HamProofs2 HamProofs3 RdmObjModel.
Import ListNotations.

Lemma dget_in d k v : NoDup (map fst d) -> In (k, v) d -> dget k d = Some v.
Proof.
  induction d as [|[k' v'] d IH]; intros ND H; [destruct H|]. cbn [map fst] in ND. inversion ND as [|? ? N1 N2]; subst. cbn [dget].
  destruct H as [E | H]; [injection E as -> ->; now rewrite Nat.eqb_refl|]. destruct (Nat.eqb_spec k k') as [-> | _]; [|now apply IH].
  exfalso. apply N1. change k' with (fst (k', v)). now apply in_map.
Qed.
Lemma map_fst_combine {A B} (x : list A) (y : list B) : length x = length y -> map fst (combine x y) = x.
Proof. revert y. induction x as [|a x IH]; intros [|b y] H; cbn in *; try discriminate; [reflexivity|]. f_equal. apply IH. lia. Qed.
Lemma map_snd_combine {A B} (x : list A) (y : list B) : length x = length y -> map snd (combine x y) = y.
Proof. revert y. induction x as [|a x IH]; intros [|b y] H; cbn in *; try discriminate; [reflexivity|]. f_equal. apply IH. lia. Qed.
Lemma combine_app2 {A B} (x x' : list A) (y y' : list B) : length x = length y -> combine (x ++ x') (y ++ y') = combine x y ++ combine x' y'.
Proof. revert y. induction x as [|a x IH]; intros [|b y] H; cbn in *; try discriminate; [reflexivity|]. f_equal. apply IH. lia. Qed.
Lemma in_combine_swap {A B} (x : list A) (y : list B) a b : In (a, b) (combine x y) -> In (b, a) (combine y x).
Proof. revert y. induction x as [|a' x IH]; intros [|b' y] H; cbn in *; try contradiction. destruct H as [E | H]; [left; congruence|right; now apply IH]. Qed.
Lemma all_some_id {A} (l : list A) (f : A -> option A) : (forall x, In x l -> f x = Some x) -> all_some (map f l) = Some l.
Proof. intro H. rewrite (all_some_total _ _ f (fun x => x)) by exact H. now rewrite map_id. Qed.
Lemma NoDup_inj_map {A B} (f : A -> B) (l : list A) : (forall x y, In x l -> In y l -> f x = f y -> x = y) -> NoDup l -> NoDup (map f l).
Proof.
  intro I. induction l as [|x l IH]; intro ND; cbn; [constructor|]. inversion ND as [|? ? N1 N2]; subst. constructor.
  - intro H. apply in_map_iff in H. destruct H as [y [E Hy]]. apply N1. rewrite (I x y); [exact Hy|now left|now right|now symmetry].
  - apply IH; [|exact N2]. intros; apply I; auto; now right.
Qed.
Lemma NoDup_list_prod {A B} (l : list A) (m : list B) : NoDup l -> NoDup m -> NoDup (list_prod l m).
Proof.
  intros Hl Hm. induction Hl as [|x l N H IH]; cbn; [constructor|].
  assert (G : forall a b : list (A * B), NoDup a -> NoDup b -> (forall z, In z a -> ~ In z b) -> NoDup (a ++ b)).
  { clear. induction a as [|z a IH]; intros b Ha Hb D; [exact Hb|]. inversion Ha as [|? ? N1 N2]; subst. cbn. constructor.
    - intro H. apply in_app_or in H. destruct H as [H | H]; [contradiction|]. apply (D z); [now left|exact H].
    - apply IH; auto. intros w Hw. apply D. now right. }
  apply G; [|exact IH|].
  - apply NoDup_inj_map; [|exact Hm]. intros a b _ _ E. congruence.
  - intros [a b] H1 H2. apply in_map_iff in H1. destruct H1 as [y [E _]]. injection E as <- <-. apply in_prod_iff in H2. now destruct H2.
Qed.

Lemma NoDup_app_l {A} (x y : list A) : NoDup (x ++ y) -> NoDup x.
Proof. induction x as [|a x IH]; cbn; intro H; [constructor|]. inversion H as [|? ? N1 N2]; subst. constructor; [|now apply IH]. intro; apply N1, in_or_app; now left. Qed.
Lemma NoDup_app_r {A} (x y : list A) : NoDup (x ++ y) -> NoDup y.
Proof. induction x as [|a x IH]; cbn; intro H; [exact H|]. inversion H; subst. now apply IH. Qed.
Lemma NoDup_app_disj {A} (x y : list A) z : NoDup (x ++ y) -> In z y -> ~ In z x.
Proof.
  intros ND Hb Ha. induction x as [|a x IH]; [destruct Ha|]. cbn in ND. inversion ND as [|? ? N1 N2]; subst.
  destruct Ha as [-> | Ha]; [apply N1, in_or_app; now right|now apply IH].
Qed.

(** The orbitals of the two spins correspond one to one. *)
Definition paired (a b : orbs) : Prop :=
  length (inactive a) = length (inactive b) /\ length (active a) = length (active b) /\
  NoDup (inactive a ++ active a) /\ NoDup (inactive b ++ active b).

Lemma spin_dicts_spec a b : paired a b -> exists d e, spin_dicts a b = Some (d, e) /\
  (forall x y, In (x, y) (combine (active a) (active b)) -> dget x d = Some y /\ dget y e = Some x).
Proof.
  intros [Hi [Ha [Na Nb]]]. unfold spin_dicts, pair_dict.
  assert (L : length (inactive a ++ active a) = length (inactive b ++ active b)) by (rewrite !app_length; lia).
  rewrite L, Nat.ltb_irrefl. eexists _, _. split; [reflexivity|]. intros x y H. split.
  - apply dget_in; [rewrite map_rev; apply NoDup_rev; now rewrite map_fst_combine|]. apply -> in_rev. rewrite combine_app2 by exact Hi. apply in_or_app. now right.
  - apply dget_in; [rewrite map_rev; apply NoDup_rev; now rewrite map_fst_combine by now symmetry|]. apply -> in_rev. rewrite combine_app2 by now symmetry.
    apply in_or_app. right. now apply in_combine_swap.
Qed.
Lemma spin_loop_spec a b : paired a b -> spin_loop a b = Some (list_prod (combine (active a) (active b)) (combine (active a) (active b))).
Proof.
  intro P. destruct (spin_dicts_spec a b P) as [d [e [E H]]]. destruct P as [_ [Ha _]]. unfold spin_loop. rewrite E.
  assert (A1 : all_some (map (fun pa => option_map (fun pb => (pa, pb)) (dget pa d)) (active a)) = Some (combine (active a) (active b))).
  { transitivity (all_some (map (fun pa => option_map (fun pb => (pa, pb)) (dget pa d)) (map fst (combine (active a) (active b))))); [now rewrite map_fst_combine|].
    rewrite map_map. apply all_some_id. intros [x y] Hx. cbn [fst]. rewrite (proj1 (H x y Hx)). reflexivity. }
  assert (A2 : all_some (map (fun qb => option_map (fun qa => (qa, qb)) (dget qb e)) (active b)) = Some (combine (active a) (active b))).
  { transitivity (all_some (map (fun qb => option_map (fun qa => (qa, qb)) (dget qb e)) (map snd (combine (active a) (active b))))); [now rewrite map_snd_combine|].
    rewrite map_map. apply all_some_id. intros [x y] Hx. cbn [snd]. rewrite (proj2 (H x y Hx)). reflexivity. }
  rewrite A1, A2. reflexivity.
Qed.

Section Spin.
  Variable K : CoefRing.
  Add Ring KRing : (c_ring K).
  Local Open Scope coef_scope.
  Notation tensor4 := (nat -> nat -> nat -> nat -> K).
  Notation tensor2 := (nat -> nat -> K).
  Notation dl := (delta K).

  Lemma sum_range_upto r (f : nat -> K) : sum_range r f = upto r f.
  Proof. apply sum_range_lsum. Qed.
  Lemma trace2_eq r (A B : tensor2) : trace2 r A B = upto r (fun i => upto r (fun j => A i j * B j i)).
  Proof. unfold trace2. rewrite sum_range_upto. apply upto_ext. intros i _. apply sum_range_upto. Qed.
  Lemma trace2_ext r (A A' B : tensor2) : (forall i j, A i j = A' i j) -> trace2 r A B = trace2 r A' B.
  Proof. intro H. rewrite !trace2_eq. apply upto_ext. intros i _. apply upto_ext. intros j _. now rewrite H. Qed.
  Lemma trace2_add r p v (t D : tensor2) : (p < r)%nat -> trace2 r (add2 p p v t) D = trace2 r t D + v * D p p.
  Proof.
    intro Hp. rewrite !trace2_eq. transitivity (upto r (fun i => upto r (fun j => t i j * D j i) + dl p i * (v * D p i))).
    - apply upto_ext. intros i _. transitivity (upto r (fun j => t i j * D j i + dl p i * (dl p j * (v * D j i)))).
      + apply upto_ext. intros j _. unfold add2, delta. rewrite (Nat.eqb_sym i p), (Nat.eqb_sym j p). destruct (Nat.eqb p i), (Nat.eqb p j); cbn [andb]; ring.
      + rewrite upto_add, upto_scal. f_equal. f_equal. exact (upto_delta K r p (fun j => v * D j i) Hp).
    - rewrite upto_add. f_equal. exact (upto_delta K r p (fun i => v * D p i) Hp).
  Qed.
  Lemma trace2_zero r (D : tensor2) : trace2 r zero2 D = 0.
  Proof.
    rewrite trace2_eq. rewrite (upto_ext K r _ (fun _ => 0 * 0)); [rewrite upto_scal; ring|]. intros i _.
    rewrite (upto_ext K r _ (fun _ => 0 * 0)); [rewrite upto_scal; ring|]. intros j _. unfold zero2. ring.
  Qed.
  Lemma trace2_adds r v (D : tensor2) : forall l t, (forall p, In p l -> (p < r)%nat) ->
    trace2 r (fold_left (fun t p => add2 p p v t) l t) D = trace2 r t D + over l (fun p => v * D p p).
  Proof.
    induction l as [|p l IH]; intros t H; cbn [fold_left over fold_right]; [ring|]. rewrite IH by (intros; apply H; now right).
    rewrite trace2_add by (apply H; now left). fold (over l (fun p => v * D p p)). ring.
  Qed.
  Lemma set2_adds v : forall l (t : tensor2), NoDup l -> (forall p, In p l -> t p p = 0) ->
    forall i j, fold_left (fun t p => set2 p p v t) l t i j = fold_left (fun t p => add2 p p v t) l t i j.
  Proof.
    assert (G : forall l (t t' : tensor2), (forall i j, t i j = t' i j) -> forall i j, fold_left (fun t p => set2 p p v t) l t i j = fold_left (fun t p => set2 p p v t) l t' i j).
    { induction l as [|p l IH]; intros t t' E i j; [apply E|]. cbn [fold_left]. apply IH. intros i' j'. unfold set2. now rewrite E. }
    induction l as [|p l IH]; intros t ND Z i j; [reflexivity|]. inversion ND as [|? ? N1 N2]; subst. cbn [fold_left].
    rewrite (G l (set2 p p v t) (add2 p p v t)).
    - apply IH; [exact N2|]. intros q Hq. unfold add2. destruct (Nat.eqb_spec q p) as [-> | _]; [contradiction|]. cbn [andb]. apply Z. now right.
    - intros i' j'. unfold set2, add2. destruct (Nat.eqb_spec i' p) as [-> | _]; [|reflexivity]. destruct (Nat.eqb_spec j' p) as [-> | _]; [|reflexivity].
      cbn [andb]. rewrite Z by now left. ring.
  Qed.
  Lemma adds_diag v l : forall (t : tensor2) q, ~ In q l -> fold_left (fun t p => add2 p p v t) l t q q = t q q.
  Proof.
    induction l as [|p l IH]; intros t q H; [reflexivity|]. cbn [fold_left]. rewrite IH by (intro; apply H; now right). unfold add2.
    destruct (Nat.eqb_spec q p) as [-> | _]; [exfalso; apply H; now left|reflexivity].
  Qed.
  Lemma set4_adds : forall (us : list ((nat * nat * nat * nat) * K)) (t : tensor4), NoDup (map fst us) ->
    (forall a b c d v, In ((a, b, c, d), v) us -> t a b c d = 0) ->
    forall i j k l, fold_left (fun t u => set4 u t) us t i j k l = apply_all us t i j k l.
  Proof.
    assert (G : forall us (t t' : tensor4), (forall i j k l, t i j k l = t' i j k l) -> forall i j k l, fold_left (fun t u => set4 u t) us t i j k l = fold_left (fun t u => set4 u t) us t' i j k l).
    { induction us as [|[[[[a b] c] d] v] us IH]; intros t t' E i j k l; [apply E|]. cbn [fold_left]. apply IH. intros i' j' k' l'. unfold set4. now rewrite E. }
    induction us as [|[[[[a b] c] d] v] us IH]; intros t ND Z i j k l; [reflexivity|]. cbn [map fst] in ND. inversion ND as [|? ? N1 N2]; subst. unfold apply_all. cbn [fold_left].
    rewrite (G us (set4 ((a, b, c, d), v) t) (upd4 ((a, b, c, d), v) t)).
    - apply IH; [exact N2|]. intros a' b' c' d' v' H. unfold upd4.
      destruct (Nat.eqb a' a && Nat.eqb b' b && Nat.eqb c' c && Nat.eqb d' d) eqn:E; [|apply (Z a' b' c' d' v'); now right].
      exfalso. apply N1. repeat rewrite andb_true_iff in E. destruct E as [[[E1 E2] E3] E4]. apply Nat.eqb_eq in E1, E2, E3, E4. subst.
      change (a, b, c, d) with (fst ((a, b, c, d), v')). now apply in_map.
    - intros i' j' k' l'. unfold set4, upd4. destruct (Nat.eqb i' a && Nat.eqb j' b && Nat.eqb k' c && Nat.eqb l' d) eqn:E; [|reflexivity].
      repeat rewrite andb_true_iff in E. destruct E as [[[E1 E2] E3] E4]. apply Nat.eqb_eq in E1, E2, E3, E4. subst. rewrite (Z a b c d v) by now left. ring.
  Qed.
  Lemma observable_ext r (A A' D : tensor4) : (forall i j k l, A i j k l = A' i j k l) -> observable r A D = observable r A' D.
  Proof.
    intro H. rewrite !observable_eq. apply upto_ext. intros i _. apply upto_ext. intros k _. apply upto_ext. intros j _. apply upto_ext. intros l _. now rewrite H.
  Qed.
  Lemma observable_zero r (D : tensor4) : observable r zero4 D = 0.
  Proof.
    rewrite observable_eq. unfold zero4.
    rewrite (upto_ext K r _ (fun _ => 0 * 0)); [rewrite upto_scal; ring|]. intros i _.
    rewrite (upto_ext K r _ (fun _ => 0 * 0)); [rewrite upto_scal; ring|]. intros k _.
    rewrite (upto_ext K r _ (fun _ => 0 * 0)); [rewrite upto_scal; ring|]. intros j _.
    rewrite (upto_ext K r _ (fun _ => 0 * 0)); [rewrite upto_scal; ring|]. intros l _. ring.
  Qed.

  Lemma below_spec n l : below n l = true <-> forall x, In x l -> (x < n)%nat.
  Proof. unfold below. rewrite forallb_forall. split; intros H x Hx; specialize (H x Hx); now apply Nat.ltb_lt. Qed.

  (** The value computed, for paired orbitals inside the arrays. *)
  Definition rho1 R (psi : bits -> K) : tensor2 := fun i j => rdm_of R psi [i] [j].
  Definition rho2 R (psi : bits -> K) : tensor4 := fun i k j l => rdm_of R psi [i; k] [j; l].
  Definition within (a b : orbs) : Prop := forall x, In x (active a ++ active b) -> (x < norb a b)%nat.

  Lemma in_combine_range a b x y : within a b -> In (x, y) (combine (active a) (active b)) -> (x < norb a b)%nat /\ (y < norb a b)%nat.
  Proof.
    intros W H. split; apply W; apply in_or_app; [left; exact (in_combine_l _ _ _ _ H)|right; exact (in_combine_r _ _ _ _ H)].
  Qed.
  Lemma Sz_mat_spec a b (D : tensor2) : paired a b -> within a b -> NoDup (active a ++ active b) ->
    exists m, get_Sz_mat a b = Some m /\
      trace2 (norb a b) m D = over (combine (active a) (active b)) (fun e => chalf * D (fst e) (fst e) - chalf * D (snd e) (snd e)).
  Proof.
    intros P W ND. unfold get_Sz_mat. destruct (spin_dicts_spec a b P) as [d [e [E _]]]. rewrite E.
    assert (Ba : below (norb a b) (active a) = true) by (apply below_spec; intros x Hx; apply W, in_or_app; now left).
    assert (Bb : below (norb a b) (active b) = true) by (apply below_spec; intros x Hx; apply W, in_or_app; now right).
    rewrite Ba, Bb. cbn [andb]. eexists. split; [reflexivity|].
    assert (Na := NoDup_app_l _ _ ND). assert (Nb := NoDup_app_r _ _ ND).
    assert (Dj : forall x, In x (active b) -> ~ In x (active a)).
    { intros x Hb. exact (NoDup_app_disj _ _ _ ND Hb). }
    rewrite (trace2_ext _ _ (fold_left (fun t p => add2 p p (- chalf) t) (active b) (fold_left (fun t p => add2 p p chalf t) (active a) zero2))).
    - rewrite trace2_adds by (apply below_spec; exact Bb). rewrite trace2_adds by (apply below_spec; exact Ba). rewrite trace2_zero.
      destruct P as [_ [La _]]. rewrite <- (map_fst_combine (active a) (active b) La) at 1. rewrite <- (map_snd_combine (active a) (active b) La) at 2.
      rewrite !over_map. transitivity (over (combine (active a) (active b)) (fun e => chalf * D (fst e) (fst e)) + over (combine (active a) (active b)) (fun e => - chalf * D (snd e) (snd e))); [ring|].
      rewrite <- over_add. apply over_ext. intros; ring.
    - intros i j. rewrite (set2_adds (- chalf) (active b)); [|exact Nb|].
      + assert (G : forall l (t t' : tensor2), (forall i j, t i j = t' i j) -> forall i j, fold_left (fun t p => add2 p p (- chalf) t) l t i j = fold_left (fun t p => add2 p p (- chalf) t) l t' i j).
        { clear. induction l as [|p l IH]; intros t t' E i j; [apply E|]. cbn [fold_left]. apply IH. intros i' j'. unfold add2. now rewrite E. }
        apply G. intros i' j'. apply set2_adds; [exact Na|reflexivity].
      + intros p Hp. rewrite (set2_adds chalf (active a)) by (exact Na || reflexivity). rewrite adds_diag by now apply Dj. reflexivity.
  Qed.
End Spin.
