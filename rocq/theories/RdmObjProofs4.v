(** Spin-summed, spin-flipped and block-wise density matrices. *)
From Coq Require Import Bool List Arith Lia Ring.
From Verif Require Import Coeff MatSpec MatLemmas FockSpec OpSpec CircuitSpec FermiModel FermiProofs AdjProofs InvModel RdmModel RdmSpec RdmFock RdmProofs
  TaperSpec TaperProofs TaperProofs2 HamModel HamSpec HamProofs HamProofs2 HamProofs3 RdmObjModel RdmObjProofs2.
Import ListNotations.

Lemma up_down_spec x y : NoDup x -> length x = length y -> up_down x y = Some (combine x y).
Proof.
  intros ND L. unfold up_down, pair_dict. rewrite L, Nat.ltb_irrefl.
  transitivity (all_some (map (fun i => option_map (fun p => (i, p)) (dget i (rev (combine x y)))) (map fst (combine x y)))); [now rewrite map_fst_combine|].
  rewrite map_map. apply all_some_id. intros [i p] H. cbn [fst]. rewrite (dget_in _ i p); [reflexivity| |now apply -> in_rev].
  rewrite map_rev. apply NoDup_rev. now rewrite map_fst_combine.
Qed.
(** The default numbering pairs i with N+i. *)
Lemma combine_default N i p : In (i, p) (combine (seq 0 N) (seq N N)) <-> (i < N /\ p = N + i)%nat.
Proof.
  assert (G : forall n a b, In (i, p) (combine (seq a n) (seq b n)) <-> (a <= i < a + n /\ p + a = b + i)%nat).
  { induction n as [|n IH]; intros a b; cbn [seq combine]; [split; [intros []|lia]|]. cbn [In]. rewrite IH. split.
    - intros [E | H]; [injection E as <- <-|]; lia.
    - intro H. destruct (Nat.eq_dec i a) as [-> | E]; [left; f_equal; lia|right; lia]. }
  rewrite G. lia.
Qed.

Section Blocks.
  Variable K : CoefRing.
  Add Ring KRing : (c_ring K).
  Local Open Scope coef_scope.
  Notation tensor4 := (nat -> nat -> nat -> nat -> K).
  Notation tensor2 := (nat -> nat -> K).
  Notation dl := (delta K).
  Notation upd := ((nat * nat * nat * nat) * K)%type.

  (** ** Assignments and additions at list of positions *)
  Lemma set4_hit (g : tensor4) i k j l : forall (us : list upd) t, (forall a b c d v, In ((a, b, c, d), v) us -> v = g a b c d) ->
    (exists v, In ((i, k, j, l), v) us) \/ t i k j l = g i k j l -> fold_left (fun t u => set4 u t) us t i k j l = g i k j l.
  Proof.
    induction us as [|[[[[a b] c] d] v] us IH]; intros t H E; cbn [fold_left]; [destruct E as [[v []] | E]; exact E|].
    apply IH; [intros; apply (H a0 b0 c0 d0 v0); now right|]. unfold set4.
    destruct (Nat.eqb i a && Nat.eqb k b && Nat.eqb j c && Nat.eqb l d) eqn:M.
    - right. repeat rewrite andb_true_iff in M. destruct M as [[[E1 E2] E3] E4]. apply Nat.eqb_eq in E1, E2, E3, E4. subst. apply H. now left.
    - destruct E as [[w [E | E]] | E]; [|left; now exists w|now right].
      injection E as -> -> -> -> ->. rewrite !Nat.eqb_refl in M. discriminate.
  Qed.
  Lemma set4_miss i k j l : forall (us : list upd) t, (forall v, ~ In ((i, k, j, l), v) us) -> fold_left (fun t u => set4 u t) us t i k j l = t i k j l.
  Proof.
    induction us as [|[[[[a b] c] d] v] us IH]; intros t H; cbn [fold_left]; [reflexivity|]. rewrite IH by (intros w Hw; apply (H w); now right). unfold set4.
    destruct (Nat.eqb i a && Nat.eqb k b && Nat.eqb j c && Nat.eqb l d) eqn:M; [|reflexivity].
    repeat rewrite andb_true_iff in M. destruct M as [[[E1 E2] E3] E4]. apply Nat.eqb_eq in E1, E2, E3, E4. subst. exfalso. apply (H v). now left.
  Qed.
  Lemma set2_hit (g : tensor2) i j : forall (us : list (nat * nat)) t, (In (i, j) us \/ t i j = g i j) ->
    fold_left (fun t e => set2 (fst e) (snd e) (g (fst e) (snd e)) t) us t i j = g i j.
  Proof.
    induction us as [|[a b] us IH]; intros t E; cbn [fold_left fst snd]; [destruct E as [[] | E]; exact E|].
    apply IH. unfold set2. destruct (Nat.eqb i a && Nat.eqb j b) eqn:M.
    - right. apply andb_true_iff in M. destruct M as [E1 E2]. apply Nat.eqb_eq in E1, E2. now subst.
    - destruct E as [[E | E] | E]; [|now left|now right]. injection E as -> ->. rewrite !Nat.eqb_refl in M. discriminate.
  Qed.
  Definition at4 (i k j l : nat) (u : upd) : K := let '(a, b, c, d, v) := u in dl a i * (dl b k * (dl c j * (dl d l * v))).
  Lemma apply_get i k j l : forall (us : list upd) t, apply_all us t i k j l = t i k j l + over us (at4 i k j l).
  Proof.
    induction us as [|[[[[a b] c] d] v] us IH]; intro t; cbn [apply_all fold_left over fold_right]; [ring|].
    change (fold_left (fun t0 u => upd4 u t0) us (upd4 (a, b, c, d, v) t)) with (apply_all us (upd4 (a, b, c, d, v) t)). rewrite IH.
    fold (over us (at4 i k j l)). unfold upd4, at4 at 2, delta. rewrite (Nat.eqb_sym i a), (Nat.eqb_sym k b), (Nat.eqb_sym j c), (Nat.eqb_sym l d).
    destruct (Nat.eqb a i), (Nat.eqb b k), (Nat.eqb c j), (Nat.eqb d l); cbn [andb]; ring.
  Qed.
  (** One term written for all i,j,k,l of a range, at shifted positions. *)
  Lemma upto_delta' R a (f : nat -> K) : upto R (fun i => dl i a * f i) = if (a <? R)%nat then f a else 0.
  Proof.
    destruct (Nat.ltb_spec a R) as [H | H].
    - rewrite <- (upto_delta K R a f H). apply upto_ext. intros i _. unfold delta. now rewrite Nat.eqb_sym.
    - rewrite (upto_ext K R _ (fun _ => 0 * 0)); [rewrite upto_scal; ring|]. intros i Hi. unfold delta. destruct (Nat.eqb_spec i a); [lia|ring].
  Qed.
  Lemma upto_delta_shift R s a (f : nat -> K) : upto R (fun i => dl (s + i) a * f i) = if (s <=? a)%nat && (a - s <? R)%nat then f (a - s)%nat else 0.
  Proof.
    destruct (Nat.leb_spec s a) as [H | H]; cbn [andb].
    - rewrite <- upto_delta'. apply upto_ext. intros i _. unfold delta. destruct (Nat.eqb_spec (s + i) a), (Nat.eqb_spec i (a - s)); try lia; ring.
    - rewrite (upto_ext K R _ (fun _ => 0 * 0)); [rewrite upto_scal; ring|]. intros i Hi. unfold delta. destruct (Nat.eqb_spec (s + i) a); [lia|ring].
  Qed.
  Definition hit (R s a : nat) : bool := (s <=? a)%nat && (a - s <? R)%nat.
  Lemma block_sum R s1 s2 s3 s4 x y z t (f : tensor4) :
    upto R (fun i => upto R (fun j => upto R (fun k => upto R (fun l => dl (s1 + i) x * (dl (s2 + k) y * (dl (s3 + j) z * (dl (s4 + l) t * f i k j l)))))))
    = if hit R s1 x && hit R s2 y && hit R s3 z && hit R s4 t then f (x - s1)%nat (y - s2)%nat (z - s3)%nat (t - s4)%nat else 0.
  Proof.
    transitivity (upto R (fun i => dl (s1 + i) x * upto R (fun j => dl (s3 + j) z * upto R (fun k => dl (s2 + k) y * upto R (fun l => dl (s4 + l) t * f i k j l))))).
    { apply upto_ext. intros i _. rewrite <- upto_scal. apply upto_ext. intros j _. rewrite <- !upto_scal. apply upto_ext. intros k _. rewrite <- !upto_scal. apply upto_ext. intros l _. ring. }
    rewrite upto_delta_shift. fold (hit R s1 x). destruct (hit R s1 x); cbn [andb]; [|reflexivity].
    rewrite upto_delta_shift. fold (hit R s3 z). destruct (hit R s3 z); [|now rewrite andb_false_r].
    rewrite upto_delta_shift. fold (hit R s2 y). destruct (hit R s2 y); cbn [andb]; [|reflexivity].
    rewrite upto_delta_shift. fold (hit R s4 t). reflexivity.
  Qed.

  Lemma block_sum' R s1 s2 s3 s4 x y z t (f : tensor4) :
    upto R (fun i => upto R (fun j => upto R (fun k => upto R (fun l => dl (s1 + k) x * (dl (s2 + i) y * (dl (s3 + j) z * (dl (s4 + l) t * f i k j l)))))))
    = if hit R s1 x && hit R s2 y && hit R s3 z && hit R s4 t then f (y - s2)%nat (x - s1)%nat (z - s3)%nat (t - s4)%nat else 0.
  Proof.
    transitivity (upto R (fun i => upto R (fun j => upto R (fun k => upto R (fun l => dl (s2 + i) y * (dl (s1 + k) x * (dl (s3 + j) z * (dl (s4 + l) t * f i k j l)))))))).
    { apply upto_ext. intros i _. apply upto_ext. intros j _. apply upto_ext. intros k _. apply upto_ext. intros l _. ring. }
    rewrite block_sum. now rewrite (andb_comm (hit R s2 y)).
  Qed.

  (** ** Sum over spins *)
  Definition spin_sum4 (t : tensor4) (e1 e2 e3 e4 : nat * nat) : K :=
    t (fst e1) (fst e2) (fst e3) (fst e4) + t (snd e1) (snd e2) (snd e3) (snd e4) + t (fst e1) (snd e2) (fst e3) (snd e4) + t (snd e1) (fst e2) (snd e3) (fst e4).
  Definition spin_sum2 (t : tensor2) (e1 e2 : nat * nat) : K := t (fst e1) (fst e2) + t (snd e1) (snd e2).
  Definition partner (P : list (nat * nat)) (i : nat) : nat := match dget i P with Some p => p | None => 0%nat end.
  Lemma partner_in P i p : NoDup (map fst P) -> In (i, p) P -> partner P i = p.
  Proof. intros ND H. unfold partner. now rewrite (dget_in _ _ _ ND H). Qed.
  Lemma fold_set4_map {A} (h : A -> upd) (F : tensor4 -> A -> tensor4) l t : (forall n e, F n e = set4 (h e) n) -> fold_left F l t = fold_left (fun t u => set4 u t) (map h l) t.
  Proof. intro H. revert t. induction l as [|e l IH]; intro t; [reflexivity|]. cbn [fold_left map]. rewrite H. apply IH. Qed.

  Lemma spatial4_spec Nso x y (t : tensor4) : NoDup x -> length x = length y ->
    (forall i p, In (i, p) (combine x y) -> (i < Nat.div2 Nso /\ i < Nso /\ p < Nso)%nat) ->
    exists s, spatial4 Nso x y t = Some s /\
      (forall e1 e2 e3 e4, In e1 (combine x y) -> In e2 (combine x y) -> In e3 (combine x y) -> In e4 (combine x y) ->
         s (fst e1) (fst e2) (fst e3) (fst e4) = spin_sum4 t e1 e2 e3 e4) /\
      (forall i k j l, ~ (In i x /\ In k x /\ In j x /\ In l x) -> s i k j l = 0).
  Proof.
    intros ND L B. unfold spatial4. rewrite up_down_spec by assumption. set (P := combine x y) in *.
    assert (F : map fst P = x) by now apply map_fst_combine. assert (NP : NoDup (map fst P)) by now rewrite F.
    assert (SO : spatial_ok Nso P = true).
    { apply forallb_forall. intros [i p] H. cbn [fst snd]. destruct (B i p H) as [? [? ?]]. rewrite !andb_true_iff, !Nat.ltb_lt. lia. }
    rewrite SO. eexists. split; [reflexivity|].
    set (h := fun e : nat * nat * (nat * nat * (nat * nat * (nat * nat))) => let '((i, p), ((j, q), ((k, r), (l, s)))) := e in ((i, k, j, l), t i k j l + t p r q s + t i r j s + t p k q l)).
    assert (E : forall Q z, fold_left (fun n e => let '((i, p), ((j, q), ((k, r), (l, s)))) := e in set4 ((i, k, j, l), t i k j l + t p r q s + t i r j s + t p k q l) n) Q z
       = fold_left (fun t u => set4 u t) (map h Q) z) by (intros; apply (fold_set4_map h); intros n [[i p] [[j q] [[k r] [l s]]]]; reflexivity).
    rewrite E. split.
    - intros [i p] [k r] [j q] [l s] H1 H2 H3 H4. cbn [fst snd]. set (ph := partner P).
      set (g := fun i k j l => t i k j l + t (ph i) (ph k) (ph j) (ph l) + t i (ph k) j (ph l) + t (ph i) k (ph j) l).
      rewrite (set4_hit g).
      + unfold g, ph, spin_sum4. cbn [fst snd]. now rewrite (partner_in P i p), (partner_in P k r), (partner_in P j q), (partner_in P l s).
      + intros a b c d v Hv. apply in_map_iff in Hv. destruct Hv as [[[i' p'] [[j' q'] [[k' r'] [l' s']]]] [Ev Hin]].
        apply in_prod_iff in Hin. destruct Hin as [I1 Hin]. apply in_prod_iff in Hin. destruct Hin as [I2 Hin]. apply in_prod_iff in Hin. destruct Hin as [I3 I4].
        cbn [h] in Ev. injection Ev as <- <- <- <- <-. unfold g, ph. now rewrite (partner_in P i' p'), (partner_in P k' r'), (partner_in P j' q'), (partner_in P l' s').
      + left. eexists. apply in_map_iff. exists ((i, p), ((j, q), ((k, r), (l, s)))). split; [reflexivity|]. rewrite !in_prod_iff. auto.
    - intros i k j l N. rewrite set4_miss; [reflexivity|]. intros v Hv. apply N. apply in_map_iff in Hv. destruct Hv as [[[i' p'] [[j' q'] [[k' r'] [l' s']]]] [Ev Hin]].
      apply in_prod_iff in Hin. destruct Hin as [I1 Hin]. apply in_prod_iff in Hin. destruct Hin as [I2 Hin]. apply in_prod_iff in Hin. destruct Hin as [I3 I4].
      cbn [h] in Ev. injection Ev as <- <- <- <- _. rewrite <- F.
      repeat split; [exact (in_map fst _ _ I1)|exact (in_map fst _ _ I3)|exact (in_map fst _ _ I2)|exact (in_map fst _ _ I4)].
  Qed.
  Lemma spatial2_spec Nso x y (t : tensor2) : NoDup x -> length x = length y ->
    (forall i p, In (i, p) (combine x y) -> (i < Nat.div2 Nso /\ i < Nso /\ p < Nso)%nat) ->
    exists s, spatial2 Nso x y t = Some s /\ (forall e1 e2, In e1 (combine x y) -> In e2 (combine x y) -> s (fst e1) (fst e2) = spin_sum2 t e1 e2).
  Proof.
    intros ND L B. unfold spatial2. rewrite up_down_spec by assumption. set (P := combine x y) in *.
    assert (F : map fst P = x) by now apply map_fst_combine. assert (NP : NoDup (map fst P)) by now rewrite F.
    assert (SO : spatial_ok Nso P = true).
    { apply forallb_forall. intros [i p] H. cbn [fst snd]. destruct (B i p H) as [? [? ?]]. rewrite !andb_true_iff, !Nat.ltb_lt. lia. }
    rewrite SO. eexists. split; [reflexivity|]. intros [i p] [j q] H1 H2. cbn [fst snd].
    set (g := fun i j => t i j + t (partner P i) (partner P j)).
    assert (E : forall Q, (forall e, In e Q -> In (fst e) P /\ In (snd e) P) -> forall z,
       fold_left (fun n e => let '((i, p), (j, q)) := e in set2 i j (t i j + t p q) n) Q z
       = fold_left (fun t e => set2 (fst e) (snd e) (g (fst e) (snd e)) t) (map (fun e => (fst (fst e), fst (snd e))) Q) z).
    { induction Q as [|[[i' p'] [j' q']] Q IH]; intros HQ z; [reflexivity|]. cbn [fold_left map fst snd]. rewrite IH by (intros; apply HQ; now right).
      destruct (HQ _ (or_introl eq_refl)) as [I1 I2]. cbn [fst snd] in I1, I2. assert (Eg : g i' j' = t i' j' + t p' q') by (unfold g; now rewrite (partner_in P i' p'), (partner_in P j' q')). now rewrite Eg. }
    rewrite E by (intros [a b] H; now apply in_prod_iff in H). rewrite set2_hit.
    - unfold g, spin_sum2. cbn [fst snd]. now rewrite (partner_in P i p), (partner_in P j q).
    - left. apply in_map_iff. exists ((i, p), (j, q)). split; [reflexivity|]. now apply in_prod_iff.
  Qed.
  (** A spin-up orbital numbered Nso/2 or higher is refused. *)
  Lemma spatial4_refused Nso x y (t : tensor4) i : In i x -> (Nat.div2 Nso <= i)%nat -> spatial4 Nso x y t = None.
  Proof.
    intros H Hi. unfold spatial4. destruct (up_down x y) as [P|] eqn:E; [|reflexivity].
    assert (HP : exists p, In (i, p) P).
    { unfold up_down in E. destruct (pair_dict x y) as [d|]; [|discriminate]. destruct (pair_dict y x); [|discriminate].
      revert P E. induction x as [|a x IH]; intros P E; [destruct H|]. cbn [map all_some] in E.
      destruct (dget a d) as [v|] eqn:Ed; cbn [option_map] in E; [|discriminate]. destruct (all_some _) as [Q|] eqn:EQ; [|discriminate]. injection E as <-.
      destruct H as [-> | H]; [exists v; now left|]. destruct (IH H Q eq_refl) as [p Hp]. exists p. now right. }
    destruct HP as [p Hp]. assert (SO : spatial_ok Nso P = false).
    { apply not_true_iff_false. intro T. unfold spatial_ok in T. rewrite forallb_forall in T. specialize (T _ Hp). cbn [fst] in T. rewrite !andb_true_iff, Nat.ltb_lt in T. lia. }
    now rewrite SO.
  Qed.

  (** The default numbering. *)
  Lemma default_ok N i p : In (i, p) (combine (seq 0 N) (seq N N)) -> (i < Nat.div2 (2 * N) /\ i < 2 * N /\ p < 2 * N)%nat.
  Proof. rewrite combine_default. rewrite Nat.div2_double. lia. Qed.
  Lemma spatial4_default N (t : tensor4) : exists s, spatial4 (2 * N) (seq 0 N) (seq N N) t = Some s /\
    forall i k j l, (i < N)%nat -> (k < N)%nat -> (j < N)%nat -> (l < N)%nat ->
      s i k j l = t i k j l + t (N + i)%nat (N + k)%nat (N + j)%nat (N + l)%nat + t i (N + k)%nat j (N + l)%nat + t (N + i)%nat k (N + j)%nat l.
  Proof.
    destruct (spatial4_spec (2 * N) (seq 0 N) (seq N N) t (seq_NoDup _ _) ltac:(now rewrite !seq_length) (default_ok N)) as [s [E [H _]]].
    exists s. split; [exact E|]. intros i k j l Hi Hk Hj Hl.
    assert (G : forall a, (a < N)%nat -> In (a, N + a)%nat (combine (seq 0 N) (seq N N))) by (intros a Ha; apply combine_default; lia).
    exact (H (i, N + i)%nat (k, N + k)%nat (j, N + j)%nat (l, N + l)%nat (G i Hi) (G k Hk) (G j Hj) (G l Hl)).
  Qed.
  Lemma spatial2_default N (t : tensor2) : exists s, spatial2 (2 * N) (seq 0 N) (seq N N) t = Some s /\
    forall i j, (i < N)%nat -> (j < N)%nat -> s i j = t i j + t (N + i)%nat (N + j)%nat.
  Proof.
    destruct (spatial2_spec (2 * N) (seq 0 N) (seq N N) t (seq_NoDup _ _) ltac:(now rewrite !seq_length) (default_ok N)) as [s [E H]].
    exists s. split; [exact E|]. intros i j Hi Hj.
    assert (G : forall a, (a < N)%nat -> In (a, N + a)%nat (combine (seq 0 N) (seq N N))) by (intros a Ha; apply combine_default; lia).
    exact (H (i, N + i)%nat (j, N + j)%nat (G i Hi) (G j Hj)).
  Qed.
  Lemma upto_split N (f : nat -> K) : upto (2 * N) f = upto N f + upto N (fun i => f (N + i)%nat).
  Proof.
    unfold upto. replace (2 * N)%nat with (N + N)%nat by lia. rewrite seq_app, over_app. f_equal. rewrite Nat.add_0_l.
    assert (G : forall a b, over (seq (a + b) N) f = over (seq b N) (fun i => f (a + i)%nat)).
    { intros a b. rewrite <- (over_map K (fun i => (a + i)%nat)). f_equal. clear. revert b. induction N as [|n IH]; intro b; [reflexivity|]. cbn [seq map]. f_equal.
      rewrite <- IH. f_equal. lia. }
    specialize (G N 0%nat). rewrite Nat.add_0_r in G. exact G.
  Qed.
  (** Contracting the spin-summed 2-RDM gives the spin-summed contraction. *)
  Lemma spatial_reduce_spec N w (t : tensor4) s : spatial4 (2 * N) (seq 0 N) (seq N N) t = Some s ->
    exists s1, spatial2 (2 * N) (seq 0 N) (seq N N) (fun i j => sum_range (2 * N) (fun x => t i x j x) * w) = Some s1 /\
      forall i j, (i < N)%nat -> (j < N)%nat -> spatial_reduce N w s i j = s1 i j.
  Proof.
    intro E. destruct (spatial4_default N t) as [s' [E' H]]. rewrite E in E'. injection E' as <-.
    destruct (spatial2_default N (fun i j => sum_range (2 * N) (fun x => t i x j x) * w)) as [s1 [E1 H1]]. exists s1. split; [exact E1|].
    intros i j Hi Hj. rewrite (H1 i j Hi Hj). unfold spatial_reduce. apply Nat.ltb_lt in Hi as Hi'. apply Nat.ltb_lt in Hj as Hj'. rewrite Hi', Hj'. cbn [andb].
    rewrite !sum_range_upto, !upto_split.
    rewrite (upto_ext K N _ (fun x => (t i x j x + t i (N + x)%nat j (N + x)%nat) + (t (N + i)%nat x (N + j)%nat x + t (N + i)%nat (N + x)%nat (N + j)%nat (N + x)%nat))).
    - rewrite !upto_add. ring.
    - intros x Hx. rewrite H by assumption. ring.
  Qed.
  Lemma spatial_trace N (t : tensor4) s : spatial4 (2 * N) (seq 0 N) (seq N N) t = Some s ->
    upto N (fun i => upto N (fun k => s i k i k)) = upto (2 * N) (fun i => upto (2 * N) (fun k => t i k i k)).
  Proof.
    intro E. destruct (spatial4_default N t) as [s' [E' H]]. rewrite E in E'. injection E' as <-. rewrite upto_split, <- upto_add. apply upto_ext. intros i Hi.
    rewrite !upto_split, <- !upto_add. apply upto_ext. intros k Hk. rewrite H by assumption. ring.
  Qed.
  (** The spin-integrated 2-RDM of the RDM class is the same tensor. *)
  Lemma spatial_rdm2_spec R (t : tensor4) i k j l : (i < R)%nat -> (k < R)%nat -> (j < R)%nat -> (l < R)%nat ->
    spatial_rdm2 R t i k j l = t i k j l + t (R + i)%nat (R + k)%nat (R + j)%nat (R + l)%nat + t i (R + k)%nat j (R + l)%nat + t (R + i)%nat k (R + j)%nat l.
  Proof.
    intros Hi Hk Hj Hl. unfold spatial_rdm2. rewrite apply_get. unfold zero4 at 1.
    rewrite over_flat_map. change (over (seq 0 R)) with (@upto K R).
    set (f := fun i k j l => t i k j l + t (R + i)%nat (R + k)%nat (R + j)%nat (R + l)%nat + t i (R + k)%nat j (R + l)%nat + t (R + i)%nat k (R + j)%nat l).
    rewrite (upto_ext K R _ (fun i' => upto R (fun j' => upto R (fun k' => upto R (fun l' => dl (0 + i') i * (dl (0 + k') k * (dl (0 + j') j * (dl (0 + l') l * f i' k' j' l')))))))).
    - rewrite block_sum. unfold hit. rewrite !Nat.sub_0_r. apply Nat.ltb_lt in Hi, Hk, Hj, Hl. rewrite Hi, Hk, Hj, Hl. cbn [Nat.leb andb]. unfold f. ring.
    - intros i' _. rewrite over_flat_map. apply upto_ext. intros j' _. rewrite over_flat_map. apply upto_ext. intros k' _. rewrite over_flat_map. apply upto_ext. intros l' _.
      cbn [over fold_right at4]. rewrite !Nat.add_0_l. unfold f. ring.
  Qed.

  (** ** Flipping the spins *)
  Lemma flip_spec Nso a b (t : tensor4) : NoDup (all_orbs a ++ all_orbs b) -> length (all_orbs a) = length (all_orbs b) ->
    (forall x, In x (all_orbs a ++ all_orbs b) -> (x < Nso)%nat) ->
    exists n, switch_alpha_beta Nso a b t = Some n /\
      let A := combine (all_orbs a) (all_orbs b) in let B := combine (all_orbs b) (all_orbs a) in
      (forall P Q, (P = A \/ P = B) -> (Q = A \/ Q = B) -> forall e1 e2 e3 e4, In e1 P -> In e2 Q -> (In e3 P /\ In e4 Q \/ In e3 Q /\ In e4 P) ->
        n (snd e1) (snd e2) (snd e3) (snd e4) = t (fst e1) (fst e2) (fst e3) (fst e4)).
  Proof.
    intros ND L B0. set (x := all_orbs a) in *. set (y := all_orbs b) in *. assert (Nx := NoDup_app_l _ _ ND). assert (Ny := NoDup_app_r _ _ ND).
    unfold switch_alpha_beta. fold x y. rewrite (up_down_spec x y), (up_down_spec y x) by (assumption || now symmetry).
    set (A := combine x y). set (B := combine y x).
    assert (Bx : below Nso x = true) by (apply below_spec; intros z Hz; apply B0, in_or_app; now left).
    assert (By : below Nso y = true) by (apply below_spec; intros z Hz; apply B0, in_or_app; now right).
    rewrite Bx, By. cbn [andb]. eexists. split; [reflexivity|]. cbn zeta.
    set (ph := partner (A ++ B)).
    assert (FA : map fst A = x) by now apply map_fst_combine. assert (FB : map fst B = y) by (apply map_fst_combine; now symmetry).
    assert (NAB : NoDup (map fst (A ++ B))) by now rewrite map_app, FA, FB.
    (* the partner of the new index is the old index *)
    assert (PA : forall e, In e A -> ph (snd e) = fst e).
    { intros [i p] H. apply partner_in; [exact NAB|]. apply in_or_app. right. now apply in_combine_swap. }
    assert (PB : forall e, In e B -> ph (snd e) = fst e).
    { intros [i p] H. apply partner_in; [exact NAB|]. apply in_or_app. left. now apply in_combine_swap. }
    set (g := fun i k j l => t (ph i) (ph k) (ph j) (ph l)).
    set (h := fun e : nat * nat * (nat * nat * (nat * nat * (nat * nat))) => let '((i, p), ((j, q), ((k, r), (l, s)))) := e in ((p, q, r, s), t i j k l)).
    set (h4 := fun e : nat * nat * (nat * nat * (nat * nat * (nat * nat))) => let '((i, p), ((j, q), ((k, r), (l, s)))) := e in
       [((p, r, q, s), t i k j l); ((r, p, q, s), t k i j l); ((r, p, s, q), t k i l j); ((p, r, s, q), t i k l j)]).
    assert (E1 : forall Q z, fold_left (fun n e => let '((i, p), ((j, q), ((k, r), (l, s)))) := e in set4 ((p, q, r, s), t i j k l) n) Q z
       = fold_left (fun t u => set4 u t) (map h Q) z) by (intros; apply (fold_set4_map h); intros n [[i p] [[j q] [[k r] [l s]]]]; reflexivity).
    assert (E2 : forall Q z, fold_left (fun n e => let '((i, p), ((j, q), ((k, r), (l, s)))) := e in
                  set4 ((p, r, s, q), t i k l j) (set4 ((r, p, s, q), t k i l j) (set4 ((r, p, q, s), t k i j l) (set4 ((p, r, q, s), t i k j l) n)))) Q z
       = fold_left (fun t u => set4 u t) (flat_map h4 Q) z).
    { induction Q as [|[[i p] [[j q] [[k r] [l s]]]] Q IH]; intro z; [reflexivity|]. cbn [fold_left flat_map]. rewrite IH. cbn [h4]. rewrite fold_left_app. reflexivity. }
    rewrite !E1, E2, <- !fold_left_app.
    set (us := (map h (list_prod A (list_prod A (list_prod A A))) ++ map h (list_prod B (list_prod B (list_prod B B))) ++ flat_map h4 (list_prod A (list_prod A (list_prod B B))))).
    assert (HG : forall c1 c2 c3 c4 v, In ((c1, c2, c3, c4), v) us -> v = g c1 c2 c3 c4).
    { intros c1 c2 c3 c4 v Hv. unfold us in Hv. rewrite !in_app_iff in Hv. destruct Hv as [Hv | [Hv | Hv]].
      - apply in_map_iff in Hv. destruct Hv as [[[i p] [[j q] [[k r] [l s]]]] [Ev Hin]]. rewrite !in_prod_iff in Hin. destruct Hin as [I1 [I2 [I3 I4]]].
        cbn [h] in Ev. injection Ev as <- <- <- <- <-. unfold g. now rewrite (PA _ I1 : ph p = i), (PA _ I2 : ph q = j), (PA _ I3 : ph r = k), (PA _ I4 : ph s = l).
      - apply in_map_iff in Hv. destruct Hv as [[[i p] [[j q] [[k r] [l s]]]] [Ev Hin]]. rewrite !in_prod_iff in Hin. destruct Hin as [I1 [I2 [I3 I4]]].
        cbn [h] in Ev. injection Ev as <- <- <- <- <-. unfold g. now rewrite (PB _ I1 : ph p = i), (PB _ I2 : ph q = j), (PB _ I3 : ph r = k), (PB _ I4 : ph s = l).
      - apply in_flat_map in Hv. destruct Hv as [[[i p] [[j q] [[k r] [l s]]]] [Hin Ev]]. rewrite !in_prod_iff in Hin. destruct Hin as [I1 [I2 [I3 I4]]].
        cbn [h4] in Ev. unfold g. destruct Ev as [Ev | [Ev | [Ev | [Ev | []]]]]; injection Ev as <- <- <- <- <-;
        now rewrite (PA _ I1 : ph p = i), (PA _ I2 : ph q = j), (PB _ I3 : ph r = k), (PB _ I4 : ph s = l). }
    assert (PP : forall P e, (P = A \/ P = B) -> In e P -> ph (snd e) = fst e) by (intros P e [-> | ->]; [apply PA|apply PB]).
    intros P Q HP HQ e1 e2 e3 e4 H1 H2 H34.
    assert (V : g (snd e1) (snd e2) (snd e3) (snd e4) = t (fst e1) (fst e2) (fst e3) (fst e4)).
    { unfold g. rewrite (PP P e1 HP H1), (PP Q e2 HQ H2). destruct H34 as [[H3 H4] | [H3 H4]]; [rewrite (PP P e3 HP H3), (PP Q e4 HQ H4)|rewrite (PP Q e3 HQ H3), (PP P e4 HP H4)]; reflexivity. }
    rewrite <- V. apply set4_hit; [exact HG|]. left. exists (t (fst e1) (fst e2) (fst e3) (fst e4)). unfold us. rewrite !in_app_iff.
    destruct e1 as [i p], e2 as [j q], e3 as [k r], e4 as [l s]. cbn [fst snd].
    assert (M : forall a1 a2 b1 b2, In a1 A -> In a2 A -> In b1 B -> In b2 B -> forall u, In u (h4 (a1, (a2, (b1, b2)))) -> In u (flat_map h4 (list_prod A (list_prod A (list_prod B B))))).
    { intros. apply in_flat_map. exists (a1, (a2, (b1, b2))). split; [|assumption]. rewrite !in_prod_iff. auto. }
    destruct HP as [-> | ->], HQ as [-> | ->].
    - left. apply in_map_iff. exists ((i, p), ((j, q), ((k, r), (l, s)))). split; [reflexivity|]. rewrite !in_prod_iff. tauto.
    - right. right. destruct H34 as [[H3 H4] | [H3 H4]].
      + apply (M (i, p) (k, r) (j, q) (l, s)); auto. cbn. auto.
      + apply (M (i, p) (l, s) (j, q) (k, r)); auto. cbn. auto.
    - right. right. destruct H34 as [[H3 H4] | [H3 H4]].
      + apply (M (j, q) (l, s) (i, p) (k, r)); auto. cbn. auto.
      + apply (M (j, q) (k, r) (i, p) (l, s)); auto. cbn. auto.
    - right. left. apply in_map_iff. exists ((i, p), ((j, q), ((k, r), (l, s)))). split; [reflexivity|]. rewrite !in_prod_iff. tauto.
  Qed.

  (** ** Blocks *)
  Definition sel (b : bool) (v : K) : K := if b then v else 0.
  Lemma from_ab_get R (f : tensor4) x y z t : from_ab R f x y z t =
    let aa := fun i k j l => f i k j l - f k i j l in
    let blk s1 s2 s3 s4 := hit R s1 x && hit R s2 y && hit R s3 z && hit R s4 t in
    let xR := (x - R)%nat in let yR := (y - R)%nat in let zR := (z - R)%nat in let tR := (t - R)%nat in
    sel (blk 0%nat 0%nat 0%nat 0%nat) (aa x y z t) + sel (blk R R R R) (aa xR yR zR tR)
    + sel (blk 0%nat R 0%nat R) (f x yR z tR) + sel (blk R 0%nat R 0%nat) (f xR y zR t)
    + sel (blk R 0%nat 0%nat R) (- f y xR z tR) + sel (blk 0%nat R R 0%nat) (- f yR x zR t).
  Proof.
    unfold from_ab. rewrite apply_get. unfold zero4 at 1. cbn zeta. set (aa := fun i k j l => f i k j l - f k i j l).
    assert (B : forall s1 s2 s3 s4 (g : tensor4), upto R (fun i => upto R (fun j => upto R (fun k => upto R (fun l => dl (s1 + i) x * (dl (s2 + k) y * (dl (s3 + j) z * (dl (s4 + l) t * g i k j l)))))))
      = sel (hit R s1 x && hit R s2 y && hit R s3 z && hit R s4 t) (g (x - s1)%nat (y - s2)%nat (z - s3)%nat (t - s4)%nat)) by (intros; apply block_sum).
    assert (B' : forall s1 s2 s3 s4 (g : tensor4), upto R (fun i => upto R (fun j => upto R (fun k => upto R (fun l => dl (s1 + k) x * (dl (s2 + i) y * (dl (s3 + j) z * (dl (s4 + l) t * g i k j l)))))))
      = sel (hit R s1 x && hit R s2 y && hit R s3 z && hit R s4 t) (g (y - s2)%nat (x - s1)%nat (z - s3)%nat (t - s4)%nat)) by (intros; apply block_sum').
    assert (S1 := B 0%nat 0%nat 0%nat 0%nat aa). assert (S2 := B R R R R aa). assert (S3 := B 0%nat R 0%nat R f). assert (S4 := B R 0%nat R 0%nat f).
    assert (S5 := B' R 0%nat 0%nat R (fun i k j l => - f i k j l)). assert (S6 := B' 0%nat R R 0%nat (fun i k j l => - f i k j l)).
    rewrite !Nat.sub_0_r in *.
    transitivity (upto R (fun i => upto R (fun j => upto R (fun k => upto R (fun l => dl (0 + i) x * (dl (0 + k) y * (dl (0 + j) z * (dl (0 + l) t * aa i k j l)))))))
      + upto R (fun i => upto R (fun j => upto R (fun k => upto R (fun l => dl (R + i) x * (dl (R + k) y * (dl (R + j) z * (dl (R + l) t * aa i k j l)))))))
      + upto R (fun i => upto R (fun j => upto R (fun k => upto R (fun l => dl (0 + i) x * (dl (R + k) y * (dl (0 + j) z * (dl (R + l) t * f i k j l)))))))
      + upto R (fun i => upto R (fun j => upto R (fun k => upto R (fun l => dl (R + i) x * (dl (0 + k) y * (dl (R + j) z * (dl (0 + l) t * f i k j l)))))))
      + upto R (fun i => upto R (fun j => upto R (fun k => upto R (fun l => dl (R + k) x * (dl (0 + i) y * (dl (0 + j) z * (dl (R + l) t * - f i k j l)))))))
      + upto R (fun i => upto R (fun j => upto R (fun k => upto R (fun l => dl (0 + k) x * (dl (R + i) y * (dl (R + j) z * (dl (0 + l) t * - f i k j l)))))))); [clear|rewrite S1, S2, S3, S4, S5, S6; reflexivity].
    transitivity (upto R (fun i => upto R (fun j => upto R (fun k => upto R (fun l =>
      dl (0 + i) x * (dl (0 + k) y * (dl (0 + j) z * (dl (0 + l) t * aa i k j l))) + dl (R + i) x * (dl (R + k) y * (dl (R + j) z * (dl (R + l) t * aa i k j l)))
      + dl (0 + i) x * (dl (R + k) y * (dl (0 + j) z * (dl (R + l) t * f i k j l))) + dl (R + i) x * (dl (0 + k) y * (dl (R + j) z * (dl (0 + l) t * f i k j l)))
      + dl (R + k) x * (dl (0 + i) y * (dl (0 + j) z * (dl (R + l) t * - f i k j l))) + dl (0 + k) x * (dl (R + i) y * (dl (R + j) z * (dl (0 + l) t * - f i k j l)))))))).
    - rewrite over_flat_map. transitivity (0 + upto R (fun i => over (flat_map (fun j => flat_map (fun k => flat_map (fun l =>
        [((i, k, j, l), aa i k j l); ((i + R, R + k, j + R, l + R)%nat, aa i k j l); ((i, R + k, j, l + R)%nat, f i k j l); ((i + R, k, j + R, l)%nat, f i k j l);
         ((R + k, i, j, l + R)%nat, - f i k j l); ((k, i + R, j + R, l)%nat, - f i k j l)]) (seq 0 R)) (seq 0 R)) (seq 0 R)) (at4 x y z t))); [reflexivity|].
      transitivity (0 + upto R (fun i => upto R (fun j => upto R (fun k => upto R (fun l =>
      dl (0 + i) x * (dl (0 + k) y * (dl (0 + j) z * (dl (0 + l) t * aa i k j l))) + dl (R + i) x * (dl (R + k) y * (dl (R + j) z * (dl (R + l) t * aa i k j l)))
      + dl (0 + i) x * (dl (R + k) y * (dl (0 + j) z * (dl (R + l) t * f i k j l))) + dl (R + i) x * (dl (0 + k) y * (dl (R + j) z * (dl (0 + l) t * f i k j l)))
      + dl (R + k) x * (dl (0 + i) y * (dl (0 + j) z * (dl (R + l) t * - f i k j l))) + dl (0 + k) x * (dl (R + i) y * (dl (R + j) z * (dl (0 + l) t * - f i k j l)))))))); [|ring].
      f_equal. apply upto_ext. intros i _. rewrite over_flat_map. apply upto_ext. intros j _. rewrite over_flat_map. apply upto_ext. intros k _. rewrite over_flat_map. apply upto_ext. intros l _.
      cbn [over fold_right at4]. rewrite !Nat.add_0_l, (Nat.add_comm i R), (Nat.add_comm j R), (Nat.add_comm l R). ring.
    - rewrite <- !upto_add. apply upto_ext. intros i _. rewrite <- !upto_add. apply upto_ext. intros j _. rewrite <- !upto_add. apply upto_ext. intros k _. rewrite <- !upto_add. reflexivity.
  Qed.
  (** Membership of an index in the two spin blocks. *)
  Lemma hit_lo R i : (i < R)%nat -> hit R 0 i = true /\ hit R R i = false.
  Proof. intro H. unfold hit. split; [apply Nat.ltb_lt in H; rewrite Nat.sub_0_r; exact H|]. apply andb_false_iff. left. apply Nat.leb_gt. exact H. Qed.
  Lemma hit_hi R i : (i < R)%nat -> hit R 0 (R + i) = false /\ hit R R (R + i) = true.
  Proof.
    intro H. unfold hit. split; [rewrite Nat.sub_0_r; apply andb_false_iff; right; apply Nat.ltb_ge; lia|].
    apply andb_true_iff. split; [apply Nat.leb_le; lia|apply Nat.ltb_lt; lia].
  Qed.
  Lemma from_ab_blocks R (f : tensor4) i k j l : (i < R)%nat -> (k < R)%nat -> (j < R)%nat -> (l < R)%nat ->
    let I := (R + i)%nat in let Kk := (R + k)%nat in let J := (R + j)%nat in let L := (R + l)%nat in
    from_ab R f i k j l = f i k j l - f k i j l /\ from_ab R f I Kk J L = f i k j l - f k i j l /\
    from_ab R f i Kk j L = f i k j l /\ from_ab R f I k J l = f i k j l /\
    from_ab R f Kk i j L = - f i k j l /\ from_ab R f k I J l = - f i k j l /\
    from_ab R f I k j l = 0 /\ from_ab R f i Kk j l = 0 /\ from_ab R f i k J l = 0 /\ from_ab R f i k j L = 0 /\
    from_ab R f i Kk J L = 0 /\ from_ab R f I k J L = 0 /\ from_ab R f I Kk j L = 0 /\ from_ab R f I Kk J l = 0 /\
    from_ab R f I Kk j l = 0 /\ from_ab R f i k J L = 0.
  Proof.
    intros Hi Hk Hj Hl. cbn zeta.
    destruct (hit_lo R i Hi) as [a1 a2], (hit_lo R k Hk) as [b1 b2], (hit_lo R j Hj) as [c1 c2], (hit_lo R l Hl) as [d1 d2].
    destruct (hit_hi R i Hi) as [a3 a4], (hit_hi R k Hk) as [b3 b4], (hit_hi R j Hj) as [c3 c4], (hit_hi R l Hl) as [d3 d4].
    assert (M : forall n, (R + n - R = n)%nat) by (intro; lia).
    repeat split; rewrite from_ab_get; cbn beta zeta; rewrite ?a1, ?a2, ?a3, ?a4, ?b1, ?b2, ?b3, ?b4, ?c1, ?c2, ?c3, ?c4, ?d1, ?d2, ?d3, ?d4; cbn [andb sel]; repeat rewrite M; ring.
  Qed.
  (** The alpha-beta block read back, default numbering. *)
  Lemma ab_block_spec R (t : tensor4) i k j l : (i < R)%nat -> (k < R)%nat -> (j < R)%nat -> (l < R)%nat ->
    antisymmetric_block R (seq 0 R) (seq R R) t i k j l = t i (R + k)%nat j (R + l)%nat.
  Proof.
    intros Hi Hk Hj Hl. unfold antisymmetric_block. rewrite apply_get. unfold zero4 at 1.
    assert (SR : seq R R = map (fun a => R + a)%nat (seq 0 R)).
    { assert (G : forall n b, map (fun a => R + a)%nat (seq b n) = seq (R + b) n).
      { induction n as [|n IH]; intro b; [reflexivity|]. cbn [seq map]. rewrite IH. repeat f_equal. lia. }
      rewrite G. f_equal. lia. }
    rewrite over_flat_map. change (over (seq 0 R)) with (@upto K R).
    rewrite (upto_ext K R _ (fun i' => upto R (fun j' => upto R (fun k' => upto R (fun l' => dl (0 + i') i * (dl (0 + k') k * (dl (0 + j') j * (dl (0 + l') l * t i' (R + k')%nat j' (R + l')%nat)))))))).
    - rewrite (block_sum R 0 0 0 0 i k j l (fun a b c d => t a (R + b)%nat c (R + d)%nat)).
      rewrite (proj1 (hit_lo R i Hi)), (proj1 (hit_lo R k Hk)), (proj1 (hit_lo R j Hj)), (proj1 (hit_lo R l Hl)). cbn [andb]. rewrite !Nat.sub_0_r. ring.
    - intros i' Hi'. rewrite over_flat_map. apply upto_ext. intros j' Hj'. rewrite over_flat_map. rewrite SR, over_map. apply upto_ext. intros k' Hk'.
      rewrite !over_map. apply upto_ext. intros l' Hl'. cbn [at4]. rewrite !Nat.add_0_l.
      assert (M : forall a, (a < R)%nat -> ((R + a) mod R = a)%nat).
      { intros a Ha. replace (R + a)%nat with (a + 1 * R)%nat by lia. rewrite Nat.mod_add by lia. now apply Nat.mod_small. }
      rewrite !M, !Nat.mod_small by assumption. reflexivity.
  Qed.
  Lemma ab_roundtrip R (f : tensor4) i k j l : (i < R)%nat -> (k < R)%nat -> (j < R)%nat -> (l < R)%nat ->
    antisymmetric_block R (seq 0 R) (seq R R) (from_ab R f) i k j l = f i k j l.
  Proof. intros Hi Hk Hj Hl. rewrite ab_block_spec by assumption. apply (from_ab_blocks R f i k j l Hi Hk Hj Hl). Qed.
End Blocks.
