(** The transformed integrals for the layouts the Hamiltonian classes use. *)
From Coq Require Import Bool List Arith Lia Ring.
From Verif Require Import Coeff MatSpec FockSpec InvModel HamModel HamSpec HamProofs HamProofs3 HamProofs4 IntsModel IntsSpec IntsProofs1 IntsProofs2.
Import ListNotations.
(** Number of spatial orbitals of a region. *)
Definition extent (r : region) (No_as No_core No_tot : nat) : nat := match r with Full => No_tot | Active => No_core + No_as end.
Definition inside (N n i : nat) : bool := (i <? 2 * N) && (spatial N i <? n).
Section Ints3.
  Variable K : CoefRing.
  Add Ring KRing : (c_ring K).
  Local Open Scope coef_scope.
  Notation array2 := (nat -> nat -> K).
  Notation array4 := (nat -> nat -> nat -> nat -> K).
  Variables (No_as No_core N : nat).
  Hypothesis HN : (No_core + No_as <= N)%nat.
  Notation alpha := (alpha_mo No_as No_core N).
  Notation beta := (beta_mo No_as No_core N).

  Lemma in_alpha r i : In i (orbitals r alpha) <-> (i < extent r No_as No_core N)%nat.
  Proof.
    destruct r; cbn [orbitals alpha_mo g_inactive g_active g_virtual extent]; unfold alpha_inactive, alpha_active; rewrite !in_app_iff, !in_map_iff; rewrite ?in_seq.
    - split; [intros [H|[[x [<- H]]|[x [<- H]]]]; try rewrite in_seq in H; lia|]. intros H.
      destruct (le_lt_dec No_core i) as [H1|H1]; [|left; lia]. destruct (le_lt_dec (No_core + No_as) i); [right; right; exists (i - No_core - No_as)%nat|right; left; exists (i - No_core)%nat]; rewrite in_seq; lia.
    - split; [intros [[x [<- H]]|H]; try rewrite in_seq in H; lia|]. intros H.
      destruct (le_lt_dec No_core i) as [H1|H1]; [left; exists (i - No_core)%nat; rewrite in_seq; lia|right; lia].
  Qed.
  Lemma in_beta r i : In i (orbitals r beta) <-> (N <= i < N + extent r No_as No_core N)%nat.
  Proof.
    destruct r; cbn [orbitals beta_mo g_inactive g_active g_virtual extent]; unfold beta_inactive, beta_active; rewrite !in_app_iff, !in_map_iff.
    - split; [intros [[x [<- H]]|[[x [<- H]]|[x [<- H]]]]; rewrite in_seq in H; lia|]. intros H.
      destruct (le_lt_dec (N + No_core) i) as [H1|H1]; [|left; exists (i - N)%nat; rewrite in_seq; lia].
      destruct (le_lt_dec (N + No_core + No_as) i); [right; right; exists (i - N - No_core - No_as)%nat|right; left; exists (i - N - No_core)%nat]; rewrite in_seq; lia.
    - split; [intros [[x [<- H]]|[x [<- H]]]; rewrite in_seq in H; lia|]. intros H.
      destruct (le_lt_dec (N + No_core) i) as [H1|H1]; [left; exists (i - N - No_core)%nat|right; exists (i - N)%nat]; rewrite in_seq; lia.
  Qed.
  Lemma nodup_parts (f g h : nat -> nat) a b c : (forall x y, f x = f y -> x = y) -> (forall x y, g x = g y -> x = y) -> (forall x y, (x < c)%nat -> (y < c)%nat -> h x = h y -> x = y) ->
    (forall x y, x < a -> y < b -> f x <> g y)%nat -> (forall x y, x < a -> y < c -> f x <> h y)%nat -> (forall x y, x < b -> y < c -> g x <> h y)%nat ->
    NoDup (map f (seq 0 a) ++ map g (seq 0 b) ++ map h (seq 0 c)).
  Proof.
    intros If Ig Ih Fg Fh Gh.
    assert (App : forall (l m : list nat), NoDup l -> NoDup m -> (forall x, In x l -> ~ In x m) -> NoDup (l ++ m)).
    { intros l m Nl Nm D. induction Nl as [|x l Hx Nl IH]; [exact Nm|]. cbn [app]. constructor; [rewrite in_app_iff; intros [H|H]; [contradiction|]; apply (D x); [now left|assumption]|]. apply IH. intros y Hy. apply D. now right. }
    apply App; [|apply App|].
    - apply FinFun.Injective_map_NoDup; [exact If|apply seq_NoDup].
    - apply FinFun.Injective_map_NoDup; [exact Ig|apply seq_NoDup].
    - assert (G : forall n s, (s + n <= c)%nat -> NoDup (map h (seq s n))).
      { induction n as [|n IH]; intros s Hs; [constructor|]. cbn [seq map]. constructor; [|apply IH; lia]. intros H. apply in_map_iff in H. destruct H as [y [E H]]. apply in_seq in H. apply Ih in E; lia. }
      apply G. lia.
    - intros x Hx Hy. apply in_map_iff in Hx, Hy. destruct Hx as [u [<- Hu]], Hy as [v [E Hv]]. apply in_seq in Hu, Hv. apply (Gh u v); [lia|lia|congruence].
    - intros x Hx Hy. rewrite in_app_iff in Hy. apply in_map_iff in Hx. destruct Hx as [u [<- Hu]]. apply in_seq in Hu. destruct Hy as [Hy|Hy]; apply in_map_iff in Hy; destruct Hy as [v [E Hv]]; apply in_seq in Hv.
      + apply (Fg u v); [lia|lia|congruence].
      + apply (Fh u v); [lia|lia|congruence].
  Qed.
  Lemma nodup_alpha r : NoDup (orbitals r alpha).
  Proof.
    destruct r; cbn [orbitals alpha_mo g_inactive g_active g_virtual]; unfold alpha_inactive, alpha_active.
    - rewrite <- (map_id (seq 0 No_core)). apply nodup_parts; intros; unfold id in *; lia.
    - rewrite <- (map_id (seq 0 No_core)), <- (app_nil_r (map id _)). change (@nil nat) with (map id (seq 0 0)). apply nodup_parts; intros; unfold id in *; lia.
  Qed.
  Lemma nodup_beta r : NoDup (orbitals r beta).
  Proof.
    destruct r; cbn [orbitals beta_mo g_inactive g_active g_virtual]; unfold beta_inactive, beta_active.
    - apply nodup_parts; intros; lia.
    - rewrite <- (app_nil_r (map (fun i => i + N)%nat _)). change (@nil nat) with (map id (seq 0 0)). apply nodup_parts; intros; unfold id in *; lia.
  Qed.
  Lemma look_located s2s l A i : NoDup l -> map fst A = l -> (forall i P, In (i, P) A -> s2s i = Some P) -> In i l -> look A i = s2s i.
  Proof.
    intros Nd M H Hi. subst l. destruct (look A i) as [P|] eqn:E.
    - apply (look_in A i P) in E; [|assumption]. symmetry. now apply H.
    - apply look_none in E. contradiction.
  Qed.
  Lemma extent_le r : (extent r No_as No_core N <= N)%nat. Proof. destruct r; cbn; lia. Qed.
  Lemma s2s_alpha i : (i < N)%nat -> spin2spac N i = Some i.
  Proof. intros H. unfold spin2spac. apply Nat.ltb_lt in H. now rewrite H. Qed.
  Lemma s2s_beta i : (N <= i < 2 * N)%nat -> spin2spac N i = Some (i - N)%nat.
  Proof. intros [H H']. unfold spin2spac. replace (i <? N) with false by (symmetry; apply Nat.ltb_ge; lia). apply Nat.ltb_lt in H'. now rewrite H'. Qed.
  (** The located lists and their look-up. *)
  Lemma located_lists r : exists A B, located N (spin2spac N) (orbitals r alpha) = Some A /\ located N (spin2spac N) (orbitals r beta) = Some B
    /\ (NoDup (map fst A) /\ NoDup (map snd A)) /\ (NoDup (map fst B) /\ NoDup (map snd B))
    /\ (forall i, look A i = if inside N (extent r No_as No_core N) i && negb (down N i) then Some (spatial N i) else None)
    /\ (forall i, look B i = if inside N (extent r No_as No_core N) i && down N i then Some (spatial N i) else None).
  Proof.
    pose proof (extent_le r) as HE. set (n := extent r No_as No_core N) in *.
    destruct (located_spec N (spin2spac N) (orbitals r alpha)) as [A [A1 [A2 [A3 A4]]]].
    { intros i Hi. apply in_alpha in Hi. fold n in Hi. exists i. rewrite s2s_alpha by lia. repeat split; lia. }
    destruct (located_spec N (spin2spac N) (orbitals r beta)) as [B [B1 [B2 [B3 B4]]]].
    { intros i Hi. apply in_beta in Hi. fold n in Hi. exists (i - N)%nat. rewrite s2s_beta by lia. repeat split; lia. }
    assert (Inj : forall (l : list nat) (L : list (nat * nat)), NoDup l -> map (fun i => spin2spac N i) l = map (fun e => Some (snd e)) L -> (forall i j, In i l -> In j l -> spin2spac N i = spin2spac N j -> i = j) -> NoDup (map snd L)).
    { intros l L Nl. revert L. induction Nl as [|x l Hx Nl IH]; intros [|[y P] L] E I; try discriminate; [constructor|]. cbn [map snd] in E |- *. injection E as E1 E2. constructor.
      - intros H. apply (in_map Some) in H. rewrite map_map in H. rewrite <- E2 in H. apply in_map_iff in H. destruct H as [z [E3 H]]. apply Hx. rewrite (I x z); [assumption|now left|now right|congruence].
      - apply IH; [assumption|]. intros; apply I; try right; assumption. }
    exists A, B. split; [assumption|]. split; [assumption|]. split; [|split; [|split]].
    - split; [rewrite A2; apply nodup_alpha|]. apply (Inj (orbitals r alpha)); [apply nodup_alpha|assumption|]. intros i j Hi Hj. apply in_alpha in Hi, Hj. fold n in Hi, Hj. rewrite !s2s_alpha by lia. congruence.
    - split; [rewrite B2; apply nodup_beta|]. apply (Inj (orbitals r beta)); [apply nodup_beta|assumption|]. intros i j Hi Hj. apply in_beta in Hi, Hj. fold n in Hi, Hj. rewrite !s2s_beta by lia. intros [= E]. lia.
    - intros i. destruct (inside N n i && negb (down N i)) eqn:E.
      + unfold inside, down, spatial, down in *. apply andb_prop in E. destruct E as [E E3]. apply andb_prop in E. destruct E as [E1 E2]. apply negb_true_iff in E3. rewrite E3 in *. apply Nat.leb_gt in E3. apply Nat.ltb_lt in E2.
        rewrite (look_located (spin2spac N) (orbitals r alpha)); [apply s2s_alpha; lia|apply nodup_alpha|assumption|assumption|]. apply in_alpha. fold n. lia.
      + apply look_none. rewrite A2, in_alpha. fold n. intros H. unfold inside, down, spatial, down in E. replace (N <=? i) with false in E by (symmetry; apply Nat.leb_gt; lia).
        replace (i <? 2 * N) with true in E by (symmetry; apply Nat.ltb_lt; lia). replace (i <? n) with true in E by (symmetry; apply Nat.ltb_lt; lia). discriminate.
    - intros i. destruct (inside N n i && down N i) eqn:E.
      + unfold inside, down, spatial, down in *. apply andb_prop in E. destruct E as [E E3]. apply andb_prop in E. destruct E as [E1 E2]. rewrite E3 in *. apply Nat.leb_le in E3. apply Nat.ltb_lt in E2. apply Nat.ltb_lt in E1.
        rewrite (look_located (spin2spac N) (orbitals r beta)); [apply s2s_beta; lia|apply nodup_beta|assumption|assumption|]. apply in_beta. fold n. lia.
      + apply look_none. rewrite B2, in_beta. fold n. intros H. unfold inside, down, spatial, down in E. replace (N <=? i) with true in E by (symmetry; apply Nat.leb_le; lia).
        replace (i <? 2 * N) with true in E by (symmetry; apply Nat.ltb_lt; lia). replace (i - N <? n) with true in E by (symmetry; apply Nat.ltb_lt; lia). discriminate.
  Qed.

  Lemma spin_1ei_spec (h Ua Ub : array2) r new : exists t, generate_spin_1ei N h Ua Ub alpha beta r (spin2spac N) new = Some t /\
    forall i j, t i j = if inside N (extent r No_as No_core N) i && inside N (extent r No_as No_core N) j && Bool.eqb (down N i) (down N j) then one_electron N Ua Ub h i j
                        else match r, new with Active, Some s => s i j | _, _ => 0 end.
  Proof.
    destruct (located_lists r) as [A [B [EA [EB [[A1 A2] [[B1 B2] [LA LB]]]]]]]. unfold generate_spin_1ei. rewrite EA, EB. eexists. split; [reflexivity|]. intros i j.
    rewrite !ei1_block_spec by assumption. rewrite !LA, !LB. unfold one_electron, component.
    destruct (inside N _ i), (inside N _ j), (down N i), (down N j); cbn [andb negb Bool.eqb]; try (now destruct r, new); apply one_sum.
  Qed.
  Definition two_value (h4 : array4) (Ua Ub : array2) (skip : bool) r i k j l : K :=
    let n := extent r No_as No_core N in
    if inside N n i && inside N n k && inside N n j && inside N n l && negb (skip && (Nat.eqb i k || Nat.eqb j l)) then two_electron N Ua Ub h4 i j k l else 0.
  Lemma spin_2ei_spec (h4 : array4) (Ua Ub : array2) (skip : bool) place r new :
    (forall i k j l i' k' j' l', q4_eqb (place i k j l) (place i' k' j' l') = Nat.eqb i i' && Nat.eqb k k' && Nat.eqb j j' && Nat.eqb l l') ->
    exists t, spin_2ei N skip place h4 Ua Ub alpha beta r (spin2spac N) new = Some t /\
    forall i k j l, get K t (place i k j l) = get K (match r, new with Active, Some s => s | _, _ => fun _ _ _ _ => 0 end) (place i k j l) + two_value h4 Ua Ub skip r i k j l.
  Proof.
    intros Hp. destruct (located_lists r) as [A [B [EA [EB [[A1 A2] [[B1 B2] [LA LB]]]]]]]. unfold spin_2ei. rewrite EA, EB. eexists. split; [reflexivity|]. intros i k j l.
    unfold four_blocks.
    rewrite (block_entry K N Ub Ub skip place h4 B B _ i k j l (fun a b c d => Hp a b c d i k j l)) by assumption.
    rewrite (block_entry K N Ub Ua false place h4 B A _ i k j l (fun a b c d => Hp a b c d i k j l)) by assumption.
    rewrite (block_entry K N Ua Ub false place h4 A B _ i k j l (fun a b c d => Hp a b c d i k j l)) by assumption.
    rewrite (block_entry K N Ua Ua skip place h4 A A _ i k j l (fun a b c d => Hp a b c d i k j l)) by assumption.
    rewrite !LA, !LB. unfold two_value, two_electron, component.
    assert (Dik : down N i = down N k \/ Nat.eqb i k = false). { destruct (Nat.eqb_spec i k) as [->|]; auto. }
    assert (Djl : down N j = down N l \/ Nat.eqb j l = false). { destruct (Nat.eqb_spec j l) as [->|]; auto. }
    destruct (inside N _ i), (inside N _ k), (inside N _ j), (inside N _ l); cbn [andb];
      destruct (down N i), (down N k), (down N j), (down N l); cbn [andb negb Bool.eqb]; try (ring);
      destruct (Nat.eqb i k), (Nat.eqb j l), skip; cbn [andb negb Datatypes.orb]; try (destruct Dik; discriminate); try (destruct Djl; discriminate); rewrite ?T4_eq; ring.
  Qed.
End Ints3.
