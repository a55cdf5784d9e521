From Coq Require Import Bool List Arith ZArith Permutation Lia.
From Verif Require Import ToolsModel ToolsSpec.
Import ListNotations.

Lemma str_eqb_spec : forall a b, str_eqb a b = true <-> a = b.
Proof.
  induction a as [|x a IH]; intros [|y b]; cbn; try (split; congruence).
  rewrite andb_true_iff, eqb_true_iff, IH. split; [intros [-> ->]; reflexivity|intro H; injection H; auto].
Qed.
Lemma str_eqb_refl a : str_eqb a a = true. Proof. now apply str_eqb_spec. Qed.

(** ** Dictionaries *)
Section D.
  Variable V : Type.
  Notation dict := (list (list bool * V)).
  Lemma keys_set k f (d : dict) : map fst (dict_set k f d) = map fst d \/ (~ In k (map fst d) /\ map fst (dict_set k f d) = map fst d ++ [k]).
  Proof.
    induction d as [|[k' v'] d IH]; cbn; [right; split; [intros []|reflexivity]|]. destruct (str_eqb k k') eqn:E; [left; reflexivity|]. cbn.
    destruct IH as [-> |[N ->]]; [left; reflexivity|]. right. split; [|reflexivity]. intros [H|H]; [subst; now rewrite str_eqb_refl in E|contradiction].
  Qed.
  Lemma keys_set_in k f (d : dict) b : In b (map fst (dict_set k f d)) <-> b = k \/ In b (map fst d).
  Proof.
    induction d as [|[k' v'] d IH]; cbn; [split; [intros [<-|[]]; now left|intros [-> |[]]; now left]|]. destruct (str_eqb k k') eqn:E; cbn.
    - apply str_eqb_spec in E. subst k'. split; [intros [H|H]; auto|intros [-> |[H|H]]; auto].
    - rewrite IH. tauto.
  Qed.
  Lemma NoDup_set k f (d : dict) : NoDup (map fst d) -> NoDup (map fst (dict_set k f d)).
  Proof.
    intro H. destruct (keys_set k f d) as [-> |[N ->]]; [exact H|]. apply NoDup_Add with (a := k) (l := map fst d); [|split; assumption].
    replace (map fst d) with (map fst d ++ []) at 1 by apply app_nil_r. apply Add_app.
  Qed.
  Lemma get_set k f (d : dict) b : dict_get b (dict_set k f d) = if str_eqb b k then Some (f (dict_get k d)) else dict_get b d.
  Proof.
    induction d as [|[k' v'] d IH]; cbn.
    - destruct (str_eqb b k); reflexivity.
    - destruct (str_eqb k k') eqn:E; cbn.
      + apply str_eqb_spec in E. subst k'. destruct (str_eqb b k); reflexivity.
      + rewrite IH. destruct (str_eqb b k') eqn:E2; [|reflexivity]. destruct (str_eqb b k) eqn:E3; [|reflexivity].
        apply str_eqb_spec in E2, E3. subst. now rewrite str_eqb_refl in E.
  Qed.
  Lemma get_in k v (d : dict) : dict_get k d = Some v -> In (k, v) d.
  Proof. induction d as [|[k' v'] d IH]; cbn; [discriminate|]. destruct (str_eqb k k') eqn:E; [intro H; injection H as ->; apply str_eqb_spec in E; subst; now left|auto]. Qed.
  Lemma get_notin k (d : dict) : ~ In k (map fst d) -> dict_get k d = None.
  Proof. induction d as [|[k' v'] d IH]; cbn; intro H; [reflexivity|]. destruct (str_eqb k k') eqn:E; [apply str_eqb_spec in E; subst; exfalso; apply H; now left|apply IH; tauto]. Qed.
  Lemma get_NoDup k v (d : dict) : NoDup (map fst d) -> In (k, v) d -> dict_get k d = Some v.
  Proof.
    induction d as [|[k' v'] d IH]; cbn; intros N H; [destruct H|]. apply NoDup_cons_iff in N. destruct N as [N1 N2]. destruct H as [H|H].
    - injection H as -> ->. now rewrite str_eqb_refl.
    - destruct (str_eqb k k') eqn:E; [|auto]. apply str_eqb_spec in E. subst k'. exfalso. apply N1. apply in_map_iff. exists (k, v). auto.
  Qed.
  Lemma set_fresh k f (d : dict) : ~ In k (map fst d) -> dict_set k f d = d ++ [(k, f None)].
  Proof. induction d as [|[k' v'] d IH]; cbn; intro H; [reflexivity|]. destruct (str_eqb k k') eqn:E; [apply str_eqb_spec in E; subst; exfalso; apply H; now left|]. rewrite IH by tauto. reflexivity. Qed.
  Lemma rebuild_inj (f : list bool -> option (list bool)) (g : list bool -> list bool) : forall (wf acc : dict),
    (forall e, In e wf -> f (fst e) = Some (g (fst e))) ->
    NoDup (map fst acc ++ map (fun e => g (fst e)) wf) ->
    rebuild f wf acc = Some (acc ++ map (fun e => (g (fst e), snd e)) wf).
  Proof.
    induction wf as [|[k v] wf IH]; intros acc Hf N; cbn; [now rewrite app_nil_r|].
    assert (E := Hf (k, v) (or_introl eq_refl)). cbn in E. rewrite E. cbn [map fst] in N.
    assert (NI : ~ In (g k) (map fst acc)).
    { apply NoDup_remove_2 in N. intro H. apply N. apply in_app_iff. now left. }
    rewrite (set_fresh _ _ _ NI). rewrite IH.
    - rewrite <- app_assoc. reflexivity.
    - intros e He. apply Hf. now right.
    - rewrite map_app, <- app_assoc. exact N.
  Qed.
  Lemma rebuild_none (f : list bool -> option (list bool)) : forall (wf acc : dict) e, In e wf -> f (fst e) = None -> rebuild f wf acc = None.
  Proof.
    induction wf as [|[k v] wf IH]; intros acc e He Hf; [destruct He|]. cbn. destruct He as [<-|He]; [cbn in Hf; now rewrite Hf|]. destruct (f k); [|reflexivity]. now apply (IH _ e).
  Qed.
End D.

(** ** filt *)
Lemma upto_nat {A} (k : list A) n : upto_ k (Z.of_nat n) = firstn n k.
Proof. unfold upto_. assert (E : (Z.of_nat n <? 0)%Z = false) by (apply Z.ltb_ge; lia). rewrite E, Nat2Z.id. reflexivity. Qed.
Lemma from_nat {A} (k : list A) n : from_ k (Z.of_nat n) = skipn n k.
Proof. unfold from_. assert (E : (Z.of_nat n <? 0)%Z = false) by (apply Z.ltb_ge; lia). rewrite E, Nat2Z.id. reflexivity. Qed.
Definition kept (N : nat) (trace : list nat) (k : list bool) : list bool :=
  map snd (filter (fun pb => negb (existsb (Nat.eqb (N - 1 - fst pb)) trace)) (combine (seq 0 (length k)) k)).
Lemma combine_app_ {A B} (a a' : list A) (b b' : list B) : length a = length b -> combine (a ++ a') (b ++ b') = combine a b ++ combine a' b'.
Proof. revert b. induction a as [|x a IH]; intros [|y b] H; cbn in *; try discriminate; [reflexivity|]. now rewrite IH by lia. Qed.
Lemma filter_all {A} (f : A -> bool) l : (forall x, In x l -> f x = true) -> filter f l = l.
Proof. induction l as [|x l IH]; cbn; intro H; [reflexivity|]. rewrite H by now left. f_equal. apply IH. auto. Qed.
Lemma filter_ext_in_ {A} (f g : A -> bool) l : (forall x, In x l -> f x = g x) -> filter f l = filter g l.
Proof. induction l as [|x l IH]; cbn; intro H; [reflexivity|]. rewrite H by now left. rewrite IH by auto. reflexivity. Qed.
Lemma combine_snd {A B} (a : list A) (b : list B) : length a = length b -> map snd (combine a b) = b.
Proof. revert b. induction a as [|x a IH]; intros [|y b] H; cbn in *; try discriminate; [reflexivity|]. now rewrite IH by lia. Qed.
Lemma kept_split N t trace u1 x u2 : t < N -> length u1 = N - 1 - t -> length u2 <= t -> (forall b, In b trace -> t < b) ->
  kept N (t :: trace) (u1 ++ x :: u2) = kept N trace u1 ++ u2.
Proof.
  intros Ht L1 L2 Hb. unfold kept. rewrite app_length. cbn [length]. replace (length u1 + S (length u2)) with (length u1 + (1 + length u2)) by lia.
  rewrite seq_app, (combine_app_ _ _ u1) by apply seq_length. cbn [seq Nat.add combine]. rewrite filter_app, map_app. f_equal.
  - f_equal. apply filter_ext_in_. intros [p b] Hp. apply in_combine_l in Hp. apply in_seq in Hp. cbn [fst existsb].
    destruct (Nat.eqb_spec (N - 1 - p) t); [lia|reflexivity].
  - cbn [filter fst existsb]. assert (E : Nat.eqb (N - 1 - length u1) t = true) by (apply Nat.eqb_eq; lia). rewrite E. cbn [orb negb].
    rewrite filter_all; [apply combine_snd; apply seq_length|]. intros [p b] Hp. apply in_combine_l in Hp. apply in_seq in Hp. cbn [fst].
    apply negb_true_iff. apply not_true_iff_false. intro H. cbn [existsb] in H. apply orb_prop in H. destruct H as [H|H].
    + apply Nat.eqb_eq in H. lia.
    + apply existsb_exists in H. destruct H as [b' [Hb' H]]. apply Nat.eqb_eq in H. specialize (Hb b' Hb'). lia.
Qed.
Lemma kept_nil N k : kept N [] k = k.
Proof. unfold kept. rewrite filter_all by reflexivity. apply combine_snd. apply seq_length. Qed.
Lemma filt_key_gen N : forall trace a u v, ascending trace -> (forall t, In t trace -> a <= t < N) -> a <= N -> length u = N - a -> (a = 0 -> v = []) ->
  filt_key N trace (u ++ v) = kept N trace u ++ v.
Proof.
  induction trace as [|t trace IH]; intros a u v As Hr HN Lu Hv; [now rewrite kept_nil|]. destruct As as [As1 As2].
  assert (Ht := Hr t (or_introl eq_refl)). unfold filt_key. cbn [fold_left].
  assert (Su : exists u1 x u2, u = u1 ++ x :: u2 /\ length u1 = N - 1 - t).
  { destruct (skipn (N - 1 - t) u) as [|x u2] eqn:E.
    - exfalso. assert (A := skipn_length (N - 1 - t) u). rewrite E in A. cbn in A. lia.
    - exists (firstn (N - 1 - t) u), x, u2. split; [rewrite <- E; symmetry; apply firstn_skipn|]. rewrite firstn_length. lia. }
  destruct Su as [u1 [x [u2 [-> L1]]]]. rewrite app_length in Lu. cbn [length] in Lu.
  assert (Ei : (Z.of_nat N - 1 - Z.of_nat t)%Z = Z.of_nat (N - 1 - t)) by lia. rewrite Ei.
  assert (Fn : firstn (N - 1 - t) ((u1 ++ x :: u2) ++ v) = u1).
  { rewrite <- L1, <- app_assoc. rewrite firstn_app, Nat.sub_diag, firstn_all. cbn. apply app_nil_r. }
  assert (Sn : skipn (S (N - 1 - t)) ((u1 ++ x :: u2) ++ v) = u2 ++ v).
  { rewrite <- L1, <- app_assoc. replace (S (length u1)) with (length u1 + 1) by lia. rewrite skipn_app. rewrite (skipn_all2 u1) by lia. replace (length u1 + 1 - length u1) with 1 by lia. reflexivity. }
  assert (G : (if (Z.of_nat (N - 1 - t) =? Z.of_nat N - 1)%Z then upto_ ((u1 ++ x :: u2) ++ v) (Z.of_nat (N - 1 - t))
       else upto_ ((u1 ++ x :: u2) ++ v) (Z.of_nat (N - 1 - t)) ++ from_ ((u1 ++ x :: u2) ++ v) (Z.of_nat (N - 1 - t) + 1)) = u1 ++ (u2 ++ v)).
  { destruct (Z.eqb_spec (Z.of_nat (N - 1 - t)) (Z.of_nat N - 1)) as [E|E].
    - assert (t = 0) by lia. assert (a = 0) by lia. rewrite (Hv H0). assert (u2 = []) by (destruct u2; [reflexivity|cbn in Lu; lia]). subst u2. rewrite upto_nat.
      rewrite (Hv H0) in Fn. rewrite Fn. cbn. now rewrite app_nil_r.
    - rewrite upto_nat, Fn. replace (Z.of_nat (N - 1 - t) + 1)%Z with (Z.of_nat (S (N - 1 - t))) by lia. rewrite from_nat, Sn. reflexivity. }
  rewrite G. fold (filt_key N trace (u1 ++ (u2 ++ v))).
  rewrite (IH (S t) u1 (u2 ++ v)); [|exact As2| |lia|lia|discriminate].
  - rewrite kept_split by (try lia; exact As1). now rewrite app_assoc.
  - intros b Hb. specialize (As1 b Hb). specialize (Hr b (or_intror Hb)). lia.
Qed.
Lemma filt_key_spec N trace k : ascending trace -> (forall t, In t trace -> t < N) -> length k = N -> filt_key N trace k = marginal trace k.
Proof.
  intros As Hr L. assert (A := filt_key_gen N trace 0 k [] As). rewrite !app_nil_r in A. rewrite A; try lia.
  - unfold kept, marginal. now rewrite L.
  - intros t Ht. specialize (Hr t Ht). lia.
  - reflexivity.
Qed.
Lemma marginal_length N : forall trace a u, ascending trace -> (forall t, In t trace -> a <= t < N) -> a <= N -> length u = N - a ->
  length (kept N trace u) + length trace = N - a.
Proof.
  induction trace as [|t trace IH]; intros a u As Hr HN Lu; [rewrite kept_nil; cbn; lia|]. destruct As as [As1 As2]. assert (Ht := Hr t (or_introl eq_refl)).
  assert (Su : exists u1 x u2, u = u1 ++ x :: u2 /\ length u1 = N - 1 - t).
  { destruct (skipn (N - 1 - t) u) as [|x u2] eqn:E.
    - exfalso. assert (A := skipn_length (N - 1 - t) u). rewrite E in A. cbn in A. lia.
    - exists (firstn (N - 1 - t) u), x, u2. split; [rewrite <- E; symmetry; apply firstn_skipn|]. rewrite firstn_length. lia. }
  destruct Su as [u1 [x [u2 [-> L1]]]]. rewrite app_length in Lu. cbn [length] in *. rewrite kept_split by (try lia; exact As1). rewrite app_length.
  assert (B : length (kept N trace u1) + length trace = N - S t).
  { apply IH; [exact As2| |lia|lia]. intros b Hb. specialize (As1 b Hb). specialize (Hr b (or_intror Hb)). lia. }
  lia.
Qed.

Definition zsum (l : list (list bool * Z)) : Z := total_shots l.
Lemma shots_cons P D kv d : shots P D (kv :: d) = ((if D (fst kv) then snd kv else 0) + shots P D d)%Z.
Proof. reflexivity. Qed.
Lemma total_set k v (d : list (list bool * Z)) : total_shots (dict_set k (fun o => match o with Some x => (x + v)%Z | None => v end) d) = (total_shots d + v)%Z.
Proof. induction d as [|[k' v'] d IH]; cbn; [lia|]. destruct (str_eqb k k'); cbn in *; [lia|]. unfold total_shots in IH. rewrite IH. lia. Qed.
Lemma shots_set k v (d : list (list bool * Z)) b : shots_at b (dict_set k (fun o => match o with Some x => (x + v)%Z | None => v end) d) =
  (shots_at b d + if str_dec k b then v else 0)%Z.
Proof.
  unfold shots_at. induction d as [|[k' v'] d IH]; cbn [dict_set shots fold_right fst snd].
  - lia.
  - destruct (str_eqb k k') eqn:E; cbn [shots fold_right fst snd].
    + apply str_eqb_spec in E. subst k'. destruct (str_dec k b); lia.
    + unfold shots in IH. rewrite IH. lia.
Qed.
Lemma filt_spec (counts : list (list bool * Z)) N trace : counts <> [] -> (forall e, In e counts -> length (fst e) = N) ->
  ascending trace -> (forall t, In t trace -> t < N) -> length trace < N ->
  exists d, filt counts trace = Some d /\ NoDup (map fst d) /\ (forall b, In b (map fst d) <-> exists e, In e counts /\ marginal trace (fst e) = b) /\
    (forall b, shots_at b d = shots_onto trace b counts) /\ total_shots d = total_shots counts.
Proof.
  intros NE HL As Hr Ht. destruct counts as [|[k0 v0] cs]; [contradiction|]. unfold filt.
  assert (L0 := HL (k0, v0) (or_introl eq_refl)). cbn [fst] in L0. rewrite L0.
  assert (E : (N <? length trace) = false) by (apply Nat.ltb_ge; lia). rewrite E. clear E. eexists. split; [reflexivity|].
  set (step := fun d kv => _). set (counts := (k0, v0) :: cs) in *. clearbody counts.
  assert (ST : forall kv d, In kv counts -> step d kv = dict_set (marginal trace (fst kv)) (fun o => match o with Some x => (x + snd kv)%Z | None => snd kv end) d).
  { intros kv d Hk. unfold step. rewrite filt_key_spec by (auto). assert (L : length (marginal trace (fst kv)) = N - length trace).
    { assert (M := marginal_length N trace 0 (fst kv) As). unfold kept in M. unfold marginal. rewrite (HL kv Hk) in *. rewrite Nat.sub_0_r in M.
      specialize (M ltac:(intros t H; specialize (Hr t H); lia) ltac:(lia) eq_refl). lia. }
    unfold in_qb_list. destruct (N - length trace) as [|n] eqn:En; [lia|]. rewrite L, Nat.eqb_refl. reflexivity. }
  assert (G : forall cs d, (forall kv, In kv cs -> In kv counts) -> NoDup (map fst d) ->
     NoDup (map fst (fold_left step cs d)) /\
     (forall b, In b (map fst (fold_left step cs d)) <-> In b (map fst d) \/ exists e, In e cs /\ marginal trace (fst e) = b) /\
     (forall b, shots_at b (fold_left step cs d) = (shots_at b d + shots_onto trace b cs)%Z) /\ total_shots (fold_left step cs d) = (total_shots d + total_shots cs)%Z).
  { clear - ST. induction cs as [|kv cs IH]; intros d Hs N0; cbn [fold_left].
    - split; [exact N0|]. split; [intro b; split; [auto|intros [H|[e [[] _]]]; exact H]|]. split; [intro b; cbn; lia|cbn; lia].
    - rewrite ST by (apply Hs; now left). destruct (IH (dict_set (marginal trace (fst kv)) (fun o => match o with Some x => (x + snd kv)%Z | None => snd kv end) d)) as [I1 [I2 [I3 I4]]].
      { intros kv' H. apply Hs. now right. } { now apply NoDup_set. }
      split; [exact I1|]. split; [|split].
      + intro b. rewrite I2, keys_set_in. split.
        * intros [[-> |H]|[e [He H]]]; [right; exists kv; split; [now left|reflexivity]|now left|right; exists e; split; [now right|exact H]].
        * intros [H|[e [[<-|He] H]]]; [left; now right|left; left; now symmetry|right; exists e; auto].
      + intro b. rewrite I3, shots_set. unfold shots_onto. rewrite shots_cons. destruct (str_dec (marginal trace (fst kv)) b); lia.
      + rewrite I4, total_set. cbn. unfold total_shots. lia. }
  destruct (G counts [] (fun _ H => H) (NoDup_nil _)) as [G1 [G2 [G3 G4]]]. split; [exact G1|]. split; [|split; [intro b; rewrite G3; cbn; lia|rewrite G4; cbn; lia]].
  intro b. rewrite G2. cbn. split; [intros [[]|H]; exact H|auto].
Qed.
Lemma get_trace_spec Nq active : ascending (get_trace Nq active) /\ (forall t, In t (get_trace Nq active) <-> t < Nq /\ ~ In t active).
Proof.
  split.
  - unfold get_trace. assert (G : forall n s, ascending (filter (fun i => negb (existsb (Nat.eqb i) active)) (seq s n))).
    { induction n as [|n IH]; intro s; cbn; [exact I|]. destruct (negb _); [|apply IH]. cbn. split; [|apply IH]. intros b Hb. apply filter_In in Hb. destruct Hb as [Hb _]. apply in_seq in Hb. lia. }
    apply G.
  - intro t. unfold get_trace. rewrite filter_In, in_seq, negb_true_iff. split.
    + intros [H1 H2]. split; [lia|]. intro H. apply not_true_iff_false in H2. apply H2. apply existsb_exists. exists t. split; [exact H|apply Nat.eqb_refl].
    + intros [H1 H2]. split; [lia|]. apply not_true_iff_false. intro H. apply existsb_exists in H. destruct H as [x [Hx H]]. apply Nat.eqb_eq in H. now subst.
Qed.
