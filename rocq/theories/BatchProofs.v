(** Results of a batch of tomographies return to their owners. *)
From Coq Require Import Bool List Arith Lia FinFun.
From Verif Require Import BatchModel.
Import ListNotations.
Local Open Scope nat_scope.

Lemma name_eqb_spec a : forall b, name_eqb a b = true <-> a = b.
Proof.
  induction a as [|x a IH]; intros [|y b]; cbn; split; intros H; try reflexivity; try discriminate.
  - apply andb_true_iff in H. destruct H as [H1 H2]. apply Nat.eqb_eq in H1. apply IH in H2. congruence.
  - injection H as -> ->. rewrite Nat.eqb_refl. now apply IH.
Qed.
Lemma name_eqb_refl a : name_eqb a a = true. Proof. now apply name_eqb_spec. Qed.
Lemma name_eqb_neq a b : a <> b -> name_eqb a b = false.
Proof. intros H. destruct (name_eqb a b) eqn:E; [apply name_eqb_spec in E; contradiction|reflexivity]. Qed.
Lemma format_ok n : n < 100 -> length (format02 n) = 2 /\ int_of (format02 n) = Some n.
Proof.
  intros H. assert (F : forallb (fun n => Nat.eqb (length (format02 n)) 2 && match int_of (format02 n) with Some m => Nat.eqb m n | None => false end) (seq 0 100) = true) by (vm_compute; reflexivity).
  rewrite forallb_forall in F. specialize (F n). rewrite in_seq in F. specialize (F ltac:(lia)). apply andb_true_iff in F. destruct F as [F1 F2]. apply Nat.eqb_eq in F1.
  destruct (int_of (format02 n)) as [m|]; [|discriminate]. apply Nat.eqb_eq in F2. now subst.
Qed.
Lemma last2_app (s f : name) : length f = 2 -> last2 (s ++ f) = f.
Proof. intros H. unfold last2. rewrite app_length, H. replace (length s + 2 - 2) with (length s) by lia. now rewrite skipn_app, skipn_all, Nat.sub_diag. Qed.
Lemma but2_app (s f : name) : length f = 2 -> but2 (s ++ f) = s.
Proof. intros H. unfold but2. rewrite app_length, H. replace (length s + 2 - 2) with (length s) by lia. now rewrite firstn_app, firstn_all, Nat.sub_diag, firstn_O, app_nil_r. Qed.
Lemma NoDup_concat {A B} (f : A -> B) (ls : list (list A)) (key : B -> nat) : forall n0, (forall l, In l ls -> NoDup (map f l)) -> (forall n l x, nth_error ls n = Some l -> In x l -> key (f x) = n0 + n) -> NoDup (map f (concat ls)).
Proof.
  induction ls as [|l ls IH]; intros n0 H K; [constructor|]. cbn [concat]. rewrite map_app.
  assert (G : NoDup (map f (concat ls))). { apply (IH (S n0)); [intros; apply H; now right|]. intros n l' x E I. rewrite (K (S n) l' x E I). lia. }
  assert (D : forall y, In y (map f l) -> ~ In y (map f (concat ls))).
  { intros y Hy Hy'. apply in_map_iff in Hy. destruct Hy as (x & <- & Hx). apply in_map_iff in Hy'. destruct Hy' as (x' & E & Hx'). apply in_concat in Hx'. destruct Hx' as (l' & Hl' & Hx').
    apply In_nth_error in Hl'. destruct Hl' as [n Hn]. pose proof (K (S n) l' x' Hn Hx') as K1. pose proof (K 0 l x eq_refl Hx) as K2. rewrite E in K1. lia. }
  specialize (H l (or_introl eq_refl)). induction (map f l) as [|y m IHm]; [exact G|]. inversion H; subst. cbn. constructor.
  - rewrite in_app_iff. intros [I|I]; [contradiction|]. apply (D y); [now left|exact I].
  - apply IHm; [assumption|]. intros z Hz. apply D. now right.
Qed.

Section Batch.
  Context {C V : Type}.
  Variable run : C -> V.
  Lemma get_counts_In (job : list (name * C)) k c : NoDup (map fst job) -> In (k, c) job -> get_counts run job k = Some (run c).
  Proof.
    induction job as [|[k' c'] job IH]; intros ND; [intros []|]. cbn in ND. inversion ND; subst. intros [E|H]; cbn.
    - injection E as -> ->. now rewrite name_eqb_refl.
    - rewrite name_eqb_neq; [now apply IH|]. intros ->. apply H1. apply in_map_iff. exists (k', c). auto.
  Qed.
  Lemma dset_new k (v : V) d : ~ In k (map fst d) -> dset k v d = d ++ [(k, v)].
  Proof. induction d as [|[k' v'] d IH]; intros H; [reflexivity|]. cbn in *. rewrite name_eqb_neq by (intros ->; apply H; now left). rewrite IH; [reflexivity|]. intros I. apply H. now right. Qed.
  Lemma put_at k (v : V) l1 d l2 : put (length l1) k v (l1 ++ d :: l2) = Some (l1 ++ dset k v d :: l2).
  Proof. induction l1 as [|x l1 IH]; [reflexivity|]. cbn. now rewrite IH. Qed.
  Definition res (t : list (name * C)) : dict := map (fun c => (fst c, run (snd c))) t.
  Lemma one_tomo job n rest l1 l2 : n < 100 -> length l1 = n -> NoDup (map fst job) -> forall t d, (forall c, In c t -> In (fst c ++ format02 n, snd c) job) -> NoDup (map fst d ++ map fst t) ->
    hand_back run job (map (fun c => fst c ++ format02 n) t ++ rest) (l1 ++ d :: l2) = hand_back run job rest (l1 ++ (d ++ res t) :: l2).
  Proof.
    intros Hn L ND. destruct (format_ok n Hn) as [F1 F2]. induction t as [|[s c] t IH]; intros d J D; [now rewrite app_nil_r|]. cbn [map app hand_back fst].
    rewrite (get_counts_In job _ c ND) by (apply (J (s, c)); now left). rewrite last2_app, but2_app, F2 by exact F1. rewrite <- L, put_at, L.
    rewrite dset_new by (cbn in D; apply NoDup_remove_2 in D; intros I; apply D; apply in_or_app; now left).
    rewrite IH; [|intros e He; apply J; now right|]. { unfold res. cbn [map fst snd]. rewrite <- app_assoc. cbn [app]. reflexivity. }
    rewrite map_app, <- app_assoc. exact D.
  Qed.
  Lemma map_fst_renamed n (t : list (name * C)) : map fst (map (fun c => (fst c ++ format02 n, snd c)) t) = map (fun c => fst c ++ format02 n) t.
  Proof. rewrite map_map. reflexivity. Qed.
  Lemma all_tomos job : NoDup (map fst job) -> forall tomos n l1, length l1 = n -> n + length tomos <= 100 -> (forall e, In e (concat (renamed_from n tomos)) -> In e job) -> (forall t, In t tomos -> NoDup (map fst t)) ->
    hand_back run job (map fst (concat (renamed_from n tomos))) (l1 ++ map (fun _ => []) tomos) = Some (l1 ++ map res tomos).
  Proof.
    intros ND. induction tomos as [|t ts IH]; intros n l1 L B J D; [reflexivity|]. cbn [renamed_from concat map]. rewrite map_app, map_fst_renamed.
    cbn [length] in B. rewrite (one_tomo job n _ l1 _); [|lia|exact L|exact ND| |].
    - cbn [app]. specialize (IH (S n) (l1 ++ [res t])). rewrite <- !app_assoc in IH. cbn [app] in IH. apply IH; [rewrite app_length; cbn; lia|lia| |intros; apply D; now right].
      intros e He. apply J. cbn [renamed_from concat]. apply in_or_app. now right.
    - intros c Hc. apply J. cbn [renamed_from concat]. apply in_or_app. left. apply in_map_iff. now exists c.
    - cbn. apply D. now left.
  Qed.
  Lemma nth_renamed tomos : forall n0 n, nth_error (renamed_from n0 tomos) n = option_map (map (fun c : name * C => (fst c ++ format02 (n0 + n), snd c))) (nth_error tomos n).
  Proof.
    induction tomos as [|t ts IH]; intros n0 [|n]; [reflexivity|reflexivity|cbn; now rewrite Nat.add_0_r|]. cbn [renamed_from nth_error]. rewrite IH. now rewrite Nat.add_succ_r.
  Qed.
  Theorem batch tomos : length tomos <= 100 -> (forall t, In t tomos -> NoDup (map fst t)) ->
    exists left_, run_multiple run false tomos = Some (map (fun t => map (fun c => (fst c, run (snd c))) t) tomos, left_).
  Proof.
    intros B D. unfold run_multiple. cbn [andb]. exists (renamed_from 0 tomos). rewrite (all_tomos _) with (l1 := []); [reflexivity| |reflexivity|lia|auto|exact D].
    assert (LR : length (renamed_from 0 tomos) = length tomos) by (generalize 0; induction tomos as [|t ts IH]; intros k; [reflexivity|]; cbn; f_equal; apply IH; [cbn in B; lia|intros; apply D; now right]).
    apply (NoDup_concat fst _ (fun k => match int_of (last2 k) with Some m => m | None => 0 end) 0).
    - intros l Hl. apply In_nth_error in Hl. destruct Hl as [n Hn]. rewrite nth_renamed in Hn. destruct (nth_error tomos n) as [t|] eqn:E; [|discriminate]. cbn in Hn. injection Hn as <-.
      rewrite map_fst_renamed. rewrite <- map_map with (g := fun s => s ++ format02 n). apply FinFun.Injective_map_NoDup; [|apply D; eapply nth_error_In; exact E]. intros a b H. now apply app_inv_tail in H.
    - intros n l x Hn Hx. rewrite nth_renamed in Hn. destruct (nth_error tomos n) as [t|] eqn:E; [|discriminate]. cbn in Hn. injection Hn as <-. apply in_map_iff in Hx. destruct Hx as (c & <- & Hc). cbn [fst].
      assert (n < 100) by (assert (n < length tomos) by (apply nth_error_Some; congruence); lia). destruct (format_ok n H) as [F1 F2]. rewrite last2_app, F2 by exact F1. reflexivity.
  Qed.
End Batch.
