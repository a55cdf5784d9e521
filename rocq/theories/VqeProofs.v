(** Proofs about VqeModel: the list of excitations. *)
From Coq Require Import Bool List Arith Lia FinFun.
From Verif Require Import VqeModel VqeSpec.
Import ListNotations.

Lemma mem_spec x l : existsb (Nat.eqb x) l = true <-> In x l.
Proof.
  rewrite existsb_exists. split; [intros [y [H E]]; apply Nat.eqb_eq in E; now subst|intro H; exists x; split; [exact H|apply Nat.eqb_refl]].
Qed.
Lemma occ_of_spec ini g x : In x (occ_of ini g) <-> In x g /\ In x ini.
Proof. unfold occ_of. rewrite filter_In, mem_spec. tauto. Qed.
Lemma vir_of_spec ini g x : In x (vir_of ini g) <-> In x g /\ ~ In x ini.
Proof. unfold vir_of. rewrite filter_In, negb_true_iff. pose proof (mem_spec x ini) as M. destruct (existsb (Nat.eqb x) ini); intuition congruence. Qed.
Lemma single_spec occ vir t : In t (ucc_singles occ vir) <-> exists i j, t = [i; j] /\ In i occ /\ In j vir.
Proof.
  unfold ucc_singles. rewrite in_flat_map. split.
  - intros [i [Hi H]]. apply in_map_iff in H. destruct H as [j [E Hj]]. now exists i, j.
  - intros [i [j [E [Hi Hj]]]]. exists i. split; [exact Hi|]. apply in_map_iff. now exists j.
Qed.
Lemma same_spec occ vir t : In t (ucc_same occ vir) <-> exists i k l j, t = [i; k; l; j] /\ In i occ /\ In k occ /\ In l vir /\ In j vir /\ i < k /\ l < j.
Proof.
  unfold ucc_same. rewrite in_flat_map. split.
  - intros [i [Hi H]]. apply in_flat_map in H. destruct H as [k [Hk H]]. destruct (Nat.leb_spec k i); [destruct H|].
    apply in_flat_map in H. destruct H as [l [Hl H]]. apply in_flat_map in H. destruct H as [j [Hj H]].
    destruct (Nat.leb_spec j l); [destruct H|]. destruct H as [<-|[]]. exists i, k, l, j. repeat split; assumption.
  - intros [i [k [l [j [-> [Hi [Hk [Hl [Hj [H1 H2]]]]]]]]]]. exists i. split; [exact Hi|]. apply in_flat_map. exists k. split; [exact Hk|].
    destruct (Nat.leb_spec k i); [lia|]. apply in_flat_map. exists l. split; [exact Hl|]. apply in_flat_map. exists j. split; [exact Hj|].
    destruct (Nat.leb_spec j l); [lia|]. now left.
Qed.
Lemma mixed_spec ao av bo bv t : In t (ucc_mixed ao av bo bv) <-> exists i k l j, t = [i; k; l; j] /\ In i ao /\ In k bo /\ In l bv /\ In j av /\ i < j.
Proof.
  unfold ucc_mixed. rewrite in_flat_map. split.
  - intros [i [Hi H]]. apply in_flat_map in H. destruct H as [k [Hk H]].
    apply in_flat_map in H. destruct H as [l [Hl H]]. apply in_flat_map in H. destruct H as [j [Hj H]].
    destruct (Nat.leb_spec j i); [destruct H|]. destruct H as [<-|[]]. exists i, k, l, j. repeat split; assumption.
  - intros [i [k [l [j [-> [Hi [Hk [Hl [Hj H1]]]]]]]]]. exists i. split; [exact Hi|]. apply in_flat_map. exists k. split; [exact Hk|].
    apply in_flat_map. exists l. split; [exact Hl|]. apply in_flat_map. exists j. split; [exact Hj|].
    destruct (Nat.leb_spec j i); [lia|]. now left.
Qed.

(** A flat_map whose parts are told apart by a key has no repetition. *)
Lemma NoDup_app_intro {A} (l m : list A) : NoDup l -> NoDup m -> (forall x, In x l -> In x m -> False) -> NoDup (l ++ m).
Proof.
  induction l as [|x l IH]; intros Hl Hm H; [exact Hm|]. inversion Hl; subst. cbn. constructor.
  - rewrite in_app_iff. intros [HH|HH]; [contradiction|]. apply (H x); [now left|exact HH].
  - apply IH; [assumption|exact Hm|]. intros y Hy. apply H. now right.
Qed.
Lemma NoDup_flat {A B C} (key : B -> C) (g : A -> C) (f : A -> list B) l :
  NoDup l -> (forall x y, In x l -> In y l -> g x = g y -> x = y) -> (forall x, In x l -> NoDup (f x)) ->
  (forall x t, In x l -> In t (f x) -> key t = g x) -> NoDup (flat_map f l).
Proof.
  induction l as [|x l IH]; intros Hl Hg Hf Hk; [constructor|]. inversion Hl; subst. cbn. apply NoDup_app_intro.
  - apply Hf. now left.
  - apply IH; try assumption; intros; [apply Hg; auto; now right|apply Hf; now right|apply Hk; auto; now right].
  - intros t Ht Ht'. apply in_flat_map in Ht'. destruct Ht' as [y [Hy Ht']].
    assert (x = y) by (apply Hg; [now left|now right|rewrite <- (Hk x t), <- (Hk y t); auto; [now right|now left]]). subst. contradiction.
Qed.
Lemma NoDup_app_l {A} (l m : list A) : NoDup (l ++ m) -> NoDup l.
Proof.
  induction l as [|x l IH]; intro H; [constructor|]. cbn in H. inversion H; subst. constructor; [|now apply IH].
  intro HH. match goal with H : ~ In _ _ |- _ => apply H end. apply in_app_iff. now left.
Qed.
Lemma NoDup_app_r {A} (l m : list A) : NoDup (l ++ m) -> NoDup m.
Proof. induction l as [|x l IH]; intro H; [exact H|]. cbn in H. inversion H; subst. now apply IH. Qed.
Definition nk (n : nat) (t : list nat) : nat := nth n t 0.
Lemma NoDup_singles occ vir : NoDup occ -> NoDup vir -> NoDup (ucc_singles occ vir).
Proof.
  intros Ho Hv. apply (NoDup_flat (nk 0) (fun i => i)); auto.
  - intros i _. apply FinFun.Injective_map_NoDup; [intros a b E; congruence|exact Hv].
  - intros i t _ H. apply in_map_iff in H. destruct H as [j [<- _]]. reflexivity.
Qed.
Lemma NoDup_same occ vir : NoDup occ -> NoDup vir -> NoDup (ucc_same occ vir).
Proof.
  intros Ho Hv. apply (NoDup_flat (nk 0) (fun i => i)); auto.
  - intros i _. apply (NoDup_flat (nk 1) (fun i => i)); auto.
    + intros k _. destruct (k <=? i); [constructor|]. apply (NoDup_flat (nk 2) (fun i => i)); auto.
      * intros l _. apply (NoDup_flat (nk 3) (fun i => i)); auto.
        -- intros j _. destruct (j <=? l); [constructor|]. repeat constructor. intros [].
        -- intros j t _ H. destruct (j <=? l); [destruct H|]. destruct H as [<-|[]]. reflexivity.
      * intros l t _ H. apply in_flat_map in H. destruct H as [j [_ H]]. destruct (j <=? l); [destruct H|]. destruct H as [<-|[]]. reflexivity.
    + intros k t _ H. destruct (k <=? i); [destruct H|]. apply in_flat_map in H. destruct H as [l [_ H]]. apply in_flat_map in H. destruct H as [j [_ H]].
      destruct (j <=? l); [destruct H|]. destruct H as [<-|[]]. reflexivity.
  - intros i t _ H. apply in_flat_map in H. destruct H as [k [_ H]]. destruct (k <=? i); [destruct H|]. apply in_flat_map in H. destruct H as [l [_ H]].
    apply in_flat_map in H. destruct H as [j [_ H]]. destruct (j <=? l); [destruct H|]. destruct H as [<-|[]]. reflexivity.
Qed.
Lemma NoDup_mixed ao av bo bv : NoDup ao -> NoDup av -> NoDup bo -> NoDup bv -> NoDup (ucc_mixed ao av bo bv).
Proof.
  intros H1 H2 H3 H4. apply (NoDup_flat (nk 0) (fun i => i)); auto.
  - intros i _. apply (NoDup_flat (nk 1) (fun i => i)); auto.
    + intros k _. apply (NoDup_flat (nk 2) (fun i => i)); auto.
      * intros l _. apply (NoDup_flat (nk 3) (fun i => i)); auto.
        -- intros j _. destruct (j <=? i); [constructor|]. repeat constructor. intros [].
        -- intros j t _ H. destruct (j <=? i); [destruct H|]. destruct H as [<-|[]]. reflexivity.
      * intros l t _ H. apply in_flat_map in H. destruct H as [j [_ H]]. destruct (j <=? i); [destruct H|]. destruct H as [<-|[]]. reflexivity.
    + intros k t _ H. apply in_flat_map in H. destruct H as [l [_ H]]. apply in_flat_map in H. destruct H as [j [_ H]].
      destruct (j <=? i); [destruct H|]. destruct H as [<-|[]]. reflexivity.
  - intros i t _ H. apply in_flat_map in H. destruct H as [k [_ H]]. apply in_flat_map in H. destruct H as [l [_ H]].
    apply in_flat_map in H. destruct H as [j [_ H]]. destruct (j <=? i); [destruct H|]. destruct H as [<-|[]]. reflexivity.
Qed.

Section Ucc.
  Variables (ga gb ini : list nat).
  Hypothesis HN : NoDup (ga ++ gb).
  Hypothesis Hord : forall i j, In i ga -> In j ga -> In i ini -> ~ In j ini -> i < j.

  Lemma disj x : In x ga -> In x gb -> False.
  Proof.
    clear Hord. induction ga as [|a l IH]; intros H1 H2; [destruct H1|]. cbn in HN. inversion HN; subst. destruct H1 as [->|H1].
    - match goal with H : ~ In _ _ |- _ => apply H end. apply in_app_iff. now right.
    - apply IH; assumption.
  Qed.
  Lemma nd_a : NoDup ga. Proof. now apply NoDup_app_l in HN. Qed.
  Lemma nd_b : NoDup gb. Proof. now apply NoDup_app_r in HN. Qed.
  Lemma ups1 x : ups ga [x] = if existsb (Nat.eqb x) ga then 1 else 0.
  Proof. unfold ups. cbn. destruct (existsb (Nat.eqb x) ga); reflexivity. Qed.
  Lemma ups2 x y : ups ga [x; y] = ups ga [x] + ups ga [y].
  Proof. unfold ups. cbn. destruct (existsb (Nat.eqb x) ga), (existsb (Nat.eqb y) ga); reflexivity. Qed.
  Lemma up_in x : In x ga -> ups ga [x] = 1. Proof. intro H. rewrite ups1. apply mem_spec in H. now rewrite H. Qed.
  Lemma up_out x : In x gb -> ups ga [x] = 0.
  Proof. intro H. rewrite ups1. destruct (existsb (Nat.eqb x) ga) eqn:E; [|reflexivity]. apply mem_spec in E. destruct (disj x E H). Qed.
  Lemma up_cases x : In x ga \/ In x gb -> (ups ga [x] = 1 /\ In x ga) \/ (ups ga [x] = 0 /\ In x gb).
  Proof. intros [H|H]; [left; split; [now apply up_in|exact H]|right; split; [now apply up_out|exact H]]. Qed.

  Definition the_list : list (list nat) :=
    (ucc_singles (occ_of ini ga) (vir_of ini ga) ++ ucc_singles (occ_of ini gb) (vir_of ini gb)) ++
    (ucc_same (occ_of ini ga) (vir_of ini ga) ++ ucc_same (occ_of ini gb) (vir_of ini gb) ++
     ucc_mixed (occ_of ini ga) (vir_of ini ga) (occ_of ini gb) (vir_of ini gb)).
  Lemma ucc_eq t q : ucc true true t q ga gb ini = Some the_list. Proof. reflexivity. Qed.

  Lemma nd_occ g : NoDup g -> NoDup (occ_of ini g). Proof. apply NoDup_filter. Qed.
  Lemma nd_vir g : NoDup g -> NoDup (vir_of ini g). Proof. apply NoDup_filter. Qed.
  Lemma the_list_nodup : NoDup the_list.
  Proof.
    pose proof (nd_occ ga nd_a) as A. pose proof (nd_vir ga nd_a) as B. pose proof (nd_occ gb nd_b) as C. pose proof (nd_vir gb nd_b) as D.
    unfold the_list. apply NoDup_app_intro; [apply NoDup_app_intro|apply NoDup_app_intro; [|apply NoDup_app_intro|]|].
    - now apply NoDup_singles.
    - now apply NoDup_singles.
    - intros t H1 H2. apply single_spec in H1. destruct H1 as [i [j [-> [H1 _]]]]. apply single_spec in H2. destruct H2 as [i' [j' [E [H2 _]]]].
      injection E as <- <-. apply occ_of_spec in H1. apply occ_of_spec in H2. apply (disj i); tauto.
    - now apply NoDup_same.
    - now apply NoDup_same.
    - now apply NoDup_mixed.
    - intros t H1 H2. apply same_spec in H1. destruct H1 as (i & k & l & j & -> & H1 & _). apply mixed_spec in H2. destruct H2 as (i' & k' & l' & j' & E & H2 & _).
      injection E as <- <- <- <-. apply occ_of_spec in H1. apply occ_of_spec in H2. apply (disj i); tauto.
    - intros t H1 H2. apply same_spec in H1. destruct H1 as (i & k & l & j & -> & H1 & H1' & _). apply in_app_iff in H2. destruct H2 as [H2|H2].
      + apply same_spec in H2. destruct H2 as (i' & k' & l' & j' & E & H2 & _). injection E as <- <- <- <-. apply occ_of_spec in H1. apply occ_of_spec in H2. apply (disj i); tauto.
      + apply mixed_spec in H2. destruct H2 as (i' & k' & l' & j' & E & _ & H2 & _). injection E as <- <- <- <-. apply occ_of_spec in H1'. apply occ_of_spec in H2. apply (disj k); tauto.
    - intros t H1 H2. apply in_app_iff in H1. destruct H1 as [H1|H1]; apply single_spec in H1; destruct H1 as (i & j & -> & _);
      apply in_app_iff in H2; destruct H2 as [H2|H2]; [apply same_spec in H2; destruct H2 as (? & ? & ? & ? & E & _); discriminate|
        | apply same_spec in H2; destruct H2 as (? & ? & ? & ? & E & _); discriminate|];
      apply in_app_iff in H2; destruct H2 as [H2|H2]; [apply same_spec in H2|apply mixed_spec in H2|apply same_spec in H2|apply mixed_spec in H2];
      destruct H2 as (? & ? & ? & ? & E & _); discriminate.
  Qed.
  Lemma the_list_in t : In t the_list <->
    In t (ucc_singles (occ_of ini ga) (vir_of ini ga)) \/ In t (ucc_singles (occ_of ini gb) (vir_of ini gb)) \/
    In t (ucc_same (occ_of ini ga) (vir_of ini ga)) \/ In t (ucc_same (occ_of ini gb) (vir_of ini gb)) \/
    In t (ucc_mixed (occ_of ini ga) (vir_of ini ga) (occ_of ini gb) (vir_of ini gb)).
  Proof. unfold the_list. rewrite !in_app_iff. tauto. Qed.

  Lemma sound t : In t the_list -> (exists i j, t = [i; j] /\ single_ok ga gb ini i j) \/ (exists i k l j, t = [i; k; l; j] /\ double_ok ga gb ini i k l j).
  Proof.
    rewrite the_list_in. intros [H|[H|[H|[H|H]]]].
    - apply single_spec in H. destruct H as (i & j & -> & Hi & Hj). apply occ_of_spec in Hi. apply vir_of_spec in Hj. left. exists i, j. split; [reflexivity|].
      unfold single_ok, is_occ, is_vir. rewrite !up_in by tauto. tauto.
    - apply single_spec in H. destruct H as (i & j & -> & Hi & Hj). apply occ_of_spec in Hi. apply vir_of_spec in Hj. left. exists i, j. split; [reflexivity|].
      unfold single_ok, is_occ, is_vir. rewrite !up_out by tauto. tauto.
    - apply same_spec in H. destruct H as (i & k & l & j & -> & Hi & Hk & Hl & Hj & H1 & H2). apply occ_of_spec in Hi. apply occ_of_spec in Hk. apply vir_of_spec in Hl. apply vir_of_spec in Hj.
      right. exists i, k, l, j. split; [reflexivity|]. unfold double_ok, is_occ, is_vir. rewrite !ups2, !up_in by tauto. repeat split; try tauto; lia.
    - apply same_spec in H. destruct H as (i & k & l & j & -> & Hi & Hk & Hl & Hj & H1 & H2). apply occ_of_spec in Hi. apply occ_of_spec in Hk. apply vir_of_spec in Hl. apply vir_of_spec in Hj.
      right. exists i, k, l, j. split; [reflexivity|]. unfold double_ok, is_occ, is_vir. rewrite !ups2, !up_out by tauto. repeat split; try tauto; lia.
    - apply mixed_spec in H. destruct H as (i & k & l & j & -> & Hi & Hk & Hl & Hj & H1). apply occ_of_spec in Hi. apply occ_of_spec in Hk. apply vir_of_spec in Hl. apply vir_of_spec in Hj.
      right. exists i, k, l, j. split; [reflexivity|]. unfold double_ok, is_occ, is_vir. rewrite !ups2, (up_in i), (up_out k), (up_out l), (up_in j) by tauto.
      repeat split; try tauto; intros ->; [apply (disj k)|apply (disj j)]; tauto.
  Qed.
  Lemma single_in i j : single_ok ga gb ini i j -> In [i; j] the_list.
  Proof.
    intros [[Hi Hi'] [[Hj Hj'] H]]. rewrite the_list_in. apply up_cases in Hi. apply up_cases in Hj.
    destruct Hi as [[E1 Hi]|[E1 Hi]], Hj as [[E2 Hj]|[E2 Hj]]; try lia.
    - left. apply single_spec. exists i, j. split; [reflexivity|]. split; [now apply occ_of_spec|now apply vir_of_spec].
    - right; left. apply single_spec. exists i, j. split; [reflexivity|]. split; [now apply occ_of_spec|now apply vir_of_spec].
  Qed.
  Lemma same_in g i k l j : (forall t, In t (ucc_same (occ_of ini g) (vir_of ini g)) -> In t the_list) ->
    In i g -> In k g -> In l g -> In j g -> In i ini -> In k ini -> ~ In l ini -> ~ In j ini -> i <> k -> l <> j ->
    exists t, In t the_list /\ same_double t i k l j.
  Proof.
    intros H Hi Hk Hl Hj Hi' Hk' Hl' Hj' N1 N2.
    assert (F : forall a b c d, (a = i /\ b = k \/ a = k /\ b = i) -> (c = l /\ d = j \/ c = j /\ d = l) -> a < b -> c < d -> exists t, In t the_list /\ same_double t i k l j).
    { intros a b c d E1 E2 L1 L2. exists [a; b; c; d]. split.
      - apply H, same_spec. exists a, b, c, d. split; [reflexivity|]. destruct E1 as [[-> ->]|[-> ->]], E2 as [[-> ->]|[-> ->]];
        (split; [now apply occ_of_spec|]; split; [now apply occ_of_spec|]; split; [now apply vir_of_spec|]; split; [now apply vir_of_spec|]; split; assumption).
      - unfold same_double. destruct E1 as [[-> ->]|[-> ->]], E2 as [[-> ->]|[-> ->]]; tauto. }
    destruct (Nat.lt_total i k) as [L1|[L1|L1]]; [|lia|]; (destruct (Nat.lt_total l j) as [L2|[L2|L2]]; [|lia|]).
    - apply (F i k l j); auto.
    - apply (F i k j l); auto.
    - apply (F k i l j); auto.
    - apply (F k i j l); auto.
  Qed.
  Lemma mixed_in i k l j a b c d : In a ga -> In b gb -> In c gb -> In d ga -> In a ini -> In b ini -> ~ In c ini -> ~ In d ini ->
    (a = i /\ b = k \/ a = k /\ b = i) -> (c = l /\ d = j \/ c = j /\ d = l) -> exists t, In t the_list /\ same_double t i k l j.
  Proof.
    intros Ha Hb Hc Hd Ha' Hb' Hc' Hd' E1 E2. exists [a; b; c; d]. split.
    - rewrite the_list_in. do 4 right. apply mixed_spec. exists a, b, c, d. split; [reflexivity|].
      split; [now apply occ_of_spec|]. split; [now apply occ_of_spec|]. split; [now apply vir_of_spec|]. split; [now apply vir_of_spec|]. now apply Hord.
    - unfold same_double. destruct E1 as [[-> ->]|[-> ->]], E2 as [[-> ->]|[-> ->]]; tauto.
  Qed.
  Lemma double_in i k l j : double_ok ga gb ini i k l j -> exists t, In t the_list /\ same_double t i k l j.
  Proof.
    intros [[Hi Hi'] [[Hk Hk'] [N1 [[Hl Hl'] [[Hj Hj'] [N2 H]]]]]]. rewrite !ups2 in H.
    apply up_cases in Hi. apply up_cases in Hk. apply up_cases in Hl. apply up_cases in Hj.
    destruct Hi as [[E1 Hi]|[E1 Hi]], Hk as [[E2 Hk]|[E2 Hk]], Hl as [[E3 Hl]|[E3 Hl]], Hj as [[E4 Hj]|[E4 Hj]]; try lia.
    - apply (same_in ga); auto. intros t Ht. rewrite the_list_in. tauto.
    - apply (mixed_in i k l j i k j l); auto.
    - apply (mixed_in i k l j i k l j); auto.
    - apply (mixed_in i k l j k i j l); auto.
    - apply (mixed_in i k l j k i l j); auto.
    - apply (same_in gb); auto. intros t Ht. rewrite the_list_in. tauto.
  Qed.
  (** What a listed double looks like. *)
  Lemma canonical a b c d : In [a; b; c; d] the_list ->
    (a < b /\ c < d /\ ((In a ga /\ In b ga /\ In c ga /\ In d ga) \/ (In a gb /\ In b gb /\ In c gb /\ In d gb))) \/
    (In a ga /\ In b gb /\ In c gb /\ In d ga).
  Proof.
    rewrite the_list_in. intros [H|[H|[H|[H|H]]]].
    - apply single_spec in H. destruct H as (? & ? & E & _). discriminate.
    - apply single_spec in H. destruct H as (? & ? & E & _). discriminate.
    - apply same_spec in H. destruct H as (i & k & l & j & E & Hi & Hk & Hl & Hj & H1 & H2). injection E as -> -> -> ->.
      apply occ_of_spec in Hi. apply occ_of_spec in Hk. apply vir_of_spec in Hl. apply vir_of_spec in Hj. tauto.
    - apply same_spec in H. destruct H as (i & k & l & j & E & Hi & Hk & Hl & Hj & H1 & H2). injection E as -> -> -> ->.
      apply occ_of_spec in Hi. apply occ_of_spec in Hk. apply vir_of_spec in Hl. apply vir_of_spec in Hj. tauto.
    - apply mixed_spec in H. destruct H as (i & k & l & j & E & Hi & Hk & Hl & Hj & H1). injection E as -> -> -> ->.
      apply occ_of_spec in Hi. apply occ_of_spec in Hk. apply vir_of_spec in Hl. apply vir_of_spec in Hj. tauto.
  Qed.
  Lemma double_once i k l j t t' : In t the_list -> In t' the_list -> same_double t i k l j -> same_double t' i k l j -> t = t'.
  Proof.
    intros H H' S S'.
    assert (X : forall a b c d a' b' c' d', In [a; b; c; d] the_list -> In [a'; b'; c'; d'] the_list ->
      (a = a' /\ b = b' \/ a = b' /\ b = a') -> (c = c' /\ d = d' \/ c = d' /\ d = c') -> [a; b; c; d] = [a'; b'; c'; d']).
    { intros a b c d a' b' c' d' H1 H2 E1 E2. apply canonical in H1. apply canonical in H2.
      destruct H1 as [(L1 & L2 & H1)|H1], H2 as [(L3 & L4 & H2)|H2].
      - destruct E1 as [[-> ->]|[-> ->]]; [|lia]. destruct E2 as [[-> ->]|[-> ->]]; [reflexivity|lia].
      - exfalso. destruct H1 as [H1|H1]; destruct E1 as [[-> ->]|[-> ->]]; [apply (disj b')|apply (disj b')|apply (disj a')|apply (disj a')]; tauto.
      - exfalso. destruct H2 as [H2|H2]; destruct E1 as [[-> ->]|[-> ->]]; [apply (disj b')|apply (disj a')|apply (disj a')|apply (disj b')]; tauto.
      - destruct E1 as [[-> ->]|[-> ->]]; [|exfalso; apply (disj a'); tauto]. destruct E2 as [[-> ->]|[-> ->]]; [reflexivity|exfalso; apply (disj c'); tauto]. }
    destruct S as [[-> | ->]|[-> | ->]], S' as [[-> | ->]|[-> | ->]]; apply X; auto.
  Qed.
End Ucc.

Lemma ucc_spec ga gb ini : NoDup (ga ++ gb) -> (forall i j, In i ga -> In j ga -> In i ini -> ~ In j ini -> i < j) ->
  exists L, ucc true true false false ga gb ini = Some L /\ NoDup L /\
    (forall t, In t L -> (exists i j, t = [i; j] /\ single_ok ga gb ini i j) \/ (exists i k l j, t = [i; k; l; j] /\ double_ok ga gb ini i k l j)) /\
    (forall i j, single_ok ga gb ini i j -> In [i; j] L) /\
    (forall i k l j, double_ok ga gb ini i k l j -> exists! t, In t L /\ same_double t i k l j).
Proof.
  intros HN HO. exists (the_list ga gb ini). split; [reflexivity|]. split; [now apply the_list_nodup|]. split; [intros t Ht; now apply sound|].
  split; [intros i j; now apply single_in|]. intros i k l j H. destruct (double_in ga gb ini HN HO i k l j H) as [t [Ht Hs]].
  exists t. split; [now split|]. intros t' [Ht' Hs']. apply (double_once ga gb ini HN i k l j); assumption.
Qed.
