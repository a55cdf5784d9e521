(** Products of two-term Pauli operators in which no collision and no cleaning can occur. *)
From Coq Require Import Bool List Arith ZArith Lia Ring.
From Verif Require Import Coeff MatSpec MatLemmas PauliModel PauliProofs OperatorModel OperatorProofs
  TransformModel.
Import ListNotations.

Lemma pmul1_inj_r a b b' : pmul1 a b = pmul1 a b' -> b = b'.
Proof. destruct a, b, b'; cbn; congruence. Qed.
Lemma pmul1_inj_l a a' b : pmul1 a b = pmul1 a' b -> a = a'.
Proof. destruct a, a', b; cbn; congruence. Qed.

Lemma nth_pmuls j s t : length s = length t ->
  nth j (pmuls s t) PI = pmul1 (nth j s PI) (nth j t PI).
Proof.
  revert t j. induction s as [|a s IH]; intros [|b t] j H; try discriminate.
  - destruct j; reflexivity.
  - cbn in *. destruct j; [reflexivity|]. apply IH. lia.
Qed.

Lemma pmuls_inj_r s t t' : length s = length t -> length s = length t' ->
  pmuls s t = pmuls s t' -> t = t'.
Proof.
  revert t t'. induction s as [|a s IH]; intros [|b t] [|b' t'] H H'; try discriminate; [reflexivity|].
  cbn in *. intro E. injection E as E1 E2. f_equal; [eapply pmul1_inj_r; exact E1|].
  apply IH; [lia|lia|exact E2].
Qed.

Section TwoTerm.
  Variable K : CoefRing.
  Add Ring KRing : (c_ring K).
  Local Open Scope coef_scope.
  Notation pop := (opv K (list pauli)).

  Lemma omat_lin (o : pop) r c : omat o r c = lin (fun k => pmat k r c) o.
  Proof. induction o as [|[k x] o IH]; cbn; [reflexivity|]. unfold madd, mscal. rewrite IH. reflexivity. Qed.

  Definition wf (n : nat) (o : pop) : Prop := forall e, In e o -> length (fst e) = n.

  Lemma wf_products n (o a : pop) : wf n o -> wf n a -> wf n (products pauli_mul o a).
  Proof.
    intros Ho Ha e He. unfold products in He. apply in_flat_map in He. destruct He as [x [Hx He]].
    apply in_map_iff in He. destruct He as [s [<- Hs]].
    apply pauli_mul_matrix; [apply Ho, Hs|apply Ha, Hx].
  Qed.

  Lemma omat_products n (o a : pop) : wf n o -> wf n a ->
    meq n (omat (products pauli_mul o a)) (mmul n (omat o) (omat a)).
  Proof.
    intros Ho Ha r c Hr Hc. induction a as [|x a IH].
    - cbn. rewrite mmul_zero_r by assumption. reflexivity.
    - cbn [products flat_map]. fold (products pauli_mul o a). rewrite omat_app, IH
        by (intros e He; apply Ha; right; exact He).
      destruct x as [k y]. cbn [omat]. rewrite mmul_add_r by assumption. unfold madd at 1. f_equal.
      clear IH. assert (Hk : length k = n) by (apply (Ha (k, y)); left; reflexivity).
      induction o as [|[s z] o IH].
      + cbn. rewrite mmul_zero_l by assumption. reflexivity.
      + cbn [map]. assert (Hs : length s = n) by (apply (Ho (s, z)); left; reflexivity).
        destruct (pauli_mul_matrix K n (s, z) (k, y)) as [L M]; [exact Hs|exact Hk|].
        destruct (pauli_mul (s, z) (k, y)) as [k' y'] eqn:E.
        cbn [fst snd] in *. rewrite omat_cons. rewrite IH by (intros e He; apply Ho; right; exact He).
        cbn [omat]. rewrite mmul_add_l by assumption. unfold madd. f_equal.
        apply (M r c Hr Hc).
  Qed.

  (** Residual form of the product: C04. *)
  Lemma pop_mul_residual n (A B : pop) : wf n A -> wf n B ->
    exists D : pop,
      (forall e, In e D -> small (snd e) = true) /\
      NoDup (map fst (pop_mul A B ++ D)) /\ wf n (pop_mul A B ++ D) /\
      (length D <= length A * length B)%nat /\
      meq n (madd (omat (pop_mul A B)) (omat D)) (mmul n (omat A) (omat B)).
  Proof.
    intros HA HB. unfold pop_mul. rewrite op_mul_products.
    set (F := fold_left (op_add_string pauli_list_eqb) (products pauli_mul A B) []).
    assert (ND : NoDup (map fst F)) by (apply (fold_add_NoDup K _ _ pauli_list_eqb_spec); constructor).
    assert (HP : forall f : list pauli -> K, lin f F = lin f (products pauli_mul A B)).
    { intro f. unfold F. rewrite (lin_fold_add K _ _ pauli_list_eqb_spec). cbn. ring. }
    assert (HW : wf n F).
    { intros e He. assert (G : In (fst e) (map fst F)) by (apply in_map; exact He).
      unfold F in G. apply (In_fst_fold_add K _ _ pauli_list_eqb_spec) in G. destruct G as [G|[]].
      apply in_map_iff in G. destruct G as [e' [E G]]. rewrite <- E.
      apply (wf_products n A B HA HB e' G). }
    exists (dropped F). split; [|split; [|split; [|split]]].
    - intros e He. eapply dropped_small; exact He.
    - unfold op_clean, dropped. clear - ND. induction F as [|[k x] F IH]; cbn; [constructor|].
      inversion ND as [|? ? Hn ND']; subst. specialize (IH ND').
      assert (Hk : ~ In k (map fst (filter (fun e => negb (small (snd e))) F ++ filter (fun e => small (snd e)) F))).
      { rewrite map_app, in_app_iff. intros [G|G]; apply Hn; apply in_map_iff in G;
          destruct G as [e [E G]]; apply filter_In in G; apply in_map_iff; exists e; tauto. }
      destruct (small x); cbn.
      + rewrite map_app. cbn. apply NoDup_Add with (a := k) (l := map fst
          (filter (fun e => negb (small (snd e))) F ++ filter (fun e => small (snd e)) F)).
        * rewrite map_app. apply Add_app.
        * split; assumption.
      + constructor; assumption.
    - intros e He. apply HW. apply in_app_or in He. unfold op_clean, dropped in He.
      destruct He as [He|He]; apply filter_In in He; tauto.
    - eapply Nat.le_trans; [apply dropped_length|]. eapply Nat.le_trans; [apply (length_fold_add K _ _ _ [])|].
      cbn. unfold products. clear. induction B as [|b B IH]; cbn; [lia|].
      rewrite app_length, map_length. nia.
    - intros r c Hr Hc. unfold madd. rewrite !omat_lin, lin_clean, HP, <- omat_lin.
      apply omat_products; assumption.
  Qed.

  (** * The exact case *)
  Lemma small_opp' (x : K) : small (- (1) * x) = small x.
  Proof. replace (- (1) * x) with (- x) by ring. apply small_opp. Qed.

  Lemma small_ipow z (x : K) : small (ipow z * x) = small x.
  Proof.
    unfold ipow. destruct (z mod 4)%Z as [|p|p].
    - replace (1 * x) with x by ring. reflexivity.
    - destruct p as [p|[p|p|]|];
        rewrite ?small_opp'; try apply small_i; try reflexivity;
        replace (- ci * x) with (- (ci * x)) by ring; rewrite small_opp; apply small_i.
    - replace (- ci * x) with (- (ci * x)) by ring. rewrite small_opp. apply small_i.
  Qed.

  Lemma small_cpow k (c : K) : small (cpow chalf (S k) * c) = false -> small (cpow chalf k * c) = false.
  Proof.
    intro H. destruct (small (cpow chalf k * c)) eqn:E; [|reflexivity].
    apply small_half_mul in E. cbn [cpow] in H.
    replace (chalf * cpow chalf k * c) with (chalf * (cpow chalf k * c)) in H by ring. congruence.
  Qed.

  (** The invariant: distinct keys of length N that agree on the positions in P, all coefficients
      being a phase times c/2^k. *)
  Definition Inv (N : nat) (c : K) (k : nat) (P : nat -> Prop) (o : pop) : Prop :=
    NoDup (map fst o) /\ wf N o
    /\ (forall e e' j, In e o -> In e' o -> P j -> nth j (fst e) PI = nth j (fst e') PI)
    /\ (forall e, In e o -> exists z, snd e = ipow z * (cpow chalf k * c)).

  Definition okterm (N : nat) (P P' : nat -> Prop) (t : pop) : Prop :=
    exists s1 s2 z1 z2 q, t = [(s1, ipow z1 * chalf); (s2, ipow z2 * chalf)]
      /\ length s1 = N /\ length s2 = N /\ P q /\ nth q s1 PI <> nth q s2 PI
      /\ (forall j, P' j -> P j /\ nth j s1 PI = nth j s2 PI).

  Lemma flat_map_pair {A B} (f g : A -> B) l e :
    In e (flat_map (fun x => [f x; g x]) l) <-> exists x, In x l /\ (e = f x \/ e = g x).
  Proof.
    rewrite in_flat_map. split.
    - intros [x [Hx [H|[H|[]]]]]; exists x; auto.
    - intros [x [Hx [H|H]]]; exists x; subst; cbn; auto.
  Qed.

  Lemma NoDup_pairs {A B} (f g : A -> B) l : NoDup l ->
    (forall x y, In x l -> In y l -> f x = f y -> x = y) ->
    (forall x y, In x l -> In y l -> g x = g y -> x = y) ->
    (forall x y, In x l -> In y l -> f x <> g y) ->
    NoDup (flat_map (fun x => [f x; g x]) l).
  Proof.
    induction l as [|x l IH]; intros ND Hf Hg Hfg; cbn; [constructor|].
    inversion ND as [|? ? Hn ND']; subst.
    assert (G : NoDup (flat_map (fun x => [f x; g x]) l)).
    { apply IH; [exact ND'| | |]; intros; [apply Hf|apply Hg|apply Hfg]; try (right; assumption); assumption. }
    constructor.
    - cbn. intros [H|H].
      + symmetry in H. revert H. apply Hfg; left; reflexivity.
      + apply flat_map_pair in H. destruct H as [y [Hy [H|H]]].
        * apply Hf in H; [subst; contradiction|left; reflexivity|right; exact Hy].
        * revert H. apply Hfg; [left; reflexivity|right; exact Hy].
    - constructor; [|exact G]. intro H. apply flat_map_pair in H. destruct H as [y [Hy [H|H]]].
      + symmetry in H. revert H. apply Hfg; [right; exact Hy|left; reflexivity].
      + apply Hg in H; [subst; contradiction|left; reflexivity|right; exact Hy].
  Qed.

  Lemma NoDup_map_on {A B} (f : A -> B) (l : list A) : NoDup l ->
    (forall x y, In x l -> In y l -> f x = f y -> x = y) -> NoDup (map f l).
  Proof.
    induction l as [|x l IH]; intros ND Hf; cbn; [constructor|].
    inversion ND as [|? ? Hn ND']; subst. constructor.
    - intro H. apply in_map_iff in H. destruct H as [y [E Hy]].
      apply Hf in E; [subst; contradiction|right; exact Hy|left; reflexivity].
    - apply IH; [exact ND'|]. intros y z Hy Hz. apply Hf; right; assumption.
  Qed.

  Lemma map_fst_In (o : pop) e e' : NoDup (map fst o) -> In e o -> In e' o -> fst e = fst e' -> e = e'.
  Proof.
    induction o as [|x o IH]; cbn; [tauto|]. intro ND. inversion ND as [|? ? Hn ND']; subst.
    intros [->|H] [->|H'] E.
    - reflexivity.
    - exfalso. apply Hn. rewrite E. apply in_map. exact H'.
    - exfalso. apply Hn. rewrite <- E. apply in_map. exact H.
    - apply IH; assumption.
  Qed.

  Lemma pop_mul_step N c k (P P' : nat -> Prop) (t new : pop) :
    Inv N c k P new -> okterm N P P' t -> small (cpow chalf (S k) * c) = false ->
    Inv N c (S k) P' (pop_mul t new)
    /\ meq N (omat (pop_mul t new)) (mmul N (omat t) (omat new))
    /\ length (pop_mul t new) = (2 * length new)%nat.
  Proof.
    intros [ND [W [AG CO]]] [s1 [s2 [z1 [z2 [q [Et [L1 [L2 [Pq [Hq HP']]]]]]]]]] HS.
    subst t. unfold pop_mul. rewrite op_mul_products.
    set (m1 := fun e : list pauli * K => pauli_mul (s1, ipow z1 * chalf) e).
    set (m2 := fun e : list pauli * K => pauli_mul (s2, ipow z2 * chalf) e).
    assert (EP : products pauli_mul [(s1, ipow z1 * chalf); (s2, ipow z2 * chalf)] new
                 = flat_map (fun e => [m1 e; m2 e]) new) by reflexivity.
    rewrite EP.
    assert (M1 : forall e, In e new -> m1 e = (pmuls s1 (fst e), ipow z1 * chalf * snd e * ipow (pexps s1 (fst e)))).
    { intros e He. unfold m1. rewrite pauli_mul_eq; [reflexivity|]. cbn. rewrite (W e He). exact L1. }
    assert (M2 : forall e, In e new -> m2 e = (pmuls s2 (fst e), ipow z2 * chalf * snd e * ipow (pexps s2 (fst e)))).
    { intros e He. unfold m2. rewrite pauli_mul_eq; [reflexivity|]. cbn. rewrite (W e He). exact L2. }
    assert (NDP : NoDup (map fst (flat_map (fun e => [m1 e; m2 e]) new))).
    { rewrite (flat_map_concat_map), concat_map, map_map. rewrite <- flat_map_concat_map. cbn [map].
      apply (NoDup_pairs (fun e => fst (m1 e)) (fun e => fst (m2 e))).
      - eapply NoDup_map_inv. exact ND.
      - intros x y Hx Hy E. rewrite (M1 x Hx), (M1 y Hy) in E. cbn in E.
        apply (map_fst_In new); try assumption. apply (pmuls_inj_r s1);
          [rewrite (W x Hx)|rewrite (W y Hy)|exact E]; exact L1.
      - intros x y Hx Hy E. rewrite (M2 x Hx), (M2 y Hy) in E. cbn in E.
        apply (map_fst_In new); try assumption. apply (pmuls_inj_r s2);
          [rewrite (W x Hx)|rewrite (W y Hy)|exact E]; exact L2.
      - intros x y Hx Hy E. rewrite (M1 x Hx), (M2 y Hy) in E. cbn in E.
        apply (f_equal (fun l => nth q l PI)) in E. rewrite !nth_pmuls in E
          by (rewrite ?(W x Hx), ?(W y Hy); assumption).
        rewrite (AG x y q Hx Hy Pq) in E. apply pmul1_inj_l in E. contradiction. }
    rewrite (fold_add_fresh K _ _ pauli_list_eqb_spec) by exact NDP. cbn [app].
    assert (CO' : forall e, In e (flat_map (fun e => [m1 e; m2 e]) new) ->
                  exists z, snd e = ipow z * (cpow chalf (S k) * c)).
    { intros e He. apply flat_map_pair in He. destruct He as [x [Hx [->| ->]]].
      - rewrite (M1 x Hx). cbn [snd]. destruct (CO x Hx) as [z Ez]. rewrite Ez.
        exists (z1 + z + pexps s1 (fst x))%Z. rewrite !ipow_add. cbn [cpow]. ring.
      - rewrite (M2 x Hx). cbn [snd]. destruct (CO x Hx) as [z Ez]. rewrite Ez.
        exists (z2 + z + pexps s2 (fst x))%Z. rewrite !ipow_add. cbn [cpow]. ring. }
    rewrite clean_id.
    2:{ intros e He. destruct (CO' e He) as [z ->]. rewrite small_ipow. exact HS. }
    assert (WT : wf N [(s1, ipow z1 * chalf); (s2, ipow z2 * chalf)]).
    { intros e [<-|[<-|[]]]; assumption. }
    split; [split; [|split; [|split]]|].
    - exact NDP.
    - rewrite <- EP. apply wf_products; assumption.
    - intros e e' j He He' Hj. destruct (HP' j Hj) as [Pj Ej].
      apply flat_map_pair in He. apply flat_map_pair in He'.
      destruct He as [x [Hx [->| ->]]], He' as [y [Hy [->| ->]]];
        rewrite ?(M1 x Hx), ?(M2 x Hx), ?(M1 y Hy), ?(M2 y Hy); cbn [fst];
        rewrite !nth_pmuls by (rewrite ?(W x Hx), ?(W y Hy); assumption);
        rewrite (AG x y j Hx Hy Pj); congruence.
    - exact CO'.
    - split; [rewrite <- EP; apply omat_products; assumption|].
      clear. induction new as [|e new IH]; cbn [flat_map app length]; [reflexivity|]. rewrite IH. lia.
  Qed.

  (** The product by a single string. *)
  Lemma pop_mul_step1 N c k (P : nat -> Prop) s z (new : pop) :
    Inv N c k P new -> length s = N -> small (cpow chalf k * c) = false ->
    Inv N c k P (pop_mul [(s, ipow z)] new)
    /\ meq N (omat (pop_mul [(s, ipow z)] new)) (mmul N (omat [(s, ipow z)]) (omat new)).
  Proof.
    intros [ND [W [AG CO]]] Ls HS. unfold pop_mul. rewrite op_mul_products.
    set (m1 := fun e : list pauli * K => pauli_mul (s, ipow z) e).
    assert (EP : products pauli_mul [(s, ipow z)] new = map m1 new).
    { unfold products. cbn [map]. clear. induction new as [|e new IH]; cbn; [reflexivity|].
      cbn in IH. rewrite IH. reflexivity. }
    assert (WP : wf N (products pauli_mul [(s, ipow z)] new)).
    { apply wf_products; [|exact W]. intros e [<-|[]]. exact Ls. }
    assert (MP : meq N (omat (products pauli_mul [(s, ipow z)] new)) (mmul N (omat [(s, ipow z)]) (omat new))).
    { apply omat_products; [|exact W]. intros e [<-|[]]. exact Ls. }
    rewrite EP in *.
    assert (M1 : forall e, In e new -> m1 e = (pmuls s (fst e), ipow z * snd e * ipow (pexps s (fst e)))).
    { intros e He. unfold m1. rewrite pauli_mul_eq; [reflexivity|]. cbn. rewrite (W e He). exact Ls. }
    assert (NDP : NoDup (map fst (map m1 new))).
    { rewrite map_map. apply (NoDup_map_on (fun e => fst (m1 e))); [eapply NoDup_map_inv; exact ND|].
      intros x y Hx Hy E. rewrite (M1 x Hx), (M1 y Hy) in E. cbn [fst] in E.
      apply (map_fst_In new); try assumption. apply (pmuls_inj_r s);
        [rewrite (W x Hx)|rewrite (W y Hy)|exact E]; exact Ls. }
    rewrite (fold_add_fresh K _ _ pauli_list_eqb_spec) by exact NDP. cbn [app].
    assert (CO' : forall e, In e (map m1 new) -> exists z', snd e = ipow z' * (cpow chalf k * c)).
    { intros e He. apply in_map_iff in He. destruct He as [x [<- Hx]]. rewrite (M1 x Hx). cbn [snd].
      destruct (CO x Hx) as [z' Ez]. rewrite Ez.
      exists (z + z' + pexps s (fst x))%Z. rewrite !ipow_add. ring. }
    rewrite clean_id.
    2:{ intros e He. destruct (CO' e He) as [z' ->]. rewrite small_ipow. exact HS. }
    split; [split; [exact NDP|split; [exact WP|split; [|exact CO']]]|exact MP].
    intros e e' j He He' Hj. apply in_map_iff in He, He'. destruct He as [x [<- Hx]], He' as [y [<- Hy]].
    rewrite (M1 x Hx), (M1 y Hy). cbn [fst].
    rewrite !nth_pmuls by (rewrite ?(W x Hx), ?(W y Hy); assumption).
    rewrite (AG x y j Hx Hy Hj). reflexivity.
  Qed.

  Lemma Inv_init N c P : Inv N c 0 P (pop_add_string [] (repeat PI N, c)).
  Proof.
    cbn. split; [|split; [|split]].
    - constructor; [intros []|constructor].
    - intros e [<-|[]]. apply repeat_length.
    - intros e e' j [<-|[]] [<-|[]] _. reflexivity.
    - intros e [<-|[]]. exists 0%Z. cbn. unfold ipow. cbn. ring.
  Qed.

  Lemma two_term_eq s1 a1 s2 (a2 : K) : s1 <> s2 -> two_term s1 a1 s2 a2 = [(s1, a1); (s2, a2)].
  Proof.
    intro H. unfold two_term, pop_add_string, op_add_string. cbn.
    assert (E : pauli_list_eqb s2 s1 = false).
    { destruct (pauli_list_eqb s2 s1) eqn:E; [|reflexivity]. apply pauli_list_eqb_spec in E. congruence. }
    rewrite E. cbn. rewrite ?E. reflexivity.
  Qed.
End TwoTerm.
Arguments wf {_}. Arguments Inv {_}. Arguments okterm {_}.
