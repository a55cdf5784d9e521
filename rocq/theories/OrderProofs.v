From Coq Require Import Bool List Arith Lia.
From Verif Require Import Coeff MatSpec MatLemmas FockSpec FermiModel FermiProofs JWProofs OrderModel OrderSpec.
Import ListNotations.

Notation word := (list (fop * nat)).
Definition lad (l : word) : Prop := forall x, In x l -> ladder (fst x) = true.
(** No annihilator stands before a creator of the same mode. *)
Definition apart (l : word) : Prop := ForallOrdPairs (fun x y => fst x = Ann -> fst y = Cre -> snd x <> snd y) l.
Definition count (o : fop) (l : word) : nat := length (filter (fun x => fop_eqb (Some (fst x)) (Some o)) l).

Lemma first_swap_eq : forall l pre i j post, first_swap l = Some (pre, i, j, post) -> l = pre ++ (Ann, i) :: (Cre, j) :: post.
Proof.
  induction l as [|[o n] l IH]; intros pre i j post H; [discriminate|].
  cbn in H. assert (G : match first_swap l with Some (p, a, b, q) => Some ((o, n) :: p, a, b, q) | None => None end = Some (pre, i, j, post) -> (o, n) :: l = pre ++ (Ann, i) :: (Cre, j) :: post).
  { clear H. destruct (first_swap l) as [[[[p a] b] q]|]; [|discriminate]. intro H. injection H as <- <- <- <-. cbn. f_equal. now apply IH. }
  destruct o; try (now apply G). destruct l as [|[o' m] l]; [now apply G|]. destruct o'; try (now apply G). injection H as <- <- <- <-. reflexivity.
Qed.
Lemma first_swap_none : forall l, lad l -> first_swap l = None -> exists a b, l = a ++ b /\ (forall x, In x a -> fst x = Cre) /\ (forall x, In x b -> fst x = Ann).
Proof.
  induction l as [|[o n] l IH]; intros HL H; [exists [], []; repeat split; intros x []|].
  assert (HL' : lad l) by (intros x Hx; apply HL; now right). assert (Ho := HL (o, n) (or_introl eq_refl)). cbn in Ho.
  cbn in H. destruct o; try discriminate Ho.
  - destruct (first_swap l) as [[[[p a] b] q]|] eqn:E; [discriminate|]. destruct (IH HL' eq_refl) as [a [b [-> [Ha Hb]]]].
    exists ((Cre, n) :: a), b. repeat split; [intros x [<-|Hx]; auto|exact Hb].
  - destruct l as [|[o' m] l]; [exists [], [(Ann, n)]; repeat split; [intros x []|intros x [<-|[]]; reflexivity]|].
    assert (Ho' := HL' (o', m) (or_introl eq_refl)). destruct o'; try discriminate Ho'; [discriminate|].
    destruct (first_swap ((Ann, m) :: l)) as [[[[p a] b] q]|] eqn:E; [discriminate|].
    destruct (IH HL' eq_refl) as [a [b [Eab [Ha Hb]]]].
    destruct a as [|x a]; [|exfalso; cbn in Eab; injection Eab as <- _; specialize (Ha (Ann, m) (or_introl eq_refl)); discriminate].
    cbn in Eab. exists [], ((Ann, n) :: (Ann, m) :: l). repeat split; [intros x []|]. intros x [<-|Hx]; [reflexivity|]. apply Hb. now rewrite <- Eab.
Qed.
Lemma count_app : forall o a b, count o (a ++ b) = count o a + count o b.
Proof. intros. unfold count. now rewrite filter_app, app_length. Qed.
Lemma switches_cons : forall x y (l : word), switches (x :: y :: l) = (if fop_eqb (Some (fst x)) (Some (fst y)) then 0 else 1) + switches (y :: l).
Proof. reflexivity. Qed.
Lemma switches_ann : forall b, (forall x, In x b -> fst x = Ann) -> switches b = 0.
Proof.
  induction b as [|[x n] [|[y m] b] IH]; intro H; try reflexivity. rewrite switches_cons. cbn [fst].
  assert (x = Ann) by (apply (H (x, n)); now left). assert (y = Ann) by (apply (H (y, m)); right; now left). subst.
  rewrite IH by (intros z Hz; apply H; now right). reflexivity.
Qed.
Lemma ordered_spec : forall a b, (forall x, In x a -> fst x = Cre) -> (forall x, In x b -> fst x = Ann) -> a <> [] -> b <> [] -> ordered (a ++ b) = true.
Proof.
  intros a b Ha Hb Na Nb.
  assert (S1 : switches (a ++ b) = 1).
  { induction a as [|[x n] a IH]; [contradiction|]. assert (x = Cre) by (apply (Ha (x, n)); now left). subst x.
    destruct a as [|[y m] a].
    - destruct b as [|[z m] b]; [contradiction|]. assert (z = Ann) by (apply (Hb (z, m)); now left). subst z. cbn [app]. rewrite switches_cons.
      change (1 + switches ((Ann, m) :: b) = 1). now rewrite switches_ann.
    - assert (y = Cre) by (apply (Ha (y, m)); right; now left). subst y. cbn [app]. rewrite switches_cons.
      change (0 + switches (((Cre, m) :: a) ++ b) = 1). rewrite IH; [reflexivity| |discriminate]. intros z Hz. apply Ha. now right. }
  destruct a as [|[x n] a]; [contradiction|]. assert (x = Cre) by (apply (Ha (x, n)); now left). subst x.
  unfold ordered. cbn [app]. cbn [app] in S1. rewrite S1. reflexivity.
Qed.
(** Pairs (annihilator before creator). *)
Fixpoint bad (l : word) : nat :=
  match l with
  | [] => 0
  | (Ann, _) :: l' => count Cre l' + bad l'
  | _ :: l' => bad l'
  end.
Lemma bad_app : forall a b, bad (a ++ b) = bad a + count Ann a * count Cre b + bad b.
Proof.
  induction a as [|[o n] a IH]; intro b; [reflexivity|]. cbn [app bad]. destruct o; rewrite ?IH, ?count_app; unfold count; cbn; fold (count Cre b); fold (count Ann a); lia.
Qed.
Lemma bad_swap : forall pre i j post, bad (pre ++ (Ann, i) :: (Cre, j) :: post) = S (bad (pre ++ (Cre, j) :: (Ann, i) :: post)).
Proof. intros. rewrite !bad_app. cbn [bad]. unfold count. cbn. lia. Qed.
Lemma count_swap : forall o pre i j post, count o (pre ++ (Ann, i) :: (Cre, j) :: post) = count o (pre ++ (Cre, j) :: (Ann, i) :: post).
Proof. intros. rewrite !count_app. f_equal. unfold count. cbn. destruct o; reflexivity. Qed.
Lemma apart_swap : forall pre i j post, apart (pre ++ (Ann, i) :: (Cre, j) :: post) -> i <> j /\ apart (pre ++ (Cre, j) :: (Ann, i) :: post).
Proof.
  unfold apart. induction pre as [|x pre IH]; intros i j post H; cbn [app] in *.
  - inversion H as [|? ? F1 H1]; subst. inversion H1 as [|? ? F2 H2]; subst. inversion F1 as [|? ? P1 F1']; subst. split; [now apply P1|].
    constructor; [constructor; [intros G; discriminate|exact F2]|]. constructor; assumption.
  - inversion H as [|? ? F1 H1]; subst. destruct (IH i j post H1) as [N P]. split; [exact N|]. constructor; [|exact P].
    rewrite Forall_app in *. destruct F1 as [F1 F2]. split; [exact F1|]. inversion F2 as [|? ? A1 F3]; subst. inversion F3 as [|? ? A2 F4]; subst.
    constructor; [exact A2|]. constructor; assumption.
Qed.
Lemma lad_swap : forall pre i j post, lad (pre ++ (Ann, i) :: (Cre, j) :: post) -> lad (pre ++ (Cre, j) :: (Ann, i) :: post).
Proof. intros pre i j post H x Hx. apply H. rewrite in_app_iff in *. cbn in *. tauto. Qed.

Section Loop.
  Variable K : CoefRing.
  Add Ring KRing : (c_ring K).
  Local Open Scope coef_scope.
  Lemma fock_ctx : forall pre s l l', fock_rel s l l' -> fock_rel s (pre ++ l) (pre ++ l').
  Proof. induction pre as [|x pre IH]; intros s l l' H; [exact H|]. cbn. apply fock_rel_cons. now apply IH. Qed.
  Lemma order_loop_spec : forall fuel N c l, lad l -> apart l -> (1 <= count Cre l)%nat -> (1 <= count Ann l)%nat -> (bad l < fuel)%nat ->
    exists c' a b, order_loop (K := K) fuel N c l = Some [(c', a ++ b)] /\ (forall x, In x a -> fst x = Cre) /\ (forall x, In x b -> fst x = Ann) /\
      (c' = c \/ c' = - c) /\ (forall r d, c' * fock_mat (a ++ b) r d = c * fock_mat l r d) /\ length (a ++ b) = length l.
  Proof.
    induction fuel as [|fuel IH]; intros N c l HL HA HC HN Hf; [lia|]. cbn [order_loop].
    destruct (ordered l) eqn:EO.
    - (* the exit test implies the shape *)
      assert (NS : first_swap l = None -> exists a b, l = a ++ b /\ (forall x, In x a -> fst x = Cre) /\ (forall x, In x b -> fst x = Ann)) by now apply first_swap_none.
      destruct (first_swap l) as [[[[pre i] j] post]|] eqn:ES.
      + exfalso. apply first_swap_eq in ES. subst l. clear - EO.
        (* + first, then a change back to + : at least two changes *)
        assert (G : forall p (q : word), (switches q <= switches (p ++ q))%nat).
        { induction p as [|x [|y p] IHp]; intro q; [cbn [app]; lia| |].
          - destruct q as [|y q]; cbn [app]; [cbn; lia|]. rewrite switches_cons. destruct (fop_eqb (Some (fst x)) (Some (fst y))); lia.
          - specialize (IHp q). cbn [app] in *. rewrite switches_cons. destruct (fop_eqb (Some (fst x)) (Some (fst y))); lia. }
        destruct pre as [|[o n] pre]; [discriminate|]. cbn [app ordered] in EO. destruct o; try discriminate. apply Nat.eqb_eq in EO.
        assert (Q : forall p o0, o0 <> Ann -> (2 <= switches ((o0, n) :: p ++ (Ann, i) :: (Cre, j) :: post))%nat).
        { clear - G. induction p as [|[o m] p IHp]; intros o0 Ho.
          - cbn [app]. rewrite !switches_cons. cbn [fst]. destruct (fop_eqb (Some o0) (Some Ann)) eqn:E; [destruct o0; try discriminate; contradiction|]. cbn [fop_eqb]. lia.
          - cbn [app]. rewrite switches_cons. cbn [fst]. destruct (fop_eqb (Some o0) (Some o)) eqn:E.
            + assert (o = o0) by (destruct o, o0; try discriminate; reflexivity). subst o. 
              assert (IH' := IHp o0 Ho). cbn [app] in IH'. clear IHp. 
              assert (E2 : switches ((o0, m) :: p ++ (Ann, i) :: (Cre, j) :: post) = switches ((o0, n) :: p ++ (Ann, i) :: (Cre, j) :: post)) by (destruct p as [|[]]; reflexivity).
              change (2 <= 0 + switches ((o0, m) :: p ++ (Ann, i) :: (Cre, j) :: post))%nat. lia.
            + assert (S1 := G ((o, m) :: p) ((Ann, i) :: (Cre, j) :: post)). cbn [app] in S1.
              assert (S2 : (1 <= switches ((Ann, i) :: (Cre, j) :: post))%nat) by (rewrite switches_cons; cbn [fst fop_eqb]; lia).
              change (2 <= 1 + switches ((o, m) :: p ++ (Ann, i) :: (Cre, j) :: post))%nat. lia. }
        specialize (Q pre Cre ltac:(discriminate)). cbn [app] in Q. lia.
      + destruct (NS eq_refl) as [a [b [-> [Ha Hb]]]]. exists c, a, b. repeat split; try assumption. now left.
    - destruct (first_swap l) as [[[[pre i] j] post]|] eqn:ES.
      + apply first_swap_eq in ES. subst l. destruct (apart_swap _ _ _ _ HA) as [NE HA'].
        destruct (Nat.eqb i j) eqn:E; [apply Nat.eqb_eq in E; contradiction|].
        rewrite count_swap in HC, HN. rewrite bad_swap in Hf.
        destruct (IH N (c * - (1)) (pre ++ (Cre, j) :: (Ann, i) :: post) (lad_swap _ _ _ _ HL) HA' HC HN ltac:(lia)) as [c' [a [b [E1 [Ha [Hb [Hc [HM HLn]]]]]]]].
        exists c', a, b. split; [exact E1|]. split; [exact Ha|]. split; [exact Hb|]. split; [|split].
        * destruct Hc as [-> | ->]; [right|left]; ring.
        * intros r d. rewrite HM. rewrite (fock_mat_rel K true (pre ++ (Ann, i) :: (Cre, j) :: post) (pre ++ (Cre, j) :: (Ann, i) :: post)).
          -- unfold sgn. ring.
          -- apply fock_ctx. apply (fock_swap Ann i Cre j post NE).
        * rewrite HLn, !app_length. reflexivity.
      + exfalso. destruct (first_swap_none l HL ES) as [a [b [-> [Ha Hb]]]].
        assert (Na : a <> []).
        { intros ->. cbn in HC. unfold count in HC. rewrite (proj2 (length_zero_iff_nil _)) in HC; [lia|].
          clear - Hb. induction b as [|[o n] b IH]; [reflexivity|]. cbn. assert (o = Ann) by (apply (Hb (o, n)); now left). subst. cbn. apply IH. intros x Hx. apply Hb. now right. }
        assert (Nb : b <> []).
        { intros ->. rewrite app_nil_r in HN. unfold count in HN. rewrite (proj2 (length_zero_iff_nil _)) in HN; [lia|].
          clear - Ha. induction a as [|[o n] a IH]; [reflexivity|]. cbn. assert (o = Cre) by (apply (Ha (o, n)); now left). subst. cbn. apply IH. intros x Hx. apply Ha. now right. }
        rewrite (ordered_spec a b Ha Hb Na Nb) in EO. discriminate.
  Qed.

  (** ** Strings *)
  Lemma expand_in : forall s n x, In x (expand n s) -> (n <= snd x < n + length s)%nat /\ ladder (fst x) = true.
  Proof.
    induction s as [|[[]|] s IH]; intros n x H; cbn in H; [destruct H|..];
      repeat match goal with H : _ \/ _ |- _ => destruct H as [H|H] end;
      try (subst x; cbn; split; [lia|reflexivity]); apply IH in H; cbn [length]; split; (lia || tauto).
  Qed.
  Lemma expand_fock : forall s n x, fock (expand n s) x = fock (flat n s) x.
  Proof.
    assert (P : forall a b o i m, (forall b', bindo (fock1 b i b') (fock1 a i) = fock1 o i b') -> bindo (bindo m (fock1 b i)) (fock1 a i) = bindo m (fock1 o i)).
    { intros a b o i m H. destruct m as [[s x]|]; [|reflexivity]. cbn [bindo]. specialize (H x). destruct (fock1 b i x) as [[s1 x1]|] eqn:E1; cbn [bindo] in *.
      - destruct (fock1 a i x1) as [[s2 x2]|]; cbn in *; destruct (fock1 o i x) as [[s3 x3]|]; try discriminate; [|reflexivity]. injection H as <- <-. now rewrite xorb_assoc.
      - destruct (fock1 o i x) as [[s3 x3]|]; [discriminate|reflexivity]. }
    induction s as [|[o|] s IH]; intros n x; [reflexivity| |apply IH].
    destruct o; cbn [expand flat]; rewrite ?fock_cons, ?IH; try reflexivity; apply P; intro b'; [exact (fock1_same Cre Ann n b')|exact (fock1_same Ann Cre n b')].
  Qed.
  Lemma expand_apart : forall s n, ~ In (Some Hol) s -> apart (expand n s).
  Proof.
    induction s as [|[o|] s IH]; intros n H; [constructor| |apply IH; intro G; apply H; now right].
    assert (A : apart (expand (S n) s)) by (apply IH; intro G; apply H; now right).
    assert (F : forall z : fop * nat, snd z = n -> Forall (fun y => fst z = Ann -> fst y = Cre -> snd z <> snd y) (expand (S n) s)).
    { intros z Hz. apply Forall_forall. intros y Hy _ _. apply expand_in in Hy. lia. }
    destruct o; cbn [expand].
    - constructor; [now apply F|exact A].
    - constructor; [now apply F|exact A].
    - constructor; [constructor; [intro G; discriminate|now apply F]|]. constructor; [now apply F|exact A].
    - exfalso. apply H. now left.
  Qed.
  Lemma count_cons : forall o x l, count o (x :: l) = ((if fop_eqb (Some (fst x)) (Some o) then 1 else 0) + count o l)%nat.
  Proof. intros. unfold count. cbn [filter]. destruct (fop_eqb _ _); reflexivity. Qed.
  Lemma expand_pos : forall o s n, ladder o = true -> In (Some o) s \/ In (Some Par) s -> (1 <= count o (expand n s))%nat.
  Proof.
    intros o s n Ho. revert n. induction s as [|[a|] s IH]; intros n H; [destruct H as [[]|[]]| |].
    - assert (H' : a = o \/ a = Par \/ (In (Some o) s \/ In (Some Par) s)).
      { destruct H as [[H|H]|[H|H]]; try (injection H as ->); tauto. }
      destruct H' as [-> | [-> | H']].
      + destruct o; try discriminate; cbn [expand]; rewrite count_cons; cbn; lia.
      + cbn [expand]. rewrite !count_cons. destruct o; try discriminate; cbn; lia.
      + specialize (IH (S n) H'). destruct a; cbn [expand]; rewrite !count_cons; lia.
    - destruct H as [[H|H]|[H|H]]; try discriminate; cbn [expand]; apply IH; tauto.
  Qed.
  Lemma bad_le : forall l, (bad l <= length l * length l)%nat.
  Proof.
    assert (C : forall o l, (count o l <= length l)%nat) by (intros o l; induction l as [|x l IHl]; [unfold count; cbn; lia|rewrite count_cons; cbn [length]; destruct (fop_eqb _ _); lia]).
    induction l as [|[o n] l IH]; [reflexivity|]. assert (H := C Cre l). destruct o; cbn [bad length]; nia.
  Qed.
  Lemma order_spec (s : fstr) (c : K) : ~ In (Some Hol) s -> (In (Some Par) s \/ (In (Some Cre) s /\ In (Some Ann) s)) ->
    exists fuel c' a b, order_as_D_matrix fuel (s, c) = Some [(c', a ++ b)] /\ (forall x, In x a -> fst x = Cre) /\ (forall x, In x b -> fst x = Ann) /\
      (c' = c \/ c' = - c) /\ (forall r d, c' * fock_mat (a ++ b) r d = c * fstr_mat s r d).
  Proof.
    intros HH HP. set (l := expand 0 s).
    assert (HC : (1 <= count Cre l)%nat /\ (1 <= count Ann l)%nat).
    { split; unfold l; apply expand_pos; try reflexivity; tauto. }
    assert (HL : lad l) by (intros x Hx; now apply expand_in in Hx).
    destruct (order_loop_spec (S (length l * length l)) (length s) c l HL (expand_apart s 0 HH) (proj1 HC) (proj2 HC)) as [c' [a [b [E [Ha [Hb [Hc [HM _]]]]]]]].
    { assert (H := bad_le l). lia. }
    exists (S (length l * length l)), c', a, b. split; [|split; [exact Ha|split; [exact Hb|split; [exact Hc|]]]].
    - unfold order_as_D_matrix. cbn [fst snd]. fold l. destruct l as [|x l0]; [unfold count in HC; cbn in HC; lia|exact E].
    - intros r d. rewrite HM. f_equal. unfold fstr_mat, fock_mat, pmap_mat. unfold l. now rewrite expand_fock.
  Qed.
  Lemma order_spec_sum (s : fstr) (c : K) : ~ In (Some Hol) s -> (In (Some Par) s \/ (In (Some Cre) s /\ In (Some Ann) s)) ->
    exists fuel R, order_as_D_matrix fuel (s, c) = Some R /\ (forall e, In e R -> normal_ordered (snd e)) /\
      (forall r d, words_mat R r d = c * fstr_mat s r d).
  Proof.
    intros H1 H2. destruct (order_spec s c H1 H2) as [fuel [c' [a [b [E [Ha [Hb [_ HM]]]]]]]]. exists fuel, [(c', a ++ b)].
    split; [exact E|]. split; [intros e [<-|[]]; exists a, b; auto|]. intros r d. unfold words_mat. cbn [fold_right fst snd]. rewrite HM. ring.
  Qed.
  Lemma order_identity (s : fstr) (c : K) : (forall o, ~ In (Some o) s) ->
    forall fuel, order_as_D_matrix fuel (s, c) = Some [(c, [])] /\ (forall r d, words_mat [(c, [])] r d = c * fstr_mat s r d).
  Proof.
    intros H fuel. assert (G : forall n, expand n s = []).
    { clear fuel. induction s as [|[o|] s0 IH]; intro n; [reflexivity|exfalso; apply (H o); now left|]. cbn. apply IH. intros o Ho. apply (H o). now right. }
    split; [unfold order_as_D_matrix; cbn [fst snd]; now rewrite G|].
    intros r d. unfold words_mat. cbn [fold_right fst snd]. replace (fstr_mat s r d) with (fock_mat (K := K) [] r d); [ring|].
    unfold fstr_mat, fock_mat, pmap_mat. now rewrite <- (expand_fock s 0), G.
  Qed.
  (** Without a creator or without an annihilator the loop never ends. *)
  Lemma order_diverges (s : fstr) (c : K) : (forall o, In (Some o) s -> o = Cre) \/ (forall o, In (Some o) s -> o = Ann) -> (exists o, In (Some o) s) ->
    forall fuel, order_as_D_matrix fuel (s, c) = None.
  Proof.
    intros HS [o0 Ho] fuel. unfold order_as_D_matrix. cbn [fst snd].
    assert (G : exists o, (o = Cre \/ o = Ann) /\ (forall x, In x (expand 0 s) -> fst x = o)).
    { assert (Q : forall o', (o' = Cre \/ o' = Ann) -> forall s0 n, (forall o, In (Some o) s0 -> o = o') -> forall x, In x (expand n s0) -> fst x = o').
      { intros o' Ho'. induction s0 as [|[o|] s0 IH]; intros n H x Hx; [destruct Hx| |].
        - assert (o = o') by (apply H; now left). subst o.
          assert (D : expand n (Some o' :: s0) = (o', n) :: expand (S n) s0) by (destruct Ho' as [-> | ->]; reflexivity). rewrite D in Hx.
          destruct Hx as [<-|Hx]; [reflexivity|]. apply (IH (S n)); [intros o1 H1; apply H; now right|exact Hx].
        - apply (IH (S n)); [intros o1 H1; apply H; now right|exact Hx]. }
      destruct HS as [H|H]; [exists Cre|exists Ann]; (split; [tauto|]); apply Q; tauto. }
    assert (NE : expand 0 s <> []).
    { clear - Ho. revert Ho. generalize 0%nat as n. induction s as [|[o|] s IH]; intros n H; [destruct H| |].
      - destruct o; discriminate.
      - destruct H as [H|H]; [discriminate|]. cbn. now apply IH. }
    destruct G as [o [Eo HO]]. destruct (expand 0 s) as [|x l] eqn:E; [contradiction|]. rewrite <- E in *. clear x l E.
    assert (S0 : switches (expand 0 s) = 0%nat).
    { clear - HO. induction (expand 0 s) as [|x [|y l] IH]; try reflexivity. change (((if fop_eqb (Some (fst x)) (Some (fst y)) then 0 else 1) + switches (y :: l))%nat = 0%nat).
      rewrite IH by (intros z Hz; apply HO; now right). rewrite (HO x (or_introl eq_refl)), (HO y (or_intror (or_introl eq_refl))). destruct o; reflexivity. }
    assert (O0 : ordered (expand 0 s) = false) by (unfold ordered; destruct (expand 0 s) as [|[[] n] l]; try reflexivity; now rewrite S0).
    assert (F0 : first_swap (expand 0 s) = None).
    { destruct (first_swap (expand 0 s)) as [[[[pre i] j] post]|] eqn:E; [|reflexivity]. apply first_swap_eq in E. exfalso.
      assert (H1 := HO (Ann, i)). assert (H2 := HO (Cre, j)). rewrite E in H1, H2. rewrite in_app_iff in H1, H2. cbn in H1, H2. rewrite <- H1 in H2 by tauto. discriminate H2. tauto. }
    induction fuel as [|fuel IH]; [reflexivity|]. cbn [order_loop]. now rewrite O0, F0.
  Qed.
End Loop.
