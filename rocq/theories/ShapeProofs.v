(** The strings of one shape in an operator that conserves a number conserve it. *)
From Coq Require Import Bool List Arith Lia Ring.
From Verif Require Import Coeff MatSpec MatLemmas OpSpec OpTotal PauliModel PauliProofs PauliBasis OperatorModel RdmFock ShapeSpec.
Import ListNotations.

Definition oeq (a b : option bool) : bool := match a, b with Some x, Some y => Bool.eqb x y | None, None => true | _, _ => false end.
Fixpoint sheq (a b : list (option bool)) : bool := match a, b with [], [] => true | x :: a', y :: b' => oeq x y && sheq a' b' | _, _ => false end.
Lemma oeq_spec a b : oeq a b = true <-> a = b.
Proof. destruct a as [[]|], b as [[]|]; cbn; split; congruence. Qed.
Lemma sheq_spec : forall a b, sheq a b = true <-> a = b.
Proof.
  induction a as [|x a IH]; intros [|y b]; cbn; try (split; congruence). rewrite andb_true_iff, oeq_spec, IH. split; [intros [-> ->]; reflexivity|intro E; injection E; auto].
Qed.

Section Shape.
  Variable K : CoefRing.
  Add Ring KRing : (c_ring K).
  Local Open Scope coef_scope.
  Notation pop := (list (list pauli * K)).
  Definition fil (g : list (option bool)) (o : pop) : pop := filter (fun e => sheq (shape (fst e)) g) o.
  Definition sc (x : K) (o : pop) : pop := map (fun e => (fst e, x * snd e)) o.
  Lemma omat_app (a b : pop) r c : omat (a ++ b) r c = omat a r c + omat b r c.
  Proof. induction a as [|[s x] a IH]; cbn [app omat]; unfold madd, mscal, mzero; [ring|]. rewrite IH. ring. Qed.
  Lemma omat_sc x (a : pop) r c : omat (sc x a) r c = x * omat a r c.
  Proof. induction a as [|[s y] a IH]; cbn [sc map omat fst snd]; unfold madd, mscal, mzero; [ring|]. fold (sc x a). rewrite IH. ring. Qed.
  Lemma fil_sc g x (a : pop) : fil g (sc x a) = sc x (fil g a).
  Proof. unfold fil, sc. induction a as [|[s y] a IH]; [reflexivity|]. cbn [map filter fst snd]. destruct (sheq (shape s) g); cbn [map fst snd]; now rewrite IH. Qed.
  Lemma fil_app g (a b : pop) : fil g (a ++ b) = fil g a ++ fil g b.
  Proof. apply filter_app. Qed.
  Lemma part_fil p x g (o : pop) : part K p (fil (x :: g) o) = if oeq (letter_shape p) x then fil g (part K p o) else [].
  Proof.
    induction o as [|[s y] o IH]; [destruct (oeq _ _); reflexivity|]. cbn [fil filter fst]. destruct s as [|q s].
    - cbn [shape map sheq]. cbn [part flat_map fst app]. exact IH.
    - cbn [shape map sheq]. fold (shape s). destruct (pauli_eqb p q) eqn:E.
      + apply pauli_eqb_spec in E. subst q. destruct (oeq (letter_shape p) x) eqn:O; cbn [andb].
        * destruct (sheq (shape s) g) eqn:S; cbn [part flat_map fst snd].
          -- rewrite (proj2 (pauli_eqb_spec p p) eq_refl). cbn [app]. fold (part K p o). cbn [fil filter fst]. rewrite S. f_equal. exact IH.
          -- rewrite (proj2 (pauli_eqb_spec p p) eq_refl). cbn [app]. fold (part K p o). cbn [fil filter fst]. rewrite S. exact IH.
        * exact IH.
      + destruct (oeq (letter_shape q) x && sheq (shape s) g); cbn [part flat_map fst snd]; rewrite E; exact IH.
  Qed.
  Lemma nonzero_add (x y : K) : x + y <> 0 -> x <> 0 \/ y <> 0.
  Proof. intro H. destruct (ceqb x 0) eqn:E; [right|left]; intro Z; [apply ceqb_spec in E; apply H; rewrite E, Z; ring|rewrite Z, (proj2 (ceqb_spec K 0 0) eq_refl) in E; discriminate]. Qed.
  Lemma nonzero_mul (x y : K) : x * y <> 0 -> y <> 0.
  Proof. intros H Z. apply H. rewrite Z. ring. Qed.
  Lemma nonzero_half (x y : K) : x <> 0 -> x + y <> 0 \/ x - y <> 0.
  Proof. intro H. apply nonzero_add. intro Z. apply H. apply half_cancel. rewrite <- Z. ring. Qed.
  (** The strings with first letter in a list of two, with that letter replaced by its matrix entry. *)
  Definition mix (p q : pauli) (a b : bool) (o : pop) : pop := sc (pauli1 p a b) (part K p o) ++ sc (pauli1 q a b) (part K q o).
  Lemma mix_mat p q a b o r c : omat (mix p q a b o) r c = pauli1 p a b * omat (part K p o) r c + pauli1 q a b * omat (part K q o) r c.
  Proof. unfold mix. rewrite omat_app, !omat_sc. reflexivity. Qed.
  Lemma mix_fil p q a b g o r c : omat (fil g (mix p q a b o)) r c = pauli1 p a b * omat (fil g (part K p o)) r c + pauli1 q a b * omat (fil g (part K q o)) r c.
  Proof. unfold mix. rewrite fil_app, !fil_sc, omat_app, !omat_sc. reflexivity. Qed.

  Lemma shape_conserves P N : forall g (o : pop) i d d', (forall r c, length r = N -> length c = N -> omat o r c <> 0 -> (pcnt P i r + d = pcnt P i c + d')%nat) ->
    length g = N -> (forall e, In e o -> length (fst e) = N) ->
    forall r c, length r = N -> length c = N -> omat (fil g o) r c <> 0 -> (pcnt P i r + d = pcnt P i c + d')%nat.
  Proof.
    induction N as [|N IH]; intros g o i d d' H Lg HL r c Lr Lc X.
    - apply H; try assumption. destruct g; [|discriminate]. intro Z. apply X. rewrite <- Z. f_equal. unfold fil.
      assert (E : forall e, In e o -> sheq (shape (fst e)) [] = true) by (intros e I; specialize (HL e I); now destruct (fst e)).
      clear - E. induction o as [|e o IH]; [reflexivity|]. cbn [filter]. rewrite (E e (or_introl eq_refl)), IH; [reflexivity|]. intros; apply E; now right.
    - destruct g as [|x g]; [discriminate|]. injection Lg as Lg. destruct r as [|a r]; [discriminate|]. destruct c as [|b c]; [discriminate|]. injection Lr as Lr. injection Lc as Lc.
      cbn [pcnt].
      assert (PL : forall p q a b e, In e (mix p q a b o) -> length (fst e) = N).
      { intros p q a' b' e I. unfold mix, sc in I. apply in_app_iff in I. destruct I as [I|I]; apply in_map_iff in I; destruct I as [e' [<- I]]; cbn [fst]; eapply part_length; eassumption. }
      assert (G : forall p q a b, (forall r c, omat o (a :: r) (b :: c) = omat (mix p q a b o) r c) -> omat (fil g (mix p q a b o)) r c <> 0 ->
        (pcnt P (S i) r + ((if a && P i then 1 else 0) + d) = pcnt P (S i) c + ((if b && P i then 1 else 0) + d'))%nat).
      { intros p q a' b' E Y. apply (IH g (mix p q a' b' o)); [|exact Lg|apply PL|exact Lr|exact Lc|exact Y].
        intros r' c' Lr' Lc' Z. rewrite <- E in Z. apply H in Z; [|cbn; congruence|cbn; congruence]. cbn [pcnt] in Z. lia. }
      rewrite (omat_part K (fil (x :: g) o)), !part_fil in X. cbn [letter_shape] in X.
      destruct x as [z|].
      + (* I or Z in front *)
        cbn [oeq] in X.
        assert (AB : a = b). { destruct a, b; try reflexivity; exfalso; apply X; cbn [pauli1 omat]; unfold mzero; ring. }
        subst b.
        assert (D : omat (fil g (mix PI PZ false false o)) r c <> 0 \/ omat (fil g (mix PI PZ true true o)) r c <> 0).
        { rewrite !mix_fil. cbn [pauli1].
          assert (Y : omat (fil g (part K PI o)) r c <> 0 \/ omat (fil g (part K PZ o)) r c <> 0).
          { destruct z; cbn [Bool.eqb omat] in X; unfold mzero in X; [right|left]; intro Z; apply X; rewrite Z; ring. }
          set (u := omat (fil g (part K PI o)) r c) in *. set (v := omat (fil g (part K PZ o)) r c) in *. clear X.
          destruct (ceqb (1 * u + 1 * v) 0) eqn:E1; [|left; intro Z; rewrite Z, (proj2 (ceqb_spec K 0 0) eq_refl) in E1; discriminate].
          destruct (ceqb (1 * u + - (1) * v) 0) eqn:E2; [|right; intro Z; rewrite Z, (proj2 (ceqb_spec K 0 0) eq_refl) in E2; discriminate].
          exfalso. apply ceqb_spec in E1. apply ceqb_spec in E2.
          assert (U0 : u = 0) by (apply half_cancel; transitivity ((1 * u + 1 * v) + (1 * u + - (1) * v)); [ring|rewrite E1, E2; ring]).
          assert (V0 : v = 0) by (apply half_cancel; transitivity ((1 * u + 1 * v) - (1 * u + - (1) * v)); [ring|rewrite E1, E2; ring]).
          destruct Y; contradiction. }
        assert (E : forall t r c, omat o (t :: r) (t :: c) = omat (mix PI PZ t t o) r c).
        { intros t r' c'. rewrite omat_part, mix_mat. destruct t; cbn [pauli1]; ring. }
        destruct D as [D|D]; apply G in D; try (intros; apply E); cbn [andb] in D; lia.
      + (* X or Y in front *)
        cbn [oeq omat] in X. unfold mzero in X.
        assert (AB : b = negb a). { destruct a, b; try reflexivity; exfalso; apply X; cbn [pauli1]; ring. }
        subst b.
        assert (D : omat (fil g (mix PX PY a (negb a) o)) r c <> 0) by (rewrite mix_fil; intro Z; apply X; etransitivity; [|exact Z]; ring).
        apply G in D; [lia|]. intros r' c'. rewrite omat_part, mix_mat. destruct a; cbn [pauli1 negb]; ring.
  Qed.

  (** Any set of shapes. *)
  Definition fils (gs : list (list (option bool))) (o : pop) : pop := filter (fun e => existsb (sheq (shape (fst e))) gs) o.
  Lemma fils_split g gs (o : pop) : existsb (sheq g) gs = false -> forall r c, omat (fils (g :: gs) o) r c = omat (fil g o) r c + omat (fils gs o) r c.
  Proof.
    intros Ng r c. induction o as [|[s x] o IH]; [cbn; unfold mzero; ring|].
    assert (U : forall h, omat (fils h ((s, x) :: o)) r c = (if existsb (sheq (shape s)) h then x * pmat s r c else 0) + omat (fils h o) r c).
    { intro h. unfold fils. cbn [filter fst]. destruct (existsb (sheq (shape s)) h); cbn [omat]; unfold madd, mscal; ring. }
    assert (V : omat (fil g ((s, x) :: o)) r c = (if sheq (shape s) g then x * pmat s r c else 0) + omat (fil g o) r c).
    { unfold fil. cbn [filter fst]. destruct (sheq (shape s) g); cbn [omat]; unfold madd, mscal; ring. }
    rewrite !U, V, IH. cbn [existsb]. destruct (sheq (shape s) g) eqn:E; cbn [orb].
    - apply sheq_spec in E. rewrite E, Ng. ring.
    - destruct (existsb (sheq (shape s)) gs); ring.
  Qed.
  Lemma fils_dup g gs (o : pop) : existsb (sheq g) gs = true -> fils (g :: gs) o = fils gs o.
  Proof.
    intros Ng. unfold fils. apply filter_ext. intros [s x]. cbn [fst existsb]. destruct (sheq (shape s) g) eqn:E; [|reflexivity]. apply sheq_spec in E. rewrite E, Ng. reflexivity.
  Qed.
  Lemma fils_conserves P N gs (o : pop) : (forall r c, length r = N -> length c = N -> omat o r c <> 0 -> pcnt P 0 r = pcnt P 0 c) ->
    (forall e, In e o -> length (fst e) = N) ->
    forall r c, length r = N -> length c = N -> omat (fils gs o) r c <> 0 -> pcnt P 0 r = pcnt P 0 c.
  Proof.
    intros H HL. induction gs as [|g gs IH]; intros r c Lr Lc X.
    - exfalso. apply X. unfold fils. clear. induction o as [|e o IH]; [reflexivity|]. cbn [filter existsb]. exact IH.
    - destruct (existsb (sheq g) gs) eqn:E; [rewrite (fils_dup g gs o E) in X; now apply IH|]. rewrite (fils_split g gs o E) in X.
      apply nonzero_add in X. destruct X as [X|X]; [|now apply IH].
      destruct (Nat.eq_dec (length g) N) as [L|L].
      + pose proof (shape_conserves P N g o 0 0 0) as S. rewrite <- (Nat.add_0_r (pcnt P 0 r)), <- (Nat.add_0_r (pcnt P 0 c)). apply S; try assumption.
        intros r' c' Lr' Lc' Y. rewrite !Nat.add_0_r. now apply H.
      + exfalso. apply X. replace (fil g o) with (@nil (list pauli * K)); [reflexivity|]. unfold fil. clear - HL L. induction o as [|e o IH]; [reflexivity|]. cbn [filter].
        destruct (sheq (shape (fst e)) g) eqn:E; [|apply IH; intros; apply HL; now right]. exfalso. apply L. apply sheq_spec in E. rewrite <- E. unfold shape. rewrite map_length. apply HL. now left.
  Qed.
End Shape.
