(** Pauli strings are linearly independent: a sum of Pauli strings is the zero matrix only when every coefficient is 0. *)
From Coq Require Import Bool List Arith Lia Ring.
From Verif Require Import Coeff MatSpec MatLemmas OpSpec OpTotal PauliModel PauliProofs OperatorModel.
Import ListNotations.

Section Basis.
  Variable K : CoefRing.
  Add Ring KRing : (c_ring K).
  Local Open Scope coef_scope.
  Notation pop := (list (list pauli * K)).
  Variable keq : forall a b : list pauli, {a = b} + {a <> b}.

  Lemma half_cancel (x : K) : x + x = 0 -> x = 0.
  Proof. intro H. transitivity ((chalf + chalf) * x); [rewrite chalf_dbl; ring|]. transitivity (chalf * (x + x)); [ring|rewrite H; ring]. Qed.
  Lemma ci_cancel (x : K) : ci * x = 0 -> x = 0.
  Proof. intro H. transitivity (- ((ci * ci) * x)); [rewrite ci_sq; ring|]. transitivity (- (ci * (ci * x))); [ring|rewrite H; ring]. Qed.

  (** The terms starting with a given letter, without it. *)
  Definition part (p : pauli) (o : pop) : pop :=
    flat_map (fun e => match fst e with q :: s => if pauli_eqb p q then [(s, snd e)] else [] | [] => [] end) o.
  Lemma total_part p s o : total keq (p :: s) o = total keq s (part p o).
  Proof.
    induction o as [|[k x] o IH]; [reflexivity|]. cbn [total part flat_map fst snd]. destruct k as [|q k].
    - destruct (keq (p :: s) []) as [E|_]; [discriminate|]. exact IH.
    - destruct (pauli_eqb p q) eqn:E.
      + apply pauli_eqb_spec in E. subst q. cbn [app total]. destruct (keq (p :: s) (p :: k)) as [E1|E1], (keq s k) as [E2|E2]; try congruence;
        rewrite IH; reflexivity.
      + destruct (keq (p :: s) (q :: k)) as [E1|_]; [injection E1 as -> ->; rewrite (proj2 (pauli_eqb_spec q q) eq_refl) in E; discriminate|]. exact IH.
  Qed.
  Lemma omat_part o a r b c : omat o (a :: r) (b :: c) =
    pauli1 PI a b * omat (part PI o) r c + pauli1 PX a b * omat (part PX o) r c + pauli1 PY a b * omat (part PY o) r c + pauli1 PZ a b * omat (part PZ o) r c.
  Proof.
    induction o as [|[k x] o IH]; [cbn; unfold mzero; ring|].
    cbn [omat part flat_map fst snd]. unfold madd, mscal. rewrite IH. unfold part. destruct k as [|q k]; [cbn [pmat app]; ring|].
    destruct q; cbn [pauli_eqb app omat pmat]; unfold madd, mscal; ring.
  Qed.
  Lemma part_length N p o : (forall e, In e o -> length (fst e) = S N) -> forall e, In e (part p o) -> length (fst e) = N.
  Proof.
    intros H e He. apply in_flat_map in He. destruct He as [[k x] [Hk He]]. specialize (H _ Hk). cbn [fst snd] in *.
    destruct k as [|q k]; [destruct He|]. destruct (pauli_eqb p q); [|destruct He]. destruct He as [<-|[]]. cbn in *. lia.
  Qed.
  Lemma pauli_independent N : forall o : pop, (forall e, In e o -> length (fst e) = N) -> meq N (omat o) mzero -> forall k, total keq k o = 0.
  Proof.
    induction N as [|N IH]; intros o HL HM k.
    - destruct k as [|p k].
      + specialize (HM [] [] eq_refl eq_refl). unfold mzero in HM. rewrite <- HM. clear HM.
        induction o as [|[s x] o IHo]; [reflexivity|]. cbn [total omat]. unfold madd, mscal.
        assert (s = []) as -> by (specialize (HL _ (or_introl eq_refl)); cbn in HL; now destruct s).
        destruct (keq [] []) as [_|n]; [|congruence]. rewrite IHo by (intros e He; apply HL; now right). cbn. ring.
      + apply total_notin. intro H. apply in_map_iff in H. destruct H as [e [E He]]. specialize (HL e He). rewrite E in HL. discriminate.
    - assert (A : forall a b r c, length r = N -> length c = N ->
        pauli1 PI a b * omat (part PI o) r c + pauli1 PX a b * omat (part PX o) r c + pauli1 PY a b * omat (part PY o) r c + pauli1 PZ a b * omat (part PZ o) r c = 0).
      { intros a b r c Hr Hc. rewrite <- omat_part. apply HM; cbn; congruence. }
      assert (P : forall p, meq N (omat (part p o)) mzero).
      { intros p r c Hr Hc. unfold mzero. pose proof (A false false r c Hr Hc) as A1. pose proof (A true true r c Hr Hc) as A2.
        pose proof (A false true r c Hr Hc) as A3. pose proof (A true false r c Hr Hc) as A4. cbn [pauli1] in A1, A2, A3, A4.
        destruct p; apply half_cancel.
        - set (i := omat (part PI o) r c) in *. set (z := omat (part PZ o) r c) in *.
          transitivity ((1 * i + 0 * omat (part PX o) r c + 0 * omat (part PY o) r c + 1 * z) + (1 * i + 0 * omat (part PX o) r c + 0 * omat (part PY o) r c + - (1) * z)); [ring|]. rewrite A1, A2. ring.
        - set (i := omat (part PX o) r c) in *. set (z := omat (part PY o) r c) in *.
          transitivity ((0 * omat (part PI o) r c + 1 * i + - ci * z + 0 * omat (part PZ o) r c) + (0 * omat (part PI o) r c + 1 * i + ci * z + 0 * omat (part PZ o) r c)); [ring|]. rewrite A3, A4. ring.
        - apply ci_cancel. set (i := omat (part PX o) r c) in *. set (z := omat (part PY o) r c) in *.
          transitivity ((0 * omat (part PI o) r c + 1 * i + ci * z + 0 * omat (part PZ o) r c) - (0 * omat (part PI o) r c + 1 * i + - ci * z + 0 * omat (part PZ o) r c)); [ring|]. rewrite A3, A4. ring.
        - set (i := omat (part PI o) r c) in *. set (z := omat (part PZ o) r c) in *.
          transitivity ((1 * i + 0 * omat (part PX o) r c + 0 * omat (part PY o) r c + 1 * z) - (1 * i + 0 * omat (part PX o) r c + 0 * omat (part PY o) r c + - (1) * z)); [ring|]. rewrite A1, A2. ring. }
      destruct k as [|p k].
      + apply total_notin. intro H. apply in_map_iff in H. destruct H as [e [E He]]. specialize (HL e He). rewrite E in HL. discriminate.
      + rewrite total_part. apply IH; [apply part_length; exact HL|apply P].
  Qed.
  (** Equal matrices, equal coefficients. *)
  Lemma total_map_neg k (o : pop) : total keq k (map (fun e => (fst e, - snd e)) o) = - total keq k o.
  Proof. induction o as [|[s x] o IH]; cbn [map total fst snd]; [ring|]. destruct (keq k s); rewrite IH; ring. Qed.
  Lemma omat_map_neg (o : pop) r c : omat (map (fun e => (fst e, - snd e)) o) r c = - omat o r c.
  Proof. induction o as [|[s x] o IH]; cbn [map omat fst snd]; unfold madd, mscal, mzero; [ring|]. rewrite IH. ring. Qed.
  Lemma pauli_unique N (o o' : pop) : (forall e, In e o -> length (fst e) = N) -> (forall e, In e o' -> length (fst e) = N) ->
    meq N (omat o) (omat o') -> forall k, total keq k o = total keq k o'.
  Proof.
    intros H H' HM k. assert (Z : total keq k (o ++ map (fun e => (fst e, - snd e)) o') = 0).
    { apply (pauli_independent N).
      - intros e He. apply in_app_iff in He. destruct He as [He|He]; [now apply H|]. apply in_map_iff in He. destruct He as [e' [<- He]]. cbn [fst]. now apply H'.
      - intros r c Hr Hc. rewrite omat_app. unfold madd. rewrite omat_map_neg, (HM r c Hr Hc). unfold mzero. ring. }
    rewrite total_app, total_map_neg in Z. transitivity (total keq k o + - total keq k o' + total keq k o'); [ring|]. rewrite Z. ring.
  Qed.
  (** The adjoint conjugates the coefficients. *)
  Lemma total_map_conj k (o : pop) : total keq k (map (fun e => (fst e, cconj (snd e))) o) = cconj (total keq k o).
  Proof. induction o as [|[s x] o IH]; cbn [map total fst snd]; [symmetry; apply cconj_0|]. destruct (keq k s); rewrite IH, ?cconj_add; reflexivity. Qed.
  Lemma omat_map_conj N (o : pop) : (forall e, In e o -> length (fst e) = N) -> meq N (omat (map (fun e => (fst e, cconj (snd e))) o)) (madj (omat o)).
  Proof.
    intros H r c Hr Hc. induction o as [|[s x] o IH]; cbn [map omat fst snd]; unfold madj, madd, mscal, mzero; [symmetry; apply cconj_0|].
    rewrite IH by (intros e He; apply H; now right). rewrite cconj_add, cconj_mul. unfold madj. f_equal. f_equal.
    symmetry. apply (pmat_adj K s N (H _ (or_introl eq_refl)) r c Hr Hc).
  Qed.
End Basis.
