(** Circuits of grouped strings conserve what the operator conserves. *)
From Coq Require Import Bool List Arith Reals Lra Lia Ring.
From Verif Require Import Coeff ComplexR MatSpec MatLemmas OpSpec OpTotal PauliModel PauliProofs PauliBasis OperatorModel CircuitSpec CircuitModel RdmFock VqeSpec VqeProofs3 QuantSpec QuantProofs QuantProofs2
  ConsSpec ConsModel ConsProofs ConsProofs2 ConsProofs3 ShapeSpec ShapeProofs.
Import ListNotations.
Local Open Scope R_scope.
Add Ring CxRingS : (c_ring Cx).
Notation pop := (list (list pauli * Cx)).

Lemma map_concat_inv {A B} (f : A -> B) ks : forall b, map f b = concat ks -> exists bs, b = concat bs /\ map (map f) bs = ks.
Proof.
  induction ks as [|k ks IH]; intros b E.
  - destruct b; [|discriminate]. exists []. auto.
  - cbn [concat] in E. destruct (IH (skipn (length k) b)) as [bs [E1 E2]].
    + rewrite <- skipn_map, E, skipn_app, Nat.sub_diag, skipn_all. reflexivity.
    + exists (firstn (length k) b :: bs). cbn [concat map]. rewrite E2, <- E1, firstn_skipn. split; [reflexivity|]. f_equal.
      rewrite <- firstn_map, E, firstn_app, Nat.sub_diag, firstn_all, app_nil_r. reflexivity.
Qed.
Lemma odd_yodd s : odd_y s = yodd s.
Proof. induction s as [|p s IH]; [reflexivity|]. cbn [odd_y yodd]. rewrite IH. now destruct p. Qed.
Lemma support_flips s s' : support s = support s' -> forall k, flips1 (nth k s PI) = flips1 (nth k s' PI).
Proof.
  intros E k. assert (G : forall u, flips1 (nth k u PI) = nth k (support u) false).
  { intro u. unfold support. change false with (flips1 PI) at 1. symmetry. exact (map_nth flips1 u PI k). }
  now rewrite !G, E.
Qed.
Lemma filter_none {A} (f : A -> bool) l : (forall x, In x l -> f x = false) -> filter f l = [].
Proof. induction l as [|x l IH]; intro H; [reflexivity|]. cbn. rewrite (H x (or_introl eq_refl)). apply IH. intros; apply H; now right. Qed.
Lemma filter_every {A} (f : A -> bool) l : (forall x, In x l -> f x = true) -> filter f l = l.
Proof. induction l as [|x l IH]; intro H; [reflexivity|]. cbn. rewrite (H x (or_introl eq_refl)). f_equal. apply IH. intros; apply H; now right. Qed.

Theorem grouped_conserves N P (b : pop) t : grouped (map fst b) ->
  (forall e, In e b -> length (fst e) = N /\ cconj (snd e) = copp (snd e) /\ odd_y (fst e) = true /\ small (snd e) = false) ->
  conserves N (count_in P) (omat b) -> conserves N (count_in P) (cmat Crt N (gadgets (kept below14 b) t)).
Proof.
  intros [ks [EK [HS HD]]] HB C. destruct (map_concat_inv fst ks b EK) as [bs [-> Ebs]]. rewrite kept_concat. apply blocks_conserve.
  intros l I. apply in_map_iff in I. destruct I as [a [<- Ia]].
  assert (Ha : forall e, In e a -> In e (concat bs)) by (intros e I; apply in_concat; exists a; auto).
  assert (TT : forall e, In e a -> below14 (snd (snd e)) = true -> snd (snd e) = 0).
  { intros e I J. exfalso. apply below14_small in J. destruct (HB e (Ha e I)) as [_ [Z [_ S]]]. pose proof (imag_part _ Z) as Y. destruct e as [u [x y]]. cbn [fst snd] in *. subst x. congruence. }
  split.
  - intros w s w' s' I I'. apply kept_in in I. apply kept_in in I'. destruct I as [x [I _]]. destruct I' as [x' [I' _]].
    destruct (HB _ (Ha _ I)) as [L [_ [Y _]]]. destruct (HB _ (Ha _ I')) as [L' [_ [Y' _]]]. cbn [fst] in *. split; [exact L|]. constructor.
    apply class_commute; [exact L|exact L'| |rewrite <- !odd_yodd; exact (eq_trans Y (eq_sym Y'))]. apply support_flips.
    apply (HS (map fst a)); [rewrite <- Ebs; apply in_map; exact Ia|apply (in_map fst) in I; exact I|apply (in_map fst) in I'; exact I'].
  - apply in_split in Ia. destruct Ia as [b1 [b2 Eb]].
    assert (F : fils Cx (map (fun e => shape (fst e)) a) (concat bs) = a).
    { rewrite Eb, concat_app. cbn [concat]. unfold fils. rewrite !filter_app.
      assert (NO : forall e, In e (concat b1 ++ concat b2) -> existsb (sheq (shape (fst e))) (map (fun e => shape (fst e)) a) = false).
      { intros e I. destruct (existsb _ _) eqn:X; [|reflexivity]. exfalso. apply existsb_exists in X. destruct X as [g [J X]]. apply in_map_iff in J. destruct J as [e' [<- J]]. apply sheq_spec in X.
        apply (HD (map (map fst) b1 : list (list _)) (map fst a) (map (map fst) b2 : list (list _)) (fst e') (fst e)); [rewrite <- Ebs, Eb, map_app; reflexivity|apply in_map; exact J| |now symmetry].
        rewrite <- !concat_map, <- map_app. apply in_map. exact I. }
      rewrite (filter_none _ (concat b1)), (filter_none _ (concat b2)), app_nil_r.
      - apply filter_every. intros e I. apply existsb_exists. exists (shape (fst e)). split; [apply in_map_iff; exists e; auto|now apply sheq_spec].
      - intros e I. apply NO. apply in_app_iff. now right.
      - intros e I. apply NO. apply in_app_iff. now left. }
    intros r c Lr Lc X. rewrite !count_pcnt.
    apply (fils_conserves Cx P N (map (fun e => shape (fst e)) a) (concat bs)); [|intros e I; apply HB; exact I|exact Lr|exact Lc|].
    + intros r' c' Lr' Lc' Y. rewrite <- !count_pcnt. exact (C r' c' Lr' Lc' Y).
    + rewrite F, (kept_sum below14); [|intros e I; apply HB, Ha; exact I|exact TT].
      intro Z. apply X. transitivity (cmul (copp ci) (cmul ci (sumop (kept below14 a) r c)) : Cx); [|rewrite Z; ring].
      transitivity (cmul (copp (cmul ci ci)) (sumop (kept below14 a) r c) : Cx); [|ring]. rewrite (ci_sq Cx). ring.
Qed.
