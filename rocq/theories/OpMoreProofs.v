(** Proofs about constructor, norm and the remaining methods of Operator. *)
From Coq Require Import Bool List Arith Lia Ring.
From Verif Require Import Coeff MatSpec MatLemmas OpSpec OpTotal PauliModel PauliProofs PauliBasis OperatorModel OpMoreModel OpMoreSpec.
Import ListNotations.

Section Norm.
  Variable K : CoefRing.
  Add Ring KRing : (c_ring K).
  Local Open Scope coef_scope.
  Notation pop := (list (list pauli * K)).

  Lemma hs_add_l N (A B C : mat K) : hs N (madd A B) C = hs N A C + hs N B C.
  Proof. unfold hs, madd. rewrite <- sumbits_add. apply sumbits_ext. intros a _. rewrite <- sumbits_add. apply sumbits_ext. intros; ring. Qed.
  Lemma hs_scal_l N x (A C : mat K) : hs N (mscal x A) C = x * hs N A C.
  Proof. unfold hs, mscal. rewrite <- sumbits_scal. apply sumbits_ext. intros a _. rewrite <- sumbits_scal. apply sumbits_ext. intros; ring. Qed.
  Lemma hs_add_r N (A B C : mat K) : hs N A (madd B C) = hs N A B + hs N A C.
  Proof.
    unfold hs, madd. rewrite <- sumbits_add. apply sumbits_ext. intros a _. rewrite <- sumbits_add. apply sumbits_ext.
    intros; rewrite cconj_add; ring.
  Qed.
  Lemma hs_scal_r N x (A C : mat K) : hs N A (mscal x C) = cconj x * hs N A C.
  Proof.
    unfold hs, mscal. rewrite <- sumbits_scal. apply sumbits_ext. intros a _. rewrite <- sumbits_scal. apply sumbits_ext.
    intros; rewrite cconj_mul; ring.
  Qed.
  Lemma hs_zero_l N (C : mat K) : hs N mzero C = 0.
  Proof.
    unfold hs, mzero. transitivity (sumbits N (fun _ => (0 : K))); [|apply sumbits_0]. apply sumbits_ext. intros a _.
    transitivity (sumbits N (fun _ => (0 : K))); [|apply sumbits_0]. apply sumbits_ext. intros; ring.
  Qed.
  Lemma hs_zero_r N (A : mat K) : hs N A mzero = 0.
  Proof.
    unfold hs, mzero. transitivity (sumbits N (fun _ => (0 : K))); [|apply sumbits_0]. apply sumbits_ext. intros a _.
    transitivity (sumbits N (fun _ => (0 : K))); [|apply sumbits_0]. apply sumbits_ext. intros; rewrite cconj_0; ring.
  Qed.

  Lemma pauli_orthogonal s : forall t, length t = length s -> @hs K (length s) (pmat s) (pmat t) = if pauli_list_eqb s t then pow2 (length s) else 0.
  Proof.
    induction s as [|p s IH]; intros [|q t] L; try discriminate L.
    - unfold hs. cbn. rewrite cconj_1. ring.
    - injection L as L. specialize (IH t L).
      transitivity ((pauli1 p false false * cconj (pauli1 q false false) + pauli1 p false true * cconj (pauli1 q false true)
        + pauli1 p true false * cconj (pauli1 q true false) + pauli1 p true true * cconj (pauli1 q true true)) * @hs K (length s) (pmat s) (pmat t)).
      + unfold hs. cbn [length sumbits pmat]. rewrite !sumbits_add.
        assert (E : forall x y, @sumbits K (length s) (fun a => sumbits (length s) (fun b => pauli1 p x y * pmat s a b * cconj (pauli1 q x y * pmat t a b)))
          = pauli1 p x y * cconj (pauli1 q x y) * sumbits (length s) (fun a => sumbits (length s) (fun b => pmat s a b * cconj (pmat t a b)))).
        { intros x y. rewrite <- sumbits_scal. apply sumbits_ext. intros a _. rewrite <- sumbits_scal. apply sumbits_ext.
          intros b _. rewrite cconj_mul. ring. }
        rewrite !E. ring.
      + rewrite IH. cbn [pauli_list_eqb length pow2].
        destruct p, q; cbn [pauli1 pauli_eqb andb]; rewrite ?cconj_opp, ?cconj_i, ?cconj_1, ?cconj_0;
          destruct (pauli_list_eqb s t); try ring.
        all: transitivity ((- ((ci : K) * ci) + - (ci * ci)) * pow2 (length s)); [ring|rewrite ci_sq; ring].
  Qed.

  Lemma hs_string_sum s (o : pop) : (forall e, In e o -> length (fst e) = length s) ->
    hs (length s) (pmat s) (omat o) = pow2 (length s) * cconj (total pstr_dec s o).
  Proof.
    induction o as [|[t x] o IH]; intro L.
    - cbn [omat total]. rewrite hs_zero_r, cconj_0. ring.
    - cbn [omat total]. rewrite hs_add_r, hs_scal_r, IH by (intros e He; apply L; right; exact He).
      rewrite pauli_orthogonal by (apply (L (t, x)); left; reflexivity).
      destruct (pauli_list_eqb s t) eqn:E; destruct (pstr_dec s t) as [D|D].
      + rewrite cconj_add. ring.
      + apply pauli_list_eqb_spec in E. contradiction.
      + subst t. rewrite (proj2 (pauli_list_eqb_spec s s) eq_refl) in E. discriminate.
      + ring.
  Qed.
  Lemma norm2_from (o : pop) : forall n, fold_left (fun n e => n + snd e * cconj (snd e)) o n = n + sumK (map (fun e => snd e * cconj (snd e)) o).
  Proof.
    induction o as [|e o IH]; intro n; cbn [fold_left map]; [unfold sumK; cbn [fold_right]; ring|].
    rewrite IH. unfold sumK. cbn [fold_right]. ring.
  Qed.
  Theorem norm_spec N (o : pop) : NoDup (map fst o) -> (forall e, In e o -> length (fst e) = N) ->
    hs N (omat o) (omat o) = pow2 N * op_norm2 o.
  Proof.
    intros D L. unfold op_norm2. rewrite norm2_from.
    assert (G : forall l, (forall e, In e l -> In e o) -> hs N (omat l) (omat o) = pow2 N * sumK (map (fun e => snd e * cconj (snd e)) l)).
    { induction l as [|[s x] l IH]; intro I.
      - cbn [omat map]. rewrite hs_zero_l. unfold sumK. cbn [fold_right]. ring.
      - cbn [omat map snd]. rewrite hs_add_l, hs_scal_l, IH by (intros e He; apply I; right; exact He).
        pose proof (I _ (or_introl eq_refl)) as Is. pose proof (L _ Is) as Ls. cbn [fst] in Ls. subst N.
        rewrite hs_string_sum by exact L. rewrite (total_In K _ pauli_list_eqb pauli_list_eqb_spec pstr_dec s x o D Is). unfold sumK. cbn [fold_right]. ring. }
    rewrite (G o) by auto. ring.
  Qed.
End Norm.

Section Ctor.
  Variable K : CoefRing.
  Variable key : Type.
  Variable keqb : key -> key -> bool.
  Hypothesis keqb_spec : forall a b, keqb a b = true <-> a = b.
  Lemma set_new k x (o : opv K key) : ~ In k (map fst o) -> op_set keqb k x o = o ++ [(k, x)].
  Proof.
    induction o as [|[k' y] o IH]; intro H; [reflexivity|]. cbn [op_set map fst app] in *.
    destruct (keqb k k') eqn:E; [apply keqb_spec in E; exfalso; apply H; left; congruence|].
    rewrite IH; [reflexivity|]. intro I. apply H. right. exact I.
  Qed.
  Theorem of_list_distinct (l : opv K key) : NoDup (map fst l) -> op_of_list keqb l = l.
  Proof.
    unfold op_of_list. assert (G : forall l o : opv K key, NoDup (map fst (o ++ l)) -> fold_left (fun o e => op_set keqb (fst e) (snd e) o) l o = o ++ l).
    { induction l0 as [|[k x] l0 IH]; intros o D; [symmetry; apply app_nil_r|]. cbn [fold_left fst snd].
      rewrite set_new.
      - rewrite IH; rewrite <- app_assoc; [reflexivity|exact D].
      - rewrite map_app in D. cbn [map fst] in D. apply NoDup_remove_2 in D. intro I. apply D. apply in_or_app. left. exact I. }
    intro D. exact (G l [] D).
  Qed.
End Ctor.

Section Raise.
  Variable K : CoefRing.
  Variable key : Type.
  Variable keqb : key -> key -> bool.
  Hypothesis keqb_spec : forall a b, keqb a b = true <-> a = b.
  Notation op := (opv K key).
  Lemma get_object k (o : op) : dict_get keqb o (VObj k) = None.
  Proof. induction o as [|[k' c] o IH]; [reflexivity|]. cbn [dict_get pyhash_eqb pyeq]. destruct (keqb k' k); [reflexivity|exact IH]. Qed.
  Lemma get_int n (o : op) : dict_get keqb o (VInt n) = None.
  Proof. induction o as [|[k' c] o IH]; [reflexivity|exact IH]. Qed.
  Lemma get_letters k x (o : op) : NoDup (map fst o) -> In (k, x) o -> op_getv keqb true o (VStr k) = Some x.
  Proof.
    induction o as [|[k' c] o IH]; intros D I; [destruct I|]. cbn [op_getv dict_get pyhash_eqb pyeq].
    apply NoDup_cons_iff in D. destruct D as [N D]. destruct I as [E|I].
    - injection E as <- <-. rewrite (proj2 (keqb_spec k' k') eq_refl). reflexivity.
    - destruct (keqb k' k) eqn:E; [|exact (IH D I)]. apply keqb_spec in E. subst k'. exfalso. apply N.
      exact (in_map fst _ _ I).
  Qed.
  Lemma rmul_raises h (x : K) (o : op) : o <> [] -> op_rmul keqb h x o = None.
  Proof.
    destruct o as [|[k c] o]; [contradiction|]. intros _. unfold op_rmul. cbn [rmul_loop fst op_getv].
    rewrite get_object. destruct h; reflexivity.
  Qed.
  Lemma truncate_raises below (o : op) : o <> [] -> op_truncate keqb below o = None.
  Proof.
    destruct o as [|[k c] o]; [contradiction|]. intros _. unfold op_truncate. cbn [length truncate_loop op_getv].
    rewrite get_int. reflexivity.
  Qed.
End Raise.

Section Cliff.
  Variable K : CoefRing.
  Add Ring KRing2 : (c_ring K).
  Local Open Scope coef_scope.
  Lemma clifford_raises U (o : opv K (list pauli)) : o <> [] -> op_clifford U o = None.
  Proof. destruct o as [|[s c] o]; [contradiction|]. reflexivity. Qed.
  Lemma half_zero (x : K) : x + x = 0 -> x = 0.
  Proof.
    intro H. transitivity ((chalf + chalf) * x); [rewrite chalf_dbl; ring|].
    transitivity (chalf * (x + x)); [ring|rewrite H; ring].
  Qed.
  (** No matrix but zero takes X to -Y, Y to -X and Z to Z. *)
  Lemma no_S (U : mat K) : (forall p, meq 1 (mmul 1 U (pmat [p])) (mscal (snd (cliff GS p)) (mmul 1 (pmat [fst (@cliff K GS p)]) U))) ->
    meq 1 U mzero.
  Proof.
    intros H.
    assert (E : forall p a b, U [a] [false] * pauli1 p false b + U [a] [true] * pauli1 p true b
       = snd (cliff GS p) * (pauli1 (fst (@cliff K GS p)) a false * U [false] [b] + pauli1 (fst (@cliff K GS p)) a true * U [true] [b])).
    { intros p a b. specialize (H p [a] [b] eq_refl eq_refl). unfold mscal, mmul in H. cbn [sumbits pmat] in H.
      transitivity (U [a] [false] * (pauli1 p false b * 1) + U [a] [true] * (pauli1 p true b * 1)); [ring|].
      rewrite H. ring. }
    assert (Z01 : U [false] [true] = 0). { apply half_zero. pose proof (E PZ false true) as e. cbn [pauli1 cliff fst snd] in e.
      transitivity (U [false] [true] - (U [false] [false] * 0 + U [false] [true] * - (1))); [ring|rewrite e; ring]. }
    assert (Z10 : U [true] [false] = 0). { apply half_zero. pose proof (E PZ true false) as e. cbn [pauli1 cliff fst snd] in e.
      transitivity ((U [true] [false] * 1 + U [true] [true] * 0) + U [true] [false]); [ring|rewrite e; ring]. }
    pose proof (E PX false true) as x1. pose proof (E PY false true) as y1. cbn [pauli1 cliff fst snd] in x1, y1.
    assert (X : U [false] [false] = ci * U [true] [true]).
    { transitivity (U [false] [false] * 1 + U [false] [true] * 0); [ring|rewrite x1, Z01; ring]. }
    assert (Y : ci * U [false] [false] = U [true] [true]).
    { transitivity (- (U [false] [false] * - ci + U [false] [true] * 0)); [ring|rewrite y1, Z01; ring]. }
    assert (U11 : U [true] [true] = 0).
    { apply half_zero. transitivity (U [true] [true] + ci * U [false] [false]); [rewrite Y; reflexivity|rewrite X].
      transitivity (U [true] [true] + (ci * ci) * U [true] [true]); [ring|rewrite ci_sq; ring]. }
    intros l m Ll Lm. destruct l as [|a [|? ?]]; try discriminate Ll. destruct m as [|b [|? ?]]; try discriminate Lm. unfold mzero.
    destruct a, b; [exact U11|exact Z10|exact Z01|rewrite X, U11; ring].
  Qed.
End Cliff.

Lemma pauli_dec' (p q : pauli) : {p = q} + {p <> q}. Proof. decide equality. Defined.
Section Tables.
  Variable K : CoefRing.
  Add Ring KRing3 : (c_ring K).
  Local Open Scope coef_scope.
  Lemma table_H p : let U : mat K := madd (pmat [PX]) (pmat [PZ]) in
    meq 1 (mmul 1 U (pmat [p])) (mscal (snd (cliff GH p)) (mmul 1 (pmat [fst (@cliff K GH p)]) U)) /\ meq 1 (mmul 1 U U) (mscal (1 + 1) mone).
  Proof.
    cbv zeta. split; intros l m Ll Lm; destruct l as [|a [|? ?]]; try discriminate Ll; destruct m as [|b [|? ?]]; try discriminate Lm; unfold mscal, mmul, madd, mone; cbn [sumbits pmat].
    - destruct p, a, b; cbn [pauli1 cliff fst snd]; ring.
    - destruct a, b; cbn [pauli1 bits_eqb Bool.eqb andb]; ring.
  Qed.
  Lemma table_V p : let U : mat K := madd (pmat [PY]) (mscal (- (1)) (pmat [PZ])) in
    meq 1 (mmul 1 U (pmat [p])) (mscal (snd (cliff GV p)) (mmul 1 (pmat [fst (@cliff K GV p)]) U)) /\ meq 1 (mmul 1 U U) (mscal (1 + 1) mone).
  Proof.
    assert (I2 : ci * ci = - (1) :> K) by apply ci_sq. cbv zeta. split; intros l m Ll Lm; destruct l as [|a [|? ?]]; try discriminate Ll; destruct m as [|b [|? ?]]; try discriminate Lm; unfold mscal, mmul, madd, mone; cbn [sumbits pmat].
    - destruct p, a, b; cbn [pauli1 cliff fst snd]; ring [I2].
    - destruct a, b; cbn [pauli1 bits_eqb Bool.eqb andb]; ring [I2].
  Qed.
  Lemma null_spec (tiny : K -> bool) N (o : list (list pauli * K)) : (forall x, tiny x = true <-> x = 0) ->
    NoDup (map fst o) -> (forall e, In e o -> length (fst e) = N) -> (op_null tiny o = true <-> meq N (omat o) mzero).
  Proof.
    intros HT ND HS. unfold op_null. rewrite forallb_forall. split.
    - intros H r c _ _. clear ND HS. induction o as [|[s x] o IH]; [reflexivity|]. cbn [omat]. unfold madd, mscal. rewrite (proj1 (HT x) (H (s, x) (or_introl eq_refl))), IH; [unfold mzero; ring|].
      intros e I. apply H. now right.
    - intros H [s x] I. apply HT. cbn [snd]. rewrite <- (total_In K _ _ pauli_list_eqb_spec (list_eq_dec pauli_dec') s x o ND I).
      rewrite (pauli_unique K (list_eq_dec pauli_dec') N o [] HS); [reflexivity|intros e []|]. intros r c Hr Hc. exact (H r c Hr Hc).
  Qed.
End Tables.
