(** The operator of an antisymmetric residual: every string carries four times an entry of the array, and dropping its
    small strings is the same as raising the cutoff on the array. *)
From Coq Require Import Bool List Arith Reals Lra Lia.
From Verif Require Import Coeff MatSpec MatLemmas FockSpec CircuitSpec OpSpec FermiModel FermiProofs AdjProofs OperatorModel OperatorProofs OpTotal InvModel InvSpec InvProofs HamModel HamSpec HamProofs HamProofs2 HamProofs3
  ComplexR ResSpec ResModel ResProofs ResProofs3 KeyProofs EulerModel.
Import ListNotations.
Add Ring CxRing4 : (c_ring Cx).
Local Open Scope coef_scope.
Notation tensor4 := (nat -> nat -> nat -> nat -> Cx).

Lemma cx_domain (a b : Cx) : a * b = 0 -> a = 0 \/ b = 0.
Proof.
  destruct a as [a a'], b as [b b']. cbn [Cx cmul c0 Cmul C0 fst snd]. intro E. injection E as E1 E2.
  assert (M : ((a * a + a' * a') * (b * b + b' * b') = 0)%R) by (transitivity ((a * b - a' * b') * (a * b - a' * b') + (a * b' + a' * b) * (a * b' + a' * b))%R; [ring|rewrite E1, E2; ring]).
  apply Rmult_integral in M. destruct M as [M|M]; [left|right]; apply C_eq; cbn [fst snd Cx c0 C0]; nra.
Qed.
Lemma two_ne (x : Cx) : x = - x -> x = 0.
Proof. intro H. pose proof (f_equal fst H) as H1. pose proof (f_equal snd H) as H2. cbn [Cx copp Copp fst snd] in H1, H2. apply C_eq; cbn [Cx c0 C0 fst snd]; lra. Qed.
Definition fdec : forall a b : fstr, {a = b} + {a <> b}.
Proof. apply list_eq_dec. intros a b. decide equality. decide equality. Defined.

Section Res4.
  Variable N : nat.
  Variable A : tensor4.
  Variable keep : Cx -> bool.
  Hypothesis keep_opp : forall x, keep (- x) = keep x.
  Hypothesis sw1 : forall i k j l, (i < N)%nat -> (k < N)%nat -> (j < N)%nat -> (l < N)%nat -> A k i j l = - A i k j l.
  Hypothesis sw2 : forall i k j l, (i < N)%nat -> (k < N)%nat -> (j < N)%nat -> (l < N)%nat -> A i k l j = - A i k j l.

  Definition word (i k j l : nat) : list (fop * nat) := [(Cre, i); (Cre, k); (Ann, l); (Ann, j)].
  Definition sent (i k j l : nat) : fstr * Cx := match fermi_new true (- A i k j l) (word i k j l) N with Some e => e | None => ([], 0) end.
  Definition on (i k j l : nat) : bool := negb (ceqb (A i k j l) 0) && keep (A i k j l).
  Definition entries : list ((nat * nat * nat * nat) * Cx) := filter (fun e => keep (snd e)) (nonzeros N A).
  Definition strings : cfop := map (fun e => let '(i, k, j, l, x) := e in sent i k j l) entries.
  Definition oper : cfop := fold_left (op_add_string fstr_eqb) strings [].

  Lemma in_entries i k j l x : In (i, k, j, l, x) entries -> (i < N)%nat /\ (k < N)%nat /\ (j < N)%nat /\ (l < N)%nat /\ x = A i k j l /\ on i k j l = true.
  Proof.
    intro He. apply filter_In in He. destruct He as [He Hk]. apply filter_In in He. destruct He as [He Hz]. cbn [snd] in *.
    apply in_flat_map in He. destruct He as [i' [Hi He]]. apply in_flat_map in He. destruct He as [k' [Hk' He]]. apply in_flat_map in He. destruct He as [j' [Hj He]].
    apply in_map_iff in He. destruct He as [l' [He Hl]]. apply in_seq in Hi, Hk', Hj, Hl. injection He as -> -> -> -> <-. unfold on. rewrite Hz, Hk. repeat split; lia.
  Qed.
  Lemma on_ne i k j l : on i k j l = true -> A i k j l <> 0.
  Proof. unfold on. intros H E. apply (ceqb_spec Cx) in E. rewrite E in H. discriminate. Qed.
  Lemma on_distinct i k j l : (i < N)%nat -> (k < N)%nat -> (j < N)%nat -> (l < N)%nat -> on i k j l = true -> i <> k /\ j <> l.
  Proof. intros Hi Hk Hj Hl H. apply on_ne in H. split; intros ->; apply H, two_ne; [apply (sw1 k k j l)|apply (sw2 i k l l)]; assumption. Qed.
  Lemma sent_spec i k j l : (i < N)%nat -> (k < N)%nat -> (j < N)%nat -> (l < N)%nat -> on i k j l = true ->
    exists s u, fermi_new true (- A i k j l) (word i k j l) N = Some (s, u * - A i k j l) /\ sent i k j l = (s, u * - A i k j l) /\ is_key Cx N i k j l s u.
  Proof.
    intros Hi Hk Hj Hl H. destruct (on_distinct i k j l Hi Hk Hj Hl H) as [D1 D2]. apply on_ne in H.
    destruct (key_new Cx N i k j l (- A i k j l)) as [s [u [E Q]]]; try assumption; [exact cx_domain| |].
    - intro Z. apply H. transitivity (- - A i k j l); [ring|]. rewrite Z. ring.
    - exists s, u. unfold sent, word. rewrite E. auto.
  Qed.
  Lemma operator_is : residual_operator keep N N A = Some oper.
  Proof.
    unfold residual_operator. fold entries. unfold oper, strings.
    assert (G : forall l o, (forall e, In e l -> In e entries) -> add_strings N (map (fun e => let '(i, k, j, l, x) := e in (- x, [(Cre, i); (Cre, k); (Ann, l); (Ann, j)])) l) o
      = Some (fold_left (op_add_string fstr_eqb) (map (fun e => let '(i, k, j, l, x) := e in sent i k j l) l) o)).
    { induction l as [|[[[[i k] j] l'] x] l IH]; intros o H; [reflexivity|]. cbn [map add_strings fold_left].
      destruct (in_entries i k j l' x (H _ (or_introl eq_refl))) as [Hi [Hk [Hj [Hl [-> Ho]]]]].
      destruct (sent_spec i k j l' Hi Hk Hj Hl Ho) as [s [u [E [E' _]]]]. unfold word in E. rewrite E, E'. apply IH. intros e He. apply H. now right. }
    now apply G.
  Qed.
  Lemma over_entries (g : (nat * nat * nat * nat) * Cx -> Cx) : over entries g = S4 Cx N (fun i k j l => if on i k j l then g (i, k, j, l, A i k j l) else 0).
  Proof.
    unfold entries, nonzeros. rewrite over_filter, over_filter, over_flat_map. unfold S4, upto. apply over_ext. intros i _. rewrite over_flat_map. apply over_ext. intros k _.
    rewrite over_flat_map. apply over_ext. intros j _. rewrite over_map. apply over_ext. intros l _. cbn [snd]. unfold on. destruct (negb _); reflexivity.
  Qed.
  Lemma lin_oper f : lin f oper = S4 Cx N (fun i k j l => if on i k j l then snd (sent i k j l) * f (fst (sent i k j l)) else 0).
  Proof.
    unfold oper. rewrite (lin_fold_add Cx _ _ fstr_eqb_spec'). cbn [lin]. rewrite <- (over_entries (fun e => let '(i, k, j, l, x) := e in snd (sent i k j l) * f (fst (sent i k j l)))).
    unfold strings. induction entries as [|[[[[i k] j] l] x] es IH]; [cbn [map lin over fold_right]; ring|]. cbn [map lin over fold_right]. destruct (sent i k j l) as [s c]. cbn [fst snd].
    unfold over in IH. rewrite <- IH. ring.
  Qed.
  Lemma total_lin X (o : cfop) : total fdec X o = lin (fun Y => if fdec X Y then 1 else 0) o.
  Proof. induction o as [|[Y c] o IH]; [reflexivity|]. cbn [total lin]. rewrite <- IH. destruct (fdec X Y); ring. Qed.

  Lemma S4_point i k j l (v : Cx) : (i < N)%nat -> (k < N)%nat -> (j < N)%nat -> (l < N)%nat ->
    S4 Cx N (fun p q s t => delta Cx i p * (delta Cx k q * (delta Cx j s * (delta Cx l t * v)))) = v.
  Proof.
    intros Hi Hk Hj Hl. rewrite (S4_d1 Cx N i (fun p q s t => delta Cx k q * (delta Cx j s * (delta Cx l t * v)))) by exact Hi.
    rewrite (S3_d1 Cx N k (fun q s t => delta Cx j s * (delta Cx l t * v))) by exact Hk. unfold S2.
    transitivity (upto N (fun s => delta Cx j s * v)).
    - apply upto_ext. intros s _. rewrite (upto_scal Cx N (delta Cx j s)). f_equal. now rewrite (upto_delta Cx N l (fun _ => v)).
    - now rewrite (upto_delta Cx N j (fun _ => v)).
  Qed.
  (** The four orders of a word give the same string with the same coefficient. *)
  Lemma on_four i k j l i' k' j' l' : (i < N)%nat -> (k < N)%nat -> (j < N)%nat -> (l < N)%nat -> on i k j l = true ->
    ((i' = i /\ k' = k) \/ (i' = k /\ k' = i)) -> ((j' = j /\ l' = l) \/ (j' = l /\ l' = j)) -> on i' k' j' l' = true /\ sent i' k' j' l' = sent i k j l.
  Proof.
    intros Hi Hk Hj Hl H C1 C2. destruct (sent_spec i k j l Hi Hk Hj Hl H) as [s [u [_ [-> Q]]]].
    assert (G : exists g, (g = 1 \/ g = - (1)) /\ A i' k' j' l' = g * A i k j l /\ is_key Cx N i' k' j' l' s (g * u) /\ (i' < N)%nat /\ (k' < N)%nat /\ (j' < N)%nat /\ (l' < N)%nat).
    { destruct C1 as [[-> ->]|[-> ->]], C2 as [[-> ->]|[-> ->]].
      - exists 1. split; [auto|]. split; [ring|]. split; [|auto]. replace (1 * u) with u by ring. exact Q.
      - exists (- (1)). split; [auto|]. split; [rewrite sw2 by assumption; ring|]. split; [|auto]. replace (- (1) * u) with (- u) by ring. now apply key_swap_ann.
      - exists (- (1)). split; [auto|]. split; [rewrite sw1 by assumption; ring|]. split; [|auto]. replace (- (1) * u) with (- u) by ring. now apply key_swap_cre.
      - exists 1. split; [auto|]. split; [rewrite sw1, sw2 by assumption; ring|]. split; [|auto]. replace (1 * u) with (- - u) by ring. now apply key_swap_cre, key_swap_ann. }
    destruct G as [g [G [EA [Q' [Hi' [Hk' [Hj' Hl']]]]]]].
    assert (H' : on i' k' j' l' = true).
    { unfold on in *. rewrite EA. apply andb_true_iff in H. destruct H as [H1 H2]. destruct G as [-> | ->].
      - replace (1 * A i k j l) with (A i k j l) by ring. now rewrite H1, H2.
      - replace (- (1) * A i k j l) with (- A i k j l) by ring. rewrite keep_opp, H2, andb_true_r. apply negb_true_iff. apply negb_true_iff in H1.
        destruct (ceqb (- A i k j l) 0) eqn:Z; [|reflexivity]. exfalso. apply (ceqb_spec Cx) in Z. assert (Z' : A i k j l = 0) by (transitivity (- - A i k j l); [ring|rewrite Z; ring]).
        apply (ceqb_spec Cx) in Z'. congruence. }
    split; [exact H'|]. destruct (sent_spec i' k' j' l' Hi' Hk' Hj' Hl' H') as [s' [u' [_ [-> Q'']]]].
    destruct (key_unique Cx N i' k' j' l' s' u' s (g * u) Q'' Q') as [-> ->]. f_equal. rewrite EA. destruct G as [-> | ->]; ring.
  Qed.
  Lemma key_four i k j l i' k' j' l' : (i < N)%nat -> (k < N)%nat -> (j < N)%nat -> (l < N)%nat -> on i k j l = true ->
    (i' < N)%nat -> (k' < N)%nat -> (j' < N)%nat -> (l' < N)%nat -> on i' k' j' l' = true -> fst (sent i k j l) = fst (sent i' k' j' l') ->
    ((i' = i /\ k' = k) \/ (i' = k /\ k' = i)) /\ ((j' = j /\ l' = l) \/ (j' = l /\ l' = j)).
  Proof.
    intros Hi Hk Hj Hl H Hi' Hk' Hj' Hl' H' E. destruct (on_distinct i k j l Hi Hk Hj Hl H) as [D1 D2].
    destruct (sent_spec i k j l Hi Hk Hj Hl H) as [s [u [_ [E1 Q]]]]. destruct (sent_spec i' k' j' l' Hi' Hk' Hj' Hl' H') as [s' [u' [_ [E2 Q']]]].
    rewrite E1, E2 in E. cbn [fst] in E. subst s'. exact (key_indices Cx N i k j l i' k' j' l' s u u' Hi Hk Hj Hl D1 D2 Q Q').
  Qed.
  Lemma total_four i k j l : (i < N)%nat -> (k < N)%nat -> (j < N)%nat -> (l < N)%nat -> on i k j l = true ->
    total fdec (fst (sent i k j l)) oper = (1 + 1 + 1 + 1) * snd (sent i k j l).
  Proof.
    intros Hi Hk Hj Hl H. destruct (on_distinct i k j l Hi Hk Hj Hl H) as [D1 D2]. set (v := snd (sent i k j l)). rewrite total_lin, lin_oper.
    transitivity (S4 Cx N (fun p q s t =>
      (delta Cx i p * (delta Cx k q * (delta Cx j s * (delta Cx l t * v))) + delta Cx k p * (delta Cx i q * (delta Cx j s * (delta Cx l t * v)))) +
      (delta Cx i p * (delta Cx k q * (delta Cx l s * (delta Cx j t * v))) + delta Cx k p * (delta Cx i q * (delta Cx l s * (delta Cx j t * v)))))).
    - apply S4_ext. intros i' k' j' l' Hi' Hk' Hj' Hl'.
      assert (D : forall a b c d : nat, {(c = a /\ d = b) \/ (c = b /\ d = a)} + {~ ((c = a /\ d = b) \/ (c = b /\ d = a))}).
      { intros. destruct (Nat.eq_dec c a), (Nat.eq_dec d b), (Nat.eq_dec c b), (Nat.eq_dec d a); first [left; tauto|right; tauto]. }
      assert (Z : forall a b c d : nat, ~ ((c = a /\ d = b) \/ (c = b /\ d = a)) -> delta Cx a c * delta Cx b d + delta Cx b c * delta Cx a d = 0).
      { intros a b c d C. unfold delta. destruct (Nat.eqb_spec a c), (Nat.eqb_spec b d), (Nat.eqb_spec b c), (Nat.eqb_spec a d); subst; first [ring|exfalso; tauto]. }
      assert (F : forall a a' b b' c c' d d' w : Cx, (a * (b * (c * (d * w))) + a' * (b' * (c * (d * w)))) + (a * (b * (c' * (d' * w))) + a' * (b' * (c' * (d' * w)))) = (a * b + a' * b') * (c * d + c' * d') * w) by (intros; ring).
      rewrite F.
      destruct (D i k i' k') as [C1|C1]; [destruct (D j l j' l') as [C2|C2]|].
      + destruct (on_four i k j l i' k' j' l' Hi Hk Hj Hl H C1 C2) as [-> ->]. destruct (fdec _ _) as [_|n]; [|contradiction]. fold v.
        destruct C1 as [[-> ->]|[-> ->]], C2 as [[-> ->]|[-> ->]]; unfold delta; rewrite ?Nat.eqb_refl;
          repeat match goal with |- context [Nat.eqb ?a ?b] => destruct (Nat.eqb_spec a b); [exfalso; congruence|] end; ring.
      + rewrite (Z j l j' l' C2). transitivity (0 : Cx); [|ring].
        destruct (on i' k' j' l') eqn:O; [|reflexivity]. destruct (fdec _ _) as [E|_]; [|ring]. exfalso. apply C2. now apply (key_four i k j l i' k' j' l').
      + rewrite (Z i k i' k' C1). transitivity (0 : Cx); [|ring].
        destruct (on i' k' j' l') eqn:O; [|reflexivity]. destruct (fdec _ _) as [E|_]; [|ring]. exfalso. apply C1. now apply (key_four i k j l i' k' j' l').
    - rewrite !S4_add, !S4_point by assumption. ring.
  Qed.

  (** ** The operator and its truncation *)
  Lemma oper_NoDup : NoDup (map fst oper).
  Proof. unfold oper. apply (fold_add_NoDup Cx _ _ fstr_eqb_spec'). constructor. Qed.
  Lemma oper_In X c : In (X, c) oper -> exists i k j l, (i < N)%nat /\ (k < N)%nat /\ (j < N)%nat /\ (l < N)%nat /\ on i k j l = true /\ X = fst (sent i k j l) /\ c = (1 + 1 + 1 + 1) * snd (sent i k j l).
  Proof.
    intro I. assert (T := total_In Cx _ _ fstr_eqb_spec' fdec X c oper oper_NoDup I).
    assert (J : In X (map fst oper)) by (apply (in_map fst) in I; exact I). unfold oper in J. apply (In_fst_fold_add Cx _ _ fstr_eqb_spec') in J. destruct J as [J|[]].
    unfold strings in J. rewrite map_map in J. apply in_map_iff in J. destruct J as [[[[[i k] j] l] x] [<- J]]. destruct (in_entries i k j l x J) as [Hi [Hk [Hj [Hl [_ O]]]]].
    exists i, k, j, l. repeat split; try assumption. rewrite <- T. now apply total_four.
  Qed.
  Definition four : Cx := 1 + 1 + 1 + 1.
  Variable thr : R.
  Definition strong (x : Cx) : bool := if Rle_dec thr (cabs (four * x)) then true else false.
  Lemma strong_pm u x : pm Cx u -> strong (u * x) = strong x.
  Proof.
    intro P. unfold strong. assert (E : cabs (four * (u * x)) = cabs (four * x)); [|now rewrite E].
    unfold cabs. f_equal. destruct P as [-> | ->]; destruct x as [a b]; unfold four; cbn [Cx cmul cadd copp c1 c0 Cmul Cadd Copp C1 C0 fst snd]; ring.
  Qed.
  Definition cut (e : fstr * Cx) : bool := if Rle_dec thr (cabs (snd e)) then true else false.
  Lemma lin_filter f : lin f (filter cut oper) = S4 Cx N (fun i k j l => if on i k j l && strong (A i k j l) then snd (sent i k j l) * f (fst (sent i k j l)) else 0).
  Proof.
    pose (g := fun X => if Rle_dec thr (cabs (total fdec X oper)) then f X else 0).
    transitivity (lin g oper).
    - assert (G : forall l, (forall e, In e l -> In e oper) -> lin f (filter cut l) = lin g l); [|now apply G].
      induction l as [|[X c] l IH]; intro H; [reflexivity|]. cbn [filter lin]. rewrite <- IH by (intros e He; apply H; now right).
      unfold g at 1. rewrite (total_In Cx _ _ fstr_eqb_spec' fdec X c oper oper_NoDup (H _ (or_introl eq_refl))). unfold cut at 1. cbn [snd]. destruct (Rle_dec _ _); [reflexivity|ring].
    - rewrite lin_oper. apply S4_ext. intros i k j l Hi Hk Hj Hl. destruct (on i k j l) eqn:O; [|reflexivity]. cbn [andb]. unfold g. rewrite total_four by assumption. fold four.
      destruct (sent_spec i k j l Hi Hk Hj Hl O) as [s [u [_ [-> [_ [P _]]]]]]. cbn [fst snd]. rewrite <- (strong_pm (u * - (1)) (A i k j l)).
      + unfold strong. replace (u * - (1) * A i k j l) with (u * - A i k j l) by ring. destruct (Rle_dec _ _); [reflexivity|ring].
      + apply pm_mul; [exact P|right; reflexivity].
  Qed.
  (** The truncated operator is the operator of the array with a raised cutoff. *)
  Lemma filter_mat x y : length x = N -> length y = N -> fmat (filter cut oper) x y = - two_body N (chosen Cx (fun a => keep a && strong a) A) x y.
  Proof.
    intros Lx Ly. rewrite fmat_lin, lin_filter. change (two_body N (chosen Cx (fun a => keep a && strong a) A) x y) with (S4 Cx N (fun p q s t => chosen Cx (fun a => keep a && strong a) A p q s t * excitation p q s t x y)).
    rewrite <- S4_opp. apply S4_ext. intros i k j l Hi Hk Hj Hl. unfold chosen. destruct (on i k j l) eqn:O; cbn [andb].
    - pose proof O as O'. unfold on in O'. apply andb_true_iff in O'. destruct O' as [_ ->]. cbn [andb]. destruct (strong _); [|ring].
      destruct (sent_spec i k j l Hi Hk Hj Hl O) as [s [u [_ [-> [_ [P M]]]]]]. cbn [fst snd]. rewrite (M x y Lx Ly). ring.
    - unfold on in O. destruct (ceqb (A i k j l) 0) eqn:Z; cbn [negb andb] in O.
      + apply (ceqb_spec Cx) in Z. rewrite Z. destruct (keep 0 && strong 0); ring.
      + rewrite O. cbn [andb]. ring.
  Qed.
  (** Four times the sum of the squares of the entries that remain. *)
  Lemma filter_squares : lin (fun X => total fdec X oper) (filter cut oper) = four * S4 Cx N (fun i k j l => if keep (A i k j l) && strong (A i k j l) then A i k j l * A i k j l else 0).
  Proof.
    rewrite lin_filter. transitivity (S4 Cx N (fun i k j l => four * (if keep (A i k j l) && strong (A i k j l) then A i k j l * A i k j l else 0))).
    - apply S4_ext. intros i k j l Hi Hk Hj Hl. destruct (on i k j l) eqn:O; cbn [andb].
      + pose proof O as O'. unfold on in O'. apply andb_true_iff in O'. destruct O' as [_ ->]. cbn [andb]. destruct (strong _); [|ring].
        rewrite total_four by assumption. destruct (sent_spec i k j l Hi Hk Hj Hl O) as [s [u [_ [-> [_ [P M]]]]]]. cbn [snd]. unfold four.
        transitivity ((u * u) * ((1 + 1 + 1 + 1) * (A i k j l * A i k j l))); [ring|]. rewrite (pm_sq Cx u P). ring.
      + unfold on in O. destruct (ceqb (A i k j l) 0) eqn:Z; cbn [negb andb] in O.
        * apply (ceqb_spec Cx) in Z. rewrite Z. destruct (keep 0 && strong 0); ring.
        * rewrite O. cbn [andb]. ring.
    - unfold S4. rewrite <- upto_scal. apply upto_ext. intros p _. rewrite <- upto_scal. apply upto_ext. intros q _. rewrite <- upto_scal. apply upto_ext. intros s _. now rewrite <- upto_scal.
  Qed.
End Res4.
