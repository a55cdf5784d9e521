(** The operator and the vector built from the residual. *)
From Coq Require Import Bool List Arith Lia Permutation Sorted.
From Verif Require Import Coeff MatSpec MatLemmas FockSpec OpSpec FermiModel FermiProofs AdjProofs OperatorModel InvSpec
  CircuitSpec RdmSpec RdmModel RdmFock RdmProofs TaperSpec TaperProofs TaperProofs2 InvModel InvProofs HamModel HamSpec HamProofs HamProofs2 HamProofs3 HamProofs4
  ResSpec ResModel ResProofs ResProofs2.
Import ListNotations.

Section ResProofs3.
  Variable K : CoefRing.
  Add Ring KRing : (c_ring K).
  Local Open Scope coef_scope.
  Notation tensor4 := (nat -> nat -> nat -> nat -> K).
  Notation dl := (delta K).

  Lemma S4_flip R (f : tensor4) : S4 K R f = S4 K R (fun p q s t => f s t p q).
  Proof.
    unfold S4.
    transitivity (upto R (fun p => upto R (fun s => upto R (fun q => upto R (fun t => f p q s t))))); [apply upto_ext; intros; apply upto_swap|].
    rewrite upto_swap. apply upto_ext. intros s _.
    transitivity (upto R (fun p => upto R (fun t => upto R (fun q => f p q s t)))); [apply upto_ext; intros; apply upto_swap|].
    apply upto_swap.
  Qed.
  Lemma adj8 R psi i k l j p q t s :
    rw K R psi [(Cre, j); (Cre, l); (Ann, k); (Ann, i); (Cre, p); (Cre, q); (Ann, t); (Ann, s)] = rw K R psi [(Cre, s); (Cre, t); (Ann, q); (Ann, p); (Cre, i); (Cre, k); (Ann, l); (Ann, j)].
  Proof. exact (rw_adj K R psi [(Cre, s); (Cre, t); (Ann, q); (Ann, p); (Cre, i); (Cre, k); (Ann, l); (Ann, j)]). Qed.
  Theorem residual_antisym R (V : tensor4) psi i k j l : real_symmetric V -> residual_of R V psi j l i k = - residual_of R V psi i k j l.
  Proof.
    intros [HR [HX HH]]. rewrite !comm_sum by exact HR. rewrite <- S4_opp. rewrite (S4_flip R (fun p q s t => - (V p q s t * _))).
    apply S4_ext. intros p q s t _ _ _ _. rewrite (adj8 R psi i k l j p q t s), (HH p q s t).
    assert (E := rw_adj K R psi [(Cre, p); (Cre, q); (Ann, t); (Ann, s); (Cre, j); (Cre, l); (Ann, k); (Ann, i)]).
    change (rw K R psi [(Cre, i); (Cre, k); (Ann, l); (Ann, j); (Cre, s); (Cre, t); (Ann, q); (Ann, p)] = rw K R psi [(Cre, p); (Cre, q); (Ann, t); (Ann, s); (Cre, j); (Cre, l); (Ann, k); (Ann, i)]) in E.
    rewrite <- E. ring.
  Qed.
  Theorem residual_swap_ann R (V : tensor4) psi i k j l : real_symmetric V -> residual_of R V psi i k l j = - residual_of R V psi i k j l.
  Proof.
    intros [HR [HX HH]]. rewrite !comm_sum by exact HR. rewrite <- S4_opp. apply S4_ext. intros p q s t _ _ _ _.
    assert (A := rw_swap K R psi Ann [(Cre, i); (Cre, k)] j l [(Cre, p); (Cre, q); (Ann, t); (Ann, s)] ltac:(auto)).
    assert (B := rw_swap K R psi Ann [(Cre, p); (Cre, q); (Ann, t); (Ann, s); (Cre, i); (Cre, k)] j l [] ltac:(auto)). cbn [app] in A, B. rewrite A, B. ring.
  Qed.
  Theorem residual_swap_cre R (V : tensor4) psi i k j l : real_symmetric V -> residual_of R V psi k i j l = - residual_of R V psi i k j l.
  Proof. intro H. rewrite (residual_antisym R V psi j l k i H), (residual_swap_ann R V psi j l i k H), (residual_antisym R V psi i k j l H). ring. Qed.
  Lemma residual_real R (V : tensor4) psi i k j l : cconj (residual_of R V psi i k j l) = residual_of R V psi i k j l.
  Proof. apply re_is_real. Qed.
  Lemma twice_zero (x : K) : x = - x -> x = 0.
  Proof. intro H. transitivity ((chalf + chalf) * x); [rewrite half_two; ring|]. transitivity (chalf * (x + x)); [ring|]. rewrite H at 1. ring. Qed.

  (** ** The operator *)
  Lemma over_filter {A} (P : A -> bool) (l : list A) (f : A -> K) : over (filter P l) f = over l (fun x => if P x then f x else 0).
  Proof. induction l as [|x l IH]; [reflexivity|]. cbn [filter]. destruct (P x) eqn:E; cbn [over fold_right]; unfold over in *; rewrite E, IH; ring. Qed.
  Definition chosen (keep : K -> bool) (A : tensor4) : tensor4 := fun i k j l => if keep (A i k j l) then A i k j l else 0.
  Lemma residual_operator_spec keep R N (A : tensor4) : (R <= N)%nat ->
    exists o, residual_operator keep R N A = Some o /\ fwf K N o /\ forall x y, fmat o x y = - two_body R (chosen keep A) x y.
  Proof.
    intro HN. unfold residual_operator.
    match goal with |- exists o, add_strings N ?l [] = _ /\ _ => destruct (add_strings_spec K N l []) as [o [E [W M]]] end.
    - intros e [].
    - intros e He x Hx. apply in_map_iff in He. destruct He as [[[[[i k] j] l] v] [<- He]]. apply filter_In in He. destruct He as [He _]. apply filter_In in He. destruct He as [He _].
      apply in_flat_map in He. destruct He as [i' [Hi He]]. apply in_flat_map in He. destruct He as [k' [Hk He]]. apply in_flat_map in He. destruct He as [j' [Hj He]].
      apply in_map_iff in He. destruct He as [l' [He Hl]]. apply in_seq in Hi, Hk, Hj, Hl. injection He. intros; subst. destruct Hx as [<-|[<-|[<-|[<-|[]]]]]; cbn [snd]; lia.
    - exists o. split; [exact E|]. split; [exact W|]. intros x y. rewrite M. cbn [fmat]. rewrite over_map, over_filter. unfold nonzeros. rewrite over_filter, over_flat_map.
      unfold mzero. match goal with |- 0 + ?a = _ => transitivity a; [ring|] end.
      change (over (seq 0 R) (fun i => over (flat_map (fun k => flat_map (fun j => map (fun l => (i, k, j, l, A i k j l)) (seq 0 R)) (seq 0 R)) (seq 0 R))
        (fun e => if negb (ceqb (snd e) 0) then if keep (snd e) then fst (let '(i0, k, j, l, v) := e in (- v, [(Cre, i0); (Cre, k); (Ann, l); (Ann, j)])) * fock_mat (snd (let '(i0, k, j, l, v) := e in (- v, [(Cre, i0); (Cre, k); (Ann, l); (Ann, j)]))) x y else 0 else 0))
        = - S4 K R (fun p q s t => chosen keep A p q s t * excitation p q s t x y)).
      rewrite <- S4_opp. unfold S4, upto. apply over_ext. intros i _. rewrite over_flat_map. apply over_ext. intros k _. rewrite over_flat_map. apply over_ext. intros j _. rewrite over_map.
      apply over_ext. intros l _. cbn [snd fst]. unfold chosen, excitation. destruct (ceqb (A i k j l) 0) eqn:Z; cbn [negb].
      + apply (ceqb_spec K) in Z. rewrite Z. destruct (keep 0); ring.
      + destruct (keep (A i k j l)); ring.
  Qed.
  Lemma two_body_adj R (V : tensor4) : (forall p q s t, cconj (V p q s t) = V p q s t) ->
    meq R (madj (two_body R V)) (two_body R (fun p q s t => V s t p q)).
  Proof.
    intros HR x y Hx Hy. unfold madj, two_body. change (cconj (S4 K R (fun p q s t => V p q s t * excitation p q s t y x)) = S4 K R (fun p q s t => V s t p q * excitation p q s t x y)).
    rewrite (S4_flip R (fun p q s t => V s t p q * excitation p q s t x y)).
    assert (C : forall n (f : nat -> K), cconj (upto n f) = upto n (fun i => cconj (f i))).
    { intros n f. unfold upto, over. induction (seq 0 n) as [|a l IH]; cbn [fold_right]; [apply cconj_0|]. now rewrite cconj_add, IH. }
    unfold S4. rewrite C. apply upto_ext. intros p _. rewrite C. apply upto_ext. intros q _. rewrite C. apply upto_ext. intros s _. rewrite C. apply upto_ext. intros t _.
    rewrite cconj_mul, HR. f_equal. unfold excitation.
    assert (F := fock_mat_adj K [(Cre, p); (Cre, q); (Ann, t); (Ann, s)] R x y Hx Hy). cbn [map rev app cadj fst snd fadj] in F. symmetry. exact F.
  Qed.
  Lemma two_body_ext R (V V' : tensor4) x y : (forall p q s t, (p < R)%nat -> (q < R)%nat -> (s < R)%nat -> (t < R)%nat -> V p q s t = V' p q s t) -> two_body R V x y = two_body R V' x y.
  Proof. intro H. apply (S4_ext K R (fun p q s t => V p q s t * excitation p q s t x y)). intros. now rewrite H. Qed.
  Lemma two_body_opp R (V : tensor4) x y : two_body R (fun p q s t => - V p q s t) x y = - two_body R V x y.
  Proof.
    change (S4 K R (fun p q s t => - V p q s t * excitation p q s t x y) = - S4 K R (fun p q s t => V p q s t * excitation p q s t x y)). rewrite <- S4_opp. apply S4_ext. intros. ring.
  Qed.
  Theorem operator_anti keep R N (A K2 : tensor4) psi : (R <= N)%nat -> real_symmetric K2 -> (forall x, keep (- x) = keep x) ->
    (forall i k j l, (i < R)%nat -> (k < R)%nat -> (j < R)%nat -> (l < R)%nat -> A i k j l = residual_of R K2 psi i k j l) ->
    exists o, residual_operator keep R N A = Some o /\ fwf K N o /\ forall x y, length x = R -> length y = R -> cconj (fmat o y x) = - fmat o x y.
  Proof.
    intros HN HK Hk HA. destruct (residual_operator_spec keep R N A HN) as [o [E [W M]]]. exists o. split; [exact E|]. split; [exact W|]. intros x y Hx Hy.
    rewrite !M, cconj_opp. f_equal.
    pose (V := chosen keep (residual_of R K2 psi)).
    assert (EV : forall x y, two_body R (chosen keep A) x y = two_body R V x y) by (intros; apply two_body_ext; intros; unfold V, chosen; now rewrite HA).
    rewrite !EV. transitivity (two_body R (fun p q s t => V s t p q) x y).
    - apply (two_body_adj R V); [|exact Hx|exact Hy]. intros p q s t. unfold V, chosen. destruct (keep _); [apply residual_real|apply cconj_0].
    - rewrite <- two_body_opp. apply two_body_ext. intros p q s t _ _ _ _. unfold V, chosen. rewrite (residual_antisym R K2 psi p q s t HK), Hk. destruct (keep _); ring.
  Qed.

  (** The first-order change of the energy along the operator. *)
  Lemma two_body_gradient R (V K2 : tensor4) (M : mat K) psi : (forall p q s t, cconj (V p q s t) = V p q s t) -> (forall x y, M x y = - two_body R V x y) ->
    re_expect R (comm R (two_body R K2) M) psi = S4 K R (fun i k j l => V i k j l * residual_of R K2 psi i k j l).
  Proof.
    intros HV EV. change (re (expect R (comm R (two_body R K2) M) psi) = S4 K R (fun i k j l => V i k j l * residual_of R K2 psi i k j l)).
    rewrite (expect_ext K R _ (fun x y => upto R (fun p => upto R (fun q => upto R (fun s => upto R (fun t => mscal (V p q s t) (comm R (excitation p q s t) (two_body R K2)) x y)))))).
    - rewrite (expect_upto K R R (fun p x y => upto R (fun q => upto R (fun s => upto R (fun t => mscal (V p q s t) (comm R (excitation p q s t) (two_body R K2)) x y))))), re_upto. unfold S4. apply upto_ext. intros p _.
      rewrite (expect_upto K R R (fun q x y => upto R (fun s => upto R (fun t => mscal (V p q s t) (comm R (excitation p q s t) (two_body R K2)) x y)))), re_upto. apply upto_ext. intros q _.
      rewrite (expect_upto K R R (fun s x y => upto R (fun t => mscal (V p q s t) (comm R (excitation p q s t) (two_body R K2)) x y))), re_upto. apply upto_ext. intros s _.
      rewrite (expect_upto K R R (fun t => mscal (V p q s t) (comm R (excitation p q s t) (two_body R K2)))), re_upto. apply upto_ext. intros t _.
      rewrite expect_scal, re_real by apply HV.
      change (re (expect R (comm R (excitation p q s t) (two_body R K2)) psi)) with (residual_of R K2 psi p q s t). ring.
    - intros x y Hx Hy. unfold comm at 1. set (H := two_body R K2).
      assert (A1 : mmul R H M x y = S4 K R (fun p q s t => - (V p q s t * mmul R H (excitation p q s t) x y))).
      { transitivity (mmul R H (fun x y => S4 K R (fun p q s t => - V p q s t * excitation p q s t x y)) x y).
        { unfold mmul. apply sumbits_ext. intros z _. rewrite EV, <- two_body_opp. reflexivity. }
        unfold S4, upto at 1. rewrite (mmul_over_r K R (seq 0 R) (fun p x y => upto R (fun q => upto R (fun s => upto R (fun t => - V p q s t * excitation p q s t x y))))). apply over_ext. intros p _.
        unfold upto at 1. rewrite (mmul_over_r K R (seq 0 R) (fun q x y => upto R (fun s => upto R (fun t => - V p q s t * excitation p q s t x y)))). apply over_ext. intros q _.
        unfold upto at 1. rewrite (mmul_over_r K R (seq 0 R) (fun s x y => upto R (fun t => - V p q s t * excitation p q s t x y))). apply over_ext. intros s _.
        unfold upto at 1. rewrite (mmul_over_r K R (seq 0 R) (fun t x y => - V p q s t * excitation p q s t x y)). apply over_ext. intros t _.
        transitivity (- V p q s t * mmul R H (excitation p q s t) x y); [|ring]. unfold mmul. rewrite <- sumbits_scal. apply sumbits_ext. intros z _. ring. }
      assert (A2 : mmul R M H x y = S4 K R (fun p q s t => - (V p q s t * mmul R (excitation p q s t) H x y))).
      { transitivity (mmul R (fun x y => S4 K R (fun p q s t => - V p q s t * excitation p q s t x y)) H x y).
        { unfold mmul. apply sumbits_ext. intros z _. rewrite EV, <- two_body_opp. reflexivity. }
        unfold S4, upto at 1. rewrite (mmul_over_l K R (seq 0 R) (fun p x y => upto R (fun q => upto R (fun s => upto R (fun t => - V p q s t * excitation p q s t x y))))). apply over_ext. intros p _.
        unfold upto at 1. rewrite (mmul_over_l K R (seq 0 R) (fun q x y => upto R (fun s => upto R (fun t => - V p q s t * excitation p q s t x y)))). apply over_ext. intros q _.
        unfold upto at 1. rewrite (mmul_over_l K R (seq 0 R) (fun s x y => upto R (fun t => - V p q s t * excitation p q s t x y))). apply over_ext. intros s _.
        unfold upto at 1. rewrite (mmul_over_l K R (seq 0 R) (fun t x y => - V p q s t * excitation p q s t x y)). apply over_ext. intros t _.
        transitivity (- V p q s t * mmul R (excitation p q s t) H x y); [|ring]. unfold mmul. rewrite <- sumbits_scal. apply sumbits_ext. intros z _. ring. }
      rewrite A1, A2.
      match goal with |- S4 K R ?f - S4 K R ?g = _ => transitivity (S4 K R f + S4 K R (fun p q s t => - g p q s t)); [rewrite (S4_opp K R g); ring|] end.
      rewrite <- S4_add. apply (S4_ext K R). intros p q s t _ _ _ _. unfold mscal, comm. ring.
  Qed.
  Theorem operator_gradient keep R N (A K2 : tensor4) psi : (R <= N)%nat -> real_symmetric K2 ->
    (forall i k j l, (i < R)%nat -> (k < R)%nat -> (j < R)%nat -> (l < R)%nat -> A i k j l = residual_of R K2 psi i k j l) ->
    exists o, residual_operator keep R N A = Some o /\
      re_expect R (comm R (two_body R K2) (fmat o)) psi =
      upto R (fun i => upto R (fun k => upto R (fun j => upto R (fun l => if keep (residual_of R K2 psi i k j l) then residual_of R K2 psi i k j l * residual_of R K2 psi i k j l else 0)))).
  Proof.
    intros HN HK HA. destruct (residual_operator_spec keep R N A HN) as [o [E [W M]]]. exists o. split; [exact E|].
    pose (V := chosen keep (residual_of R K2 psi)).
    rewrite (two_body_gradient R V K2 (fmat o) psi).
    - apply (S4_ext K R). intros p q s t _ _ _ _. unfold V, chosen. destruct (keep _); ring.
    - intros p q s t. unfold V, chosen. destruct (keep _); [apply residual_real|apply cconj_0].
    - intros. rewrite M. f_equal. apply two_body_ext. intros. unfold V, chosen. now rewrite HA.
  Qed.
End ResProofs3.
