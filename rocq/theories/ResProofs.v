(** Proofs about the classical residual. *)
From Coq Require Import Bool List Arith Lia Permutation.
From Verif Require Import Coeff MatSpec MatLemmas FockSpec OpSpec FermiModel FermiProofs AdjProofs OperatorModel
  CircuitSpec RdmSpec RdmModel RdmFock RdmProofs TaperSpec TaperProofs TaperProofs2 InvModel HamModel HamSpec HamProofs HamProofs2 HamProofs3 HamProofs4
  ResSpec ResModel.
Import ListNotations.

Section ResProofs.
  Variable K : CoefRing.
  Add Ring KRing : (c_ring K).
  Local Open Scope coef_scope.
  Notation tensor4 := (nat -> nat -> nat -> nat -> K).
  Notation dl := (delta K).

  Lemma re_add (x y : K) : re (x + y) = re x + re y.
  Proof. unfold re. rewrite cconj_add. ring. Qed.
  Lemma re_opp (x : K) : re (- x) = - re x.
  Proof. unfold re. rewrite cconj_opp. ring. Qed.
  Lemma re_0 : re (0 : K) = 0.
  Proof. unfold re. rewrite cconj_0. ring. Qed.
  Lemma re_real (a x : K) : cconj a = a -> re (a * x) = a * re x.
  Proof. intro H. unfold re. rewrite cconj_mul, H. ring. Qed.
  Lemma re_conj (x : K) : re (cconj x) = re x.
  Proof. unfold re. rewrite cconj_inv. ring. Qed.
  Lemma half_two : (chalf : K) + chalf = 1.
  Proof. exact (chalf_dbl K). Qed.
  Lemma re_id (x : K) : cconj x = x -> re x = x.
  Proof. intro H. unfold re. rewrite H. transitivity ((chalf + chalf) * x); [ring|]. rewrite half_two. ring. Qed.
  Lemma half_conj : cconj (chalf : K) = chalf.
  Proof.
    assert (H : cconj (chalf : K) + cconj chalf = 1) by (rewrite <- cconj_add, half_two; apply cconj_1).
    transitivity ((chalf + chalf) * cconj (chalf : K)); [rewrite half_two; ring|].
    transitivity (chalf * (cconj (chalf : K) + cconj chalf)); [ring|]. rewrite H. ring.
  Qed.
  Lemma re_is_real (x : K) : cconj (re x) = re x.
  Proof. unfold re. rewrite cconj_mul, cconj_add, cconj_inv, half_conj. ring. Qed.
  Lemma re_upto n (f : nat -> K) : re (upto n f) = upto n (fun i => re (f i)).
  Proof. unfold upto, over. induction (seq 0 n) as [|x l IH]; cbn [fold_right]; [apply re_0|]. now rewrite re_add, IH. Qed.

  (** ** Real parts of expectation values of words *)
  Variables (R : nat) (psi : bits -> K).
  Definition rw (l : list (fop * nat)) : K := re (ew K R psi l).
  Lemma rw_car l b c m : (b < R)%nat -> rw (l ++ (Ann, b) :: (Cre, c) :: m) = dl b c * rw (l ++ m) - rw (l ++ (Cre, c) :: (Ann, b) :: m).
  Proof.
    intro Hb. unfold rw. rewrite (ew_car K R psi l b c m Hb).
    replace (dl b c * ew K R psi (l ++ m) - ew K R psi (l ++ (Ann, b) :: (Cre, c) :: m)) with (dl b c * ew K R psi (l ++ m) + - ew K R psi (l ++ (Ann, b) :: (Cre, c) :: m)) by ring.
    rewrite re_add, re_opp, re_real by apply dl_conj. ring.
  Qed.
  Lemma rw_swap o l a b m : (o = Cre \/ o = Ann) -> rw (l ++ (o, a) :: (o, b) :: m) = - rw (l ++ (o, b) :: (o, a) :: m).
  Proof. intro Ho. unfold rw. now rewrite (ew_swap K R psi o l a b m Ho), re_opp. Qed.
  Lemma rw_adj l : rw (rev (map cadj l)) = rw l.
  Proof.
    unfold rw, ew. rewrite <- (re_conj (expect R (fock_mat l) psi)), <- expect_adj. f_equal. apply expect_ext. apply fock_mat_adj.
  Qed.

  Lemma order4 i k l j p q t s : (l < R)%nat -> (j < R)%nat ->
    rw [(Cre, i); (Cre, k); (Ann, l); (Ann, j); (Cre, p); (Cre, q); (Ann, t); (Ann, s)] =
      (dl j p * dl l q - dl j q * dl l p) * rw [(Cre, i); (Cre, k); (Ann, t); (Ann, s)]
      - dl j p * rw [(Cre, i); (Cre, k); (Cre, q); (Ann, l); (Ann, t); (Ann, s)]
      + dl j q * rw [(Cre, i); (Cre, k); (Cre, p); (Ann, l); (Ann, t); (Ann, s)]
      + dl l p * rw [(Cre, i); (Cre, k); (Cre, q); (Ann, j); (Ann, t); (Ann, s)]
      - dl l q * rw [(Cre, i); (Cre, k); (Cre, p); (Ann, j); (Ann, t); (Ann, s)]
      + rw [(Cre, i); (Cre, k); (Cre, p); (Cre, q); (Ann, l); (Ann, j); (Ann, t); (Ann, s)].
  Proof.
    intros Hl Hj.
    assert (A := rw_car [(Cre, i); (Cre, k); (Ann, l)] j p [(Cre, q); (Ann, t); (Ann, s)] Hj). cbn [app] in A. rewrite A; clear A.
    assert (A := rw_car [(Cre, i); (Cre, k)] l q [(Ann, t); (Ann, s)] Hl). cbn [app] in A. rewrite A; clear A.
    assert (A := rw_car [(Cre, i); (Cre, k)] l p [(Ann, j); (Cre, q); (Ann, t); (Ann, s)] Hl). cbn [app] in A. rewrite A; clear A.
    assert (A := rw_car [(Cre, i); (Cre, k)] j q [(Ann, t); (Ann, s)] Hj). cbn [app] in A. rewrite A; clear A.
    assert (A := rw_car [(Cre, i); (Cre, k); (Cre, p); (Ann, l)] j q [(Ann, t); (Ann, s)] Hj). cbn [app] in A. rewrite A; clear A.
    assert (A := rw_car [(Cre, i); (Cre, k); (Cre, p)] l q [(Ann, j); (Ann, t); (Ann, s)] Hl). cbn [app] in A. rewrite A; clear A.
    ring.
  Qed.
  Lemma cre_swap22 a b c d m : rw ((Cre, a) :: (Cre, b) :: (Cre, c) :: (Cre, d) :: m) = rw ((Cre, c) :: (Cre, d) :: (Cre, a) :: (Cre, b) :: m).
  Proof.
    assert (A := rw_swap Cre [(Cre, a)] b c ((Cre, d) :: m) ltac:(auto)). cbn [app] in A. rewrite A; clear A.
    assert (A := rw_swap Cre [] a c ((Cre, b) :: (Cre, d) :: m) ltac:(auto)). cbn [app] in A. rewrite A; clear A.
    assert (A := rw_swap Cre [(Cre, c); (Cre, a)] b d m ltac:(auto)). cbn [app] in A. rewrite A; clear A.
    assert (A := rw_swap Cre [(Cre, c)] a d ((Cre, b) :: m) ltac:(auto)). cbn [app] in A. rewrite A; clear A. ring.
  Qed.
  Lemma ann_swap22 w a b c d : rw (w ++ [(Ann, a); (Ann, b); (Ann, c); (Ann, d)]) = rw (w ++ [(Ann, c); (Ann, d); (Ann, a); (Ann, b)]).
  Proof.
    assert (A := rw_swap Ann (w ++ [(Ann, a)]) b c [(Ann, d)] ltac:(auto)). rewrite <- !app_assoc in A. cbn [app] in A. rewrite A; clear A.
    assert (A := rw_swap Ann w a c [(Ann, b); (Ann, d)] ltac:(auto)). rewrite A; clear A.
    assert (A := rw_swap Ann (w ++ [(Ann, c); (Ann, a)]) b d [] ltac:(auto)). rewrite <- !app_assoc in A. cbn [app] in A. rewrite A; clear A.
    assert (A := rw_swap Ann (w ++ [(Ann, c)]) a d [(Ann, b)] ltac:(auto)). rewrite <- !app_assoc in A. cbn [app] in A. rewrite A; clear A. ring.
  Qed.
  Lemma eight i k l j p q t s :
    rw [(Cre, i); (Cre, k); (Cre, p); (Cre, q); (Ann, l); (Ann, j); (Ann, t); (Ann, s)] = rw [(Cre, p); (Cre, q); (Cre, i); (Cre, k); (Ann, t); (Ann, s); (Ann, l); (Ann, j)].
  Proof. rewrite cre_swap22. exact (ann_swap22 [(Cre, p); (Cre, q); (Cre, i); (Cre, k)] l j t s). Qed.

  (** ** Sums *)
  Definition S4 (f : tensor4) : K := upto R (fun p => upto R (fun q => upto R (fun s => upto R (fun t => f p q s t)))).
  Definition S3 (f : nat -> nat -> nat -> K) : K := upto R (fun p => upto R (fun q => upto R (fun s => f p q s))).
  Definition S2 (f : nat -> nat -> K) : K := upto R (fun p => upto R (fun q => f p q)).
  Lemma S2_ext (f g : nat -> nat -> K) : (forall p q, (p < R)%nat -> (q < R)%nat -> f p q = g p q) -> S2 f = S2 g.
  Proof. intro H. unfold S2. apply upto_ext. intros. apply upto_ext. intros. now apply H. Qed.
  Lemma S3_ext (f g : nat -> nat -> nat -> K) : (forall p q s, (p < R)%nat -> (q < R)%nat -> (s < R)%nat -> f p q s = g p q s) -> S3 f = S3 g.
  Proof. intro H. unfold S3. apply upto_ext. intros. apply upto_ext. intros. apply upto_ext. intros. now apply H. Qed.
  Lemma S4_ext (f g : tensor4) : (forall p q s t, (p < R)%nat -> (q < R)%nat -> (s < R)%nat -> (t < R)%nat -> f p q s t = g p q s t) -> S4 f = S4 g.
  Proof. intro H. unfold S4. apply upto_ext. intros. apply upto_ext. intros. apply upto_ext. intros. apply upto_ext. intros. now apply H. Qed.
  Lemma S4_add (f g : tensor4) : S4 (fun p q s t => f p q s t + g p q s t) = S4 f + S4 g.
  Proof.
    unfold S4. rewrite <- upto_add. apply upto_ext. intros. rewrite <- upto_add. apply upto_ext. intros. rewrite <- upto_add. apply upto_ext. intros. now rewrite <- upto_add.
  Qed.
  Lemma S3_add (f g : nat -> nat -> nat -> K) : S3 (fun p q s => f p q s + g p q s) = S3 f + S3 g.
  Proof. unfold S3. rewrite <- upto_add. apply upto_ext. intros. rewrite <- upto_add. apply upto_ext. intros. now rewrite <- upto_add. Qed.
  Lemma S2_add (f g : nat -> nat -> K) : S2 (fun p q => f p q + g p q) = S2 f + S2 g.
  Proof. unfold S2. rewrite <- upto_add. apply upto_ext. intros. now rewrite <- upto_add. Qed.
  Lemma S4_opp (f : tensor4) : S4 (fun p q s t => - f p q s t) = - S4 f.
  Proof.
    unfold S4. transitivity ((- (1)) * upto R (fun p => upto R (fun q => upto R (fun s => upto R (fun t => f p q s t))))); [|ring].
    rewrite <- upto_scal. apply upto_ext. intros. rewrite <- upto_scal. apply upto_ext. intros. rewrite <- upto_scal. apply upto_ext. intros. rewrite <- upto_scal. apply upto_ext. intros. ring.
  Qed.
  Lemma S3_opp (f : nat -> nat -> nat -> K) : S3 (fun p q s => - f p q s) = - S3 f.
  Proof.
    unfold S3. transitivity ((- (1)) * upto R (fun p => upto R (fun q => upto R (fun s => f p q s)))); [|ring].
    rewrite <- upto_scal. apply upto_ext. intros. rewrite <- upto_scal. apply upto_ext. intros. rewrite <- upto_scal. apply upto_ext. intros. ring.
  Qed.
  Lemma S2_opp (f : nat -> nat -> K) : S2 (fun p q => - f p q) = - S2 f.
  Proof.
    unfold S2. transitivity ((- (1)) * upto R (fun p => upto R (fun q => f p q))); [|ring].
    rewrite <- upto_scal. apply upto_ext. intros. rewrite <- upto_scal. apply upto_ext. intros. ring.
  Qed.
  Lemma S4_d1 a (f : tensor4) : (a < R)%nat -> S4 (fun p q s t => dl a p * f p q s t) = S3 (fun q s t => f a q s t).
  Proof.
    intro H. unfold S4, S3. rewrite <- (upto_delta K R a (fun p => upto R (fun q => upto R (fun s => upto R (fun t => f p q s t)))) H). apply upto_ext. intros.
    rewrite <- upto_scal. apply upto_ext. intros. rewrite <- upto_scal. apply upto_ext. intros. now rewrite <- upto_scal.
  Qed.
  Lemma S4_d2 a (f : tensor4) : (a < R)%nat -> S4 (fun p q s t => dl a q * f p q s t) = S3 (fun p s t => f p a s t).
  Proof.
    intro H. unfold S4, S3. apply upto_ext. intros p _. rewrite <- (upto_delta K R a (fun q => upto R (fun s => upto R (fun t => f p q s t))) H). apply upto_ext. intros.
    rewrite <- upto_scal. apply upto_ext. intros. now rewrite <- upto_scal.
  Qed.
  Lemma S4_d3 a (f : tensor4) : (a < R)%nat -> S4 (fun p q s t => dl a s * f p q s t) = S3 (fun p q t => f p q a t).
  Proof.
    intro H. unfold S4, S3. apply upto_ext. intros p _. apply upto_ext. intros q _. rewrite <- (upto_delta K R a (fun s => upto R (fun t => f p q s t)) H). apply upto_ext. intros.
    now rewrite <- upto_scal.
  Qed.
  Lemma S4_d4 a (f : tensor4) : (a < R)%nat -> S4 (fun p q s t => dl a t * f p q s t) = S3 (fun p q s => f p q s a).
  Proof. intro H. unfold S4, S3. apply upto_ext. intros p _. apply upto_ext. intros q _. apply upto_ext. intros s _. now apply upto_delta. Qed.
  Lemma S3_d1 a (f : nat -> nat -> nat -> K) : (a < R)%nat -> S3 (fun p q s => dl a p * f p q s) = S2 (fun q s => f a q s).
  Proof.
    intro H. unfold S3, S2. rewrite <- (upto_delta K R a (fun p => upto R (fun q => upto R (fun s => f p q s))) H). apply upto_ext. intros.
    rewrite <- upto_scal. apply upto_ext. intros. now rewrite <- upto_scal.
  Qed.
  Lemma S3_d3 a (f : nat -> nat -> nat -> K) : (a < R)%nat -> S3 (fun p q s => dl a s * f p q s) = S2 (fun p q => f p q a).
  Proof. intro H. unfold S3, S2. apply upto_ext. intros p _. apply upto_ext. intros q _. now apply upto_delta. Qed.

  (** ** The residual as a sum over the Hamiltonian *)
  Lemma comm_sum (V : tensor4) i k j l : (forall p q s t, cconj (V p q s t) = V p q s t) ->
    residual_of R V psi i k j l = S4 (fun p q s t => V p q s t *
      (rw [(Cre, i); (Cre, k); (Ann, l); (Ann, j); (Cre, p); (Cre, q); (Ann, t); (Ann, s)] - rw [(Cre, p); (Cre, q); (Ann, t); (Ann, s); (Cre, i); (Cre, k); (Ann, l); (Ann, j)])).
  Proof.
    intro HV. unfold residual_of, re_expect. change (re (expect R (comm R (excitation i k j l) (two_body R V)) psi) = S4 (fun p q s t => V p q s t *
      (rw [(Cre, i); (Cre, k); (Ann, l); (Ann, j); (Cre, p); (Cre, q); (Ann, t); (Ann, s)] - rw [(Cre, p); (Cre, q); (Ann, t); (Ann, s); (Cre, i); (Cre, k); (Ann, l); (Ann, j)]))).
    pose (M := fun p q s t : nat => madd (mscal (V p q s t) (fock_mat [(Cre, i); (Cre, k); (Ann, l); (Ann, j); (Cre, p); (Cre, q); (Ann, t); (Ann, s)]))
        (mscal (- V p q s t) (fock_mat [(Cre, p); (Cre, q); (Ann, t); (Ann, s); (Cre, i); (Cre, k); (Ann, l); (Ann, j)]))).
    rewrite (expect_ext K R _ (fun x y => upto R (fun p => upto R (fun q => upto R (fun s => upto R (fun t => M p q s t x y)))))).
    - rewrite (expect_upto K R R (fun p x y => upto R (fun q => upto R (fun s => upto R (fun t => M p q s t x y))))), re_upto. unfold S4. apply upto_ext. intros p _.
      rewrite (expect_upto K R R (fun q x y => upto R (fun s => upto R (fun t => M p q s t x y)))), re_upto. apply upto_ext. intros q _.
      rewrite (expect_upto K R R (fun s x y => upto R (fun t => M p q s t x y))), re_upto. apply upto_ext. intros s _.
      rewrite (expect_upto K R R (fun t => M p q s t)), re_upto. apply upto_ext. intros t _. unfold M. rewrite expect_madd, !expect_scal, re_add, !re_real by (rewrite ?cconj_opp, HV; reflexivity).
      unfold rw, ew. ring.
    - intros x y Hx Hy. unfold comm, two_body.
      assert (A : mmul R (excitation i k j l) (fun x y => upto R (fun p => upto R (fun q => upto R (fun s => upto R (fun t => V p q s t * excitation p q s t x y))))) x y =
        S4 (fun p q s t => V p q s t * @fock_mat K [(Cre, i); (Cre, k); (Ann, l); (Ann, j); (Cre, p); (Cre, q); (Ann, t); (Ann, s)] x y)).
      { unfold upto at 1. rewrite (mmul_over_r K R (seq 0 R) (fun p x y => upto R (fun q => upto R (fun s => upto R (fun t => V p q s t * excitation p q s t x y))))). unfold S4. apply upto_ext. intros p _.
        unfold upto at 1. rewrite (mmul_over_r K R (seq 0 R) (fun q x y => upto R (fun s => upto R (fun t => V p q s t * excitation p q s t x y)))). apply upto_ext. intros q _.
        unfold upto at 1. rewrite (mmul_over_r K R (seq 0 R) (fun s x y => upto R (fun t => V p q s t * excitation p q s t x y))). apply upto_ext. intros s _.
        unfold upto at 1. rewrite (mmul_over_r K R (seq 0 R) (fun t x y => V p q s t * excitation p q s t x y)). apply upto_ext. intros t _.
        assert (F := fock_mat_app K R [(Cre, i); (Cre, k); (Ann, l); (Ann, j)] [(Cre, p); (Cre, q); (Ann, t); (Ann, s)] x y Hx Hy). cbn [app] in F. rewrite F.
        unfold mmul. rewrite <- sumbits_scal. apply sumbits_ext. intros z _. unfold excitation. ring. }
      assert (B : mmul R (fun x y => upto R (fun p => upto R (fun q => upto R (fun s => upto R (fun t => V p q s t * excitation p q s t x y))))) (excitation i k j l) x y =
        S4 (fun p q s t => V p q s t * @fock_mat K [(Cre, p); (Cre, q); (Ann, t); (Ann, s); (Cre, i); (Cre, k); (Ann, l); (Ann, j)] x y)).
      { unfold upto at 1. rewrite (mmul_over_l K R (seq 0 R) (fun p x y => upto R (fun q => upto R (fun s => upto R (fun t => V p q s t * excitation p q s t x y))))). unfold S4. apply upto_ext. intros p _.
        unfold upto at 1. rewrite (mmul_over_l K R (seq 0 R) (fun q x y => upto R (fun s => upto R (fun t => V p q s t * excitation p q s t x y)))). apply upto_ext. intros q _.
        unfold upto at 1. rewrite (mmul_over_l K R (seq 0 R) (fun s x y => upto R (fun t => V p q s t * excitation p q s t x y))). apply upto_ext. intros s _.
        unfold upto at 1. rewrite (mmul_over_l K R (seq 0 R) (fun t x y => V p q s t * excitation p q s t x y)). apply upto_ext. intros t _.
        assert (F := fock_mat_app K R [(Cre, p); (Cre, q); (Ann, t); (Ann, s)] [(Cre, i); (Cre, k); (Ann, l); (Ann, j)] x y Hx Hy). cbn [app] in F. rewrite F.
        unfold mmul. rewrite <- sumbits_scal. apply sumbits_ext. intros z _. unfold excitation. ring. }
      rewrite A, B. change (upto R (fun p => upto R (fun q => upto R (fun s => upto R (fun t => M p q s t x y))))) with (S4 (fun p q s t => M p q s t x y)).
      match goal with |- S4 ?f - S4 ?g = _ => transitivity (S4 f + S4 (fun p q s t => - g p q s t)); [rewrite S4_opp; ring|] end.
      rewrite <- S4_add. apply S4_ext. intros p q s t _ _ _ _. unfold M, madd, mscal. ring.
  Qed.

  Notation D2 a b c d := (rw [(Cre, a); (Cre, b); (Ann, d); (Ann, c)]).
  Notation D3 a b c d e f := (rw [(Cre, a); (Cre, b); (Cre, c); (Ann, f); (Ann, e); (Ann, d)]).
  Lemma D2_adj a b c d : D2 a b c d = D2 c d a b.
  Proof. exact (rw_adj [(Cre, c); (Cre, d); (Ann, b); (Ann, a)]). Qed.
  Theorem residual_value (V : tensor4) i k j l : real_symmetric V -> (i < R)%nat -> (k < R)%nat -> (j < R)%nat -> (l < R)%nat ->
    let W := antisymmetrised V in
    residual_of R V psi i k j l =
      - S2 (fun a b => D2 a b j l * W a b i k) + S2 (fun a b => D2 a b i k * W a b j l)
      + S3 (fun a r b => D3 a r k j l b * W a r i b) - S3 (fun a r b => D3 a r i j l b * W a r k b)
      - S3 (fun a r b => D3 i k a r b j * W a l r b) + S3 (fun a r b => D3 i k a r b l * W a j r b).
  Proof.
    intros [HR [HX HH]] Hi Hk Hj Hl W. rewrite comm_sum by exact HR.
    transitivity (S4 (fun p q s t =>
      dl j p * (dl l q * (V p q s t * D2 i k s t)) + - (dl l p * (dl j q * (V p q s t * D2 i k s t)))
      + - (dl i s * (dl k t * (V p q s t * D2 p q j l))) + dl k s * (dl i t * (V p q s t * D2 p q j l))
      + - (dl j p * (V p q s t * D3 i k q s t l)) + dl j q * (V p q s t * D3 i k p s t l)
      + dl l p * (V p q s t * D3 i k q s t j) + - (dl l q * (V p q s t * D3 i k p s t j))
      + dl i s * (V p q s t * D3 p q k j l t) + - (dl k s * (V p q s t * D3 p q i j l t))
      + - (dl i t * (V p q s t * D3 p q k j l s)) + dl k t * (V p q s t * D3 p q i j l s))).
    { apply S4_ext. intros p q s t Hp Hq Hs Ht. rewrite (order4 i k l j p q t s Hl Hj), (order4 p q t s i k l j Ht Hs), (eight i k l j p q t s).
      rewrite (dl_sym K s i), (dl_sym K t k), (dl_sym K s k), (dl_sym K t i). ring. }
    rewrite !S4_add, !S4_opp.
    rewrite (S4_d1 j (fun p q s t => dl l q * (V p q s t * D2 i k s t)) Hj), (S3_d1 l (fun q s t => V j q s t * D2 i k s t) Hl).
    rewrite (S4_d1 l (fun p q s t => dl j q * (V p q s t * D2 i k s t)) Hl), (S3_d1 j (fun q s t => V l q s t * D2 i k s t) Hj).
    rewrite (S4_d3 i (fun p q s t => dl k t * (V p q s t * D2 p q j l)) Hi), (S3_d3 k (fun p q t => V p q i t * D2 p q j l) Hk).
    rewrite (S4_d3 k (fun p q s t => dl i t * (V p q s t * D2 p q j l)) Hk), (S3_d3 i (fun p q t => V p q k t * D2 p q j l) Hi).
    rewrite (S4_d1 j (fun p q s t => V p q s t * D3 i k q s t l) Hj), (S4_d2 j (fun p q s t => V p q s t * D3 i k p s t l) Hj).
    rewrite (S4_d1 l (fun p q s t => V p q s t * D3 i k q s t j) Hl), (S4_d2 l (fun p q s t => V p q s t * D3 i k p s t j) Hl).
    rewrite (S4_d3 i (fun p q s t => V p q s t * D3 p q k j l t) Hi), (S4_d3 k (fun p q s t => V p q s t * D3 p q i j l t) Hk).
    rewrite (S4_d4 i (fun p q s t => V p q s t * D3 p q k j l s) Hi), (S4_d4 k (fun p q s t => V p q s t * D3 p q i j l s) Hk).
    assert (E1 : S2 (fun a b => D2 a b j l * W a b i k) = S2 (fun p q => V p q i k * D2 p q j l) + - S2 (fun p q => V p q k i * D2 p q j l)).
    { rewrite <- S2_opp, <- S2_add. apply S2_ext. intros. unfold W, antisymmetrised. ring. }
    assert (E2 : S2 (fun a b => D2 a b i k * W a b j l) = S2 (fun s t => V j l s t * D2 i k s t) + - S2 (fun s t => V l j s t * D2 i k s t)).
    { rewrite <- S2_opp, <- S2_add. apply S2_ext. intros. unfold W, antisymmetrised. rewrite (D2_adj p q i k), (HH p q j l), (HH p q l j). ring. }
    assert (E3 : forall x y, S3 (fun a r b => D3 a r y j l b * W a r x b) = S3 (fun p q t => V p q x t * D3 p q y j l t) + - S3 (fun p q s => V p q s x * D3 p q y j l s)).
    { intros x y. rewrite <- S3_opp, <- S3_add. apply S3_ext. intros. unfold W, antisymmetrised. ring. }
    assert (E4 : forall x y, S3 (fun a r b => D3 i k a r b y * W a x r b) = S3 (fun p s t => V p x s t * D3 i k p s t y) + - S3 (fun q s t => V x q s t * D3 i k q s t y)).
    { intros x y. rewrite <- S3_opp, <- S3_add. apply S3_ext. intros a r b _ _ _. unfold W, antisymmetrised. rewrite (HX x a r b). ring. }
    rewrite E1, E2, (E3 i k), (E3 k i), (E4 l j), (E4 j l). ring.
  Qed.
End ResProofs.
