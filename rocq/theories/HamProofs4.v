From Coq Require Import Bool List Arith Lia Setoid Morphisms.
From Verif Require Import Coeff MatSpec MatLemmas FockSpec OpSpec FermiModel FermiProofs AdjProofs
  CircuitSpec RdmSpec RdmFock TaperSpec TaperProofs TaperProofs2 HamModel HamSpec HamProofs HamProofs2 HamProofs3.
Import ListNotations.

Section Frozen.
  Variable K : CoefRing.
  Add Ring KRing : (c_ring K).
  Local Open Scope coef_scope.
  Notation tensor4 := (nat -> nat -> nat -> nat -> K).
  Notation dl := (delta K).
  Variables (R : nat) (psi : bits -> K).
  Definition ew (l : list (fop * nat)) : K := expect R (fock_mat l) psi.

  Lemma ew_car l b c m : (b < R)%nat -> ew (l ++ (Cre, c) :: (Ann, b) :: m) = dl b c * ew (l ++ m) - ew (l ++ (Ann, b) :: (Cre, c) :: m).
  Proof.
    intro Hb. unfold ew. rewrite (expect_ext K R (fock_mat (l ++ (Cre, c) :: (Ann, b) :: m)) (madd (mscal (dl b c) (fock_mat (l ++ m))) (mscal (- (1)) (fock_mat (l ++ (Ann, b) :: (Cre, c) :: m))))).
    - rewrite expect_madd, !expect_scal. ring.
    - intros x y Hx Hy. unfold madd, mscal. rewrite (car_word K R l b c m x y Hy Hb). ring.
  Qed.
  Lemma ew_swap o l a b m : (o = Cre \/ o = Ann) -> ew (l ++ (o, a) :: (o, b) :: m) = - ew (l ++ (o, b) :: (o, a) :: m).
  Proof.
    intro Ho. unfold ew. rewrite (expect_ext K R _ (mscal (- (1)) (fock_mat (l ++ (o, b) :: (o, a) :: m)))); [rewrite expect_scal; ring|].
    intros x y _ _. unfold mscal. rewrite (word_swap K o x l a b m y Ho). ring.
  Qed.
  Lemma ew_kill l o p : (forall y, length y = R -> psi y = 0 \/ fock1 o p y = None) -> ew (l ++ [(o, p)]) = 0.
  Proof.
    intro H. unfold ew, expect, mvec. rewrite (sumbits_ext _ _ _ (fun _ => 0 * 0)); [rewrite sumbits_scal; ring|]. intros x Hx.
    rewrite (sumbits_ext _ _ _ (fun _ => 0 * 0)); [rewrite sumbits_scal; ring|]. intros y Hy.
    destruct (H y Hy) as [E|E]; [rewrite E; ring|]. unfold fock_mat, pmap_mat. rewrite fock_app, fock_cons. cbn [fock bindo]. rewrite E. cbn. ring.
  Qed.
  Lemma fock1_cre_occ p y : nth p y false = true -> fock1 Cre p y = None.
  Proof. intro H. unfold fock1. rewrite (nth_error_nth' y false) by (destruct (Nat.lt_ge_cases p (length y)); [assumption|rewrite nth_overflow in H by assumption; discriminate]). rewrite H. reflexivity. Qed.
  Lemma fock1_ann_emp p y : nth p y false = false -> fock1 Ann p y = None.
  Proof.
    intro H. unfold fock1. destruct (nth_error y p) as [b|] eqn:E; [|reflexivity]. apply (nth_error_nth y p false) in E. rewrite E in H. subst b. reflexivity.
  Qed.

  Variables (core virt : list nat) (r : nat) (m : nat -> nat).
  Hypothesis split_all : forall f : nat -> K, upto R f = over core f + upto r (fun i => f (m i)) + over virt f.
  Hypothesis core_R : forall p, In p core -> (p < R)%nat.
  Hypothesis act_R : forall i, (i < r)%nat -> (m i < R)%nat.
  Hypothesis disj : forall i, (i < r)%nat -> ~ In (m i) core.
  Hypothesis core_occ : forall p x, In p core -> length x = R -> nth p x false = false -> psi x = 0.
  Hypothesis virt_emp : forall p x, In p virt -> length x = R -> nth p x false = true -> psi x = 0.
  Hypothesis norm : expect R mone psi = 1.

  Notation D1 p q := (rdm_of R psi [p] [q]).
  Notation D2 p t q s := (rdm_of R psi [p; t] [q; s]).
  Lemma kill_core l p : In p core -> ew (l ++ [(Cre, p)]) = 0.
  Proof. intro Hp. apply ew_kill. intros y Hy. destruct (nth p y false) eqn:E; [right; now apply fock1_cre_occ|left; now apply (core_occ p)]. Qed.
  Lemma kill_virt l p : In p virt -> ew (l ++ [(Ann, p)]) = 0.
  Proof. intro Hp. apply ew_kill. intros y Hy. destruct (nth p y false) eqn:E; [left; now apply (virt_emp p)|right; now apply fock1_ann_emp]. Qed.
  Lemma dl_sym a b : dl a b = dl b a.
  Proof. unfold delta. now rewrite Nat.eqb_sym. Qed.
  Lemma dl_conj a b : cconj (dl a b) = dl a b.
  Proof. unfold delta. destruct (Nat.eqb a b); [apply cconj_1|apply cconj_0]. Qed.
  Lemma ew_nil : ew [] = 1.
  Proof. unfold ew. rewrite <- norm. apply expect_ext. apply fock_mat_nil. Qed.
  Lemma D1_core p q : In p core -> (q < R)%nat -> D1 p q = dl p q.
  Proof.
    intros Hp Hq. change (ew [(Cre, p); (Ann, q)] = dl p q). assert (A := ew_car [] q p [] Hq). cbn [app] in A. rewrite A, ew_nil.
    assert (B := kill_core [(Ann, q)] p Hp). cbn [app] in B. rewrite B, dl_sym. ring.
  Qed.
  Lemma D1_virt p q : In q virt -> D1 p q = 0.
  Proof. intro Hq. exact (kill_virt [(Cre, p)] q Hq). Qed.
  Lemma D1_virt' p q : In p virt -> D1 p q = 0.
  Proof. intro Hq. rewrite (rdm_herm K R psi [q] [p]), D1_virt by assumption. apply cconj_0. Qed.
  Lemma D2_core p t q s : In p core -> (q < R)%nat -> (s < R)%nat -> D2 p t q s = dl p q * D1 t s - dl p s * D1 t q.
  Proof.
    intros Hp Hq Hs. change (ew [(Cre, p); (Cre, t); (Ann, s); (Ann, q)] = dl p q * ew [(Cre, t); (Ann, s)] - dl p s * ew [(Cre, t); (Ann, q)]).
    assert (A := ew_swap Cre [] p t [(Ann, s); (Ann, q)] ltac:(auto)). cbn [app] in A.
    assert (B := ew_car [(Cre, t)] s p [(Ann, q)] Hs). cbn [app] in B. assert (C := ew_car [(Cre, t); (Ann, s)] q p [] Hq). cbn [app] in C.
    assert (E := kill_core [(Cre, t); (Ann, s); (Ann, q)] p Hp). cbn [app] in E. rewrite A, B, C, E, (dl_sym s p), (dl_sym q p). ring.
  Qed.
  Lemma D2_core_r p t q s : In t core -> (q < R)%nat -> (s < R)%nat -> D2 p t q s = dl t s * D1 p q - dl t q * D1 p s.
  Proof. intros Ht Hq Hs. rewrite (D_swap_both K R psi t p s q). now apply D2_core. Qed.
  Lemma D2_core_q p t q s : In q core -> (p < R)%nat -> (t < R)%nat -> D2 p t q s = dl q p * D1 t s - dl q t * D1 p s.
  Proof.
    intros Hq Hp Ht. rewrite (rdm_herm K R psi [q; s] [p; t]), (D2_core q s p t Hq Hp Ht).
    replace (dl q p * D1 s t - dl q t * D1 s p) with (dl q p * D1 s t + - (dl q t * D1 s p)) by ring.
    rewrite cconj_add, cconj_opp, !cconj_mul, !dl_conj, <- !rdm_herm. ring.
  Qed.
  Lemma D2_core_s p t q s : In s core -> (p < R)%nat -> (t < R)%nat -> D2 p t q s = dl s t * D1 p q - dl s p * D1 t q.
  Proof. intros Hs Hp Ht. rewrite (D_swap_both K R psi t p s q). now apply D2_core_q. Qed.
  Lemma D2_virt_q p t q s : In q virt -> D2 p t q s = 0.
  Proof. intro Hq. exact (kill_virt [(Cre, p); (Cre, t); (Ann, s)] q Hq). Qed.
  Lemma D2_virt_s p t q s : In s virt -> D2 p t q s = 0.
  Proof. intro H. rewrite (D_swap_both K R psi t p s q). now apply D2_virt_q. Qed.
  Lemma D2_virt_p p t q s : In p virt -> D2 p t q s = 0.
  Proof. intro H. rewrite (rdm_herm K R psi [q; s] [p; t]), D2_virt_q by assumption. apply cconj_0. Qed.
  Lemma D2_virt_t p t q s : In t virt -> D2 p t q s = 0.
  Proof. intro H. rewrite (rdm_herm K R psi [q; s] [p; t]), D2_virt_s by assumption. apply cconj_0. Qed.
  Lemma over_zero {A} (l : list A) (f : A -> K) : (forall x, In x l -> f x = 0) -> over l f = 0.
  Proof. intro H. rewrite (over_ext K l f (fun _ => 0) H). apply over_0. Qed.
  Lemma dl_ca i c : (i < r)%nat -> In c core -> dl c (m i) = 0.
  Proof. intros Hi Hc. unfold delta. destruct (Nat.eqb_spec c (m i)) as [E|E]; [|reflexivity]. exfalso. apply (disj i Hi). now rewrite <- E. Qed.

  (** ** One-body sums *)
  Lemma act_row (g : nat -> K) i : (i < r)%nat -> upto R (fun q => g q * D1 (m i) q) = upto r (fun j => g (m j) * D1 (m i) (m j)).
  Proof.
    intro Hi. rewrite split_all. rewrite (over_zero core), (over_zero virt); [ring| |].
    - intros q Hq. rewrite D1_virt by assumption. ring.
    - intros q Hq. rewrite (rdm_herm K R psi [q] [m i]), D1_core, (dl_ca i q Hi Hq), cconj_0 by auto. ring.
  Qed.
  Lemma one_body_sum (g : nat -> nat -> K) : upto R (fun p => upto R (fun q => g p q * D1 p q)) =
    over core (fun c => g c c) + upto r (fun i => upto r (fun j => g (m i) (m j) * D1 (m i) (m j))).
  Proof.
    rewrite split_all. rewrite (over_zero virt); [|intros p Hp; apply over_zero; intros q _; rewrite D1_virt' by assumption; ring].
    transitivity (over core (fun c => g c c) + upto r (fun i => upto r (fun j => g (m i) (m j) * D1 (m i) (m j))) + 0); [|ring]. f_equal. f_equal.
    - apply over_ext. intros c Hc. rewrite (upto_ext K R _ (fun q => dl c q * g c q)) by (intros q Hq; rewrite D1_core by assumption; ring). apply upto_delta. auto.
    - apply upto_ext. intros i Hi. now apply act_row.
  Qed.
  Lemma act_core (V : tensor4) i : (i < r)%nat ->
    over core (fun t => upto R (fun q => upto R (fun s => V (m i) t q s * D2 (m i) t q s))) =
    over core (fun c => upto r (fun j => (V (m i) c (m j) c - V (m i) c c (m j)) * D1 (m i) (m j))).
  Proof.
    intro Hi. apply over_ext. intros c Hc.
    rewrite <- (act_row (fun q => V (m i) c q c - V (m i) c c q) i Hi).
    transitivity (upto R (fun q => V (m i) c q c * D1 (m i) q + - (1) * (dl c q * upto R (fun s => V (m i) c q s * D1 (m i) s)))).
    - apply upto_ext. intros q Hq. rewrite <- upto_scal.
      rewrite (upto_ext K R (fun s => V (m i) c q s * D2 (m i) c q s) (fun s => dl c s * (V (m i) c q s * D1 (m i) q) + - (1) * (dl c q * (V (m i) c q s * D1 (m i) s)))) by (intros s Hs; rewrite D2_core_r by assumption; ring).
      rewrite upto_add, (upto_scal K R (- (1)) (fun s => dl c q * (V (m i) c q s * D1 (m i) s))). rewrite (upto_delta K R c (fun s => V (m i) c q s * D1 (m i) q)) by auto. reflexivity.
    - rewrite upto_add, (upto_scal K R (- (1)) (fun q => dl c q * upto R (fun s => V (m i) c q s * D1 (m i) s))).
      rewrite (upto_delta K R c (fun q => upto R (fun s => V (m i) c q s * D1 (m i) s))) by auto. rewrite <- upto_scal, <- upto_add. apply upto_ext. intros q _. ring.
  Qed.
  Lemma act_act (V : tensor4) i : (i < r)%nat ->
    upto r (fun k => upto R (fun q => upto R (fun s => V (m i) (m k) q s * D2 (m i) (m k) q s))) =
    upto r (fun k => upto r (fun j => upto r (fun l => V (m i) (m k) (m j) (m l) * D2 (m i) (m k) (m j) (m l)))).
  Proof.
    intro Hi. apply upto_ext. intros k Hk. rewrite split_all. rewrite (over_zero core), (over_zero virt).
    - transitivity (upto r (fun j => upto R (fun s => V (m i) (m k) (m j) s * D2 (m i) (m k) (m j) s))); [ring|].
      apply upto_ext. intros j Hj. rewrite split_all. rewrite (over_zero core), (over_zero virt); [ring| |].
      + intros s Hs. rewrite D2_virt_s by assumption. ring.
      + intros s Hs. rewrite D2_core_s, !dl_ca by auto. ring.
    - intros q Hq. apply over_zero. intros s _. rewrite D2_virt_q by assumption. ring.
    - intros q Hq. apply over_zero. intros s _. rewrite D2_core_q, !dl_ca by auto. ring.
  Qed.
  Lemma two_body_sum (V : tensor4) :
    upto R (fun p => upto R (fun t => upto R (fun q => upto R (fun s => V p t q s * D2 p t q s)))) =
    over core (fun c => over core (fun d => V c d c d - V c d d c)) +
    over core (fun c => upto r (fun i => upto r (fun j => (V c (m i) c (m j) - V c (m i) (m j) c) * D1 (m i) (m j)))) +
    over core (fun c => upto r (fun i => upto r (fun j => (V (m i) c (m j) c - V (m i) c c (m j)) * D1 (m i) (m j)))) +
    upto r (fun i => upto r (fun k => upto r (fun j => upto r (fun l => V (m i) (m k) (m j) (m l) * D2 (m i) (m k) (m j) (m l))))).
  Proof.
    rewrite split_all. rewrite (over_zero virt); [|intros p Hp; apply over_zero; intros t _; apply over_zero; intros q _; apply over_zero; intros s _; rewrite D2_virt_p by assumption; ring].
    assert (C : over core (fun p => upto R (fun t => upto R (fun q => upto R (fun s => V p t q s * D2 p t q s)))) =
       over core (fun c => over core (fun d => V c d c d - V c d d c)) + over core (fun c => upto r (fun i => upto r (fun j => (V c (m i) c (m j) - V c (m i) (m j) c) * D1 (m i) (m j))))).
    { rewrite <- over_add. apply over_ext. intros c Hc.
      transitivity (upto R (fun t => upto R (fun s => (V c t c s - V c t s c) * D1 t s))); [|apply (one_body_sum (fun t s => V c t c s - V c t s c))].
      apply upto_ext. intros t Ht.
      transitivity (upto R (fun q => dl c q * upto R (fun s => V c t q s * D1 t s) + - (V c t q c * D1 t q))).
      { apply upto_ext. intros q Hq. rewrite <- upto_scal.
        rewrite (upto_ext K R (fun s => V c t q s * D2 c t q s) (fun s => dl c q * (V c t q s * D1 t s) + - (1) * (dl c s * (V c t q s * D1 t q)))) by (intros s Hs; rewrite D2_core by assumption; ring).
        rewrite upto_add. f_equal. rewrite (upto_scal K R (- (1)) (fun s => dl c s * (V c t q s * D1 t q))). rewrite (upto_delta K R c (fun s => V c t q s * D1 t q)) by auto. ring. }
      rewrite upto_add. rewrite (upto_delta K R c (fun q => upto R (fun s => V c t q s * D1 t s))) by auto. rewrite <- upto_add. apply upto_ext. intros s _. ring. }
    rewrite C. clear C.
    assert (A : upto r (fun i => upto R (fun t => upto R (fun q => upto R (fun s => V (m i) t q s * D2 (m i) t q s)))) =
      over core (fun c => upto r (fun i => upto r (fun j => (V (m i) c (m j) c - V (m i) c c (m j)) * D1 (m i) (m j)))) +
      upto r (fun i => upto r (fun k => upto r (fun j => upto r (fun l => V (m i) (m k) (m j) (m l) * D2 (m i) (m k) (m j) (m l)))))).
    { unfold upto at 5. rewrite over_swap. fold (upto r (fun i => over core (fun c => upto r (fun j => (V (m i) c (m j) c - V (m i) c c (m j)) * D1 (m i) (m j))))).
      rewrite <- upto_add. apply upto_ext. intros i Hi. rewrite split_all.
      rewrite (over_zero virt); [|intros t Ht; apply over_zero; intros q _; apply over_zero; intros s _; rewrite D2_virt_t by assumption; ring].
      rewrite (act_core V i Hi), (act_act V i Hi). ring. }
    rewrite A. ring.
  Qed.
  (** ** The energy of the frozen-core state *)
  Lemma over_upto (l : list nat) n (f : nat -> nat -> K) : over l (fun c => upto n (fun i => f c i)) = upto n (fun i => over l (fun c => f c i)).
  Proof. apply over_swap. Qed.
  Definition hcore (h : nat -> nat -> K) (V : tensor4) (p q : nat) : K := h p q + over core (fun c => V p c q c + - V p c c q).
  Lemma frozen_energy (h : nat -> nat -> K) (V : tensor4) : (forall a b c d, V a b c d = V b a d c) ->
    expect R (ham R h V) psi = over core (fun c => h c c + over core (fun d => chalf * V c d c d + - (chalf * V c d d c))) +
      upto r (fun i => upto r (fun j => hcore h V (m i) (m j) * D1 (m i) (m j))) +
      chalf * upto r (fun i => upto r (fun k => upto r (fun j => upto r (fun l => V (m i) (m k) (m j) (m l) * D2 (m i) (m k) (m j) (m l))))).
  Proof.
    intro Sx. rewrite expect_ham, one_body_sum, two_body_sum.
    set (A := over core (fun c => over core (fun d => V c d c d - V c d d c))).
    set (X := over core (fun c => upto r (fun i => upto r (fun j => (V (m i) c (m j) c - V (m i) c c (m j)) * D1 (m i) (m j))))).
    set (Z := upto r (fun i => upto r (fun k => upto r (fun j => upto r (fun l => V (m i) (m k) (m j) (m l) * D2 (m i) (m k) (m j) (m l)))))).
    assert (E : over core (fun c => upto r (fun i => upto r (fun j => (V c (m i) c (m j) - V c (m i) (m j) c) * D1 (m i) (m j)))) = X).
    { unfold X. apply over_ext. intros c _. apply upto_ext. intros i _. apply upto_ext. intros j _. rewrite (Sx c (m i) c (m j)), (Sx c (m i) (m j) c). reflexivity. }
    rewrite E. clear E.
    assert (E1 : over core (fun c => h c c + over core (fun d => chalf * V c d c d + - (chalf * V c d d c))) = over core (fun c => h c c) + chalf * A).
    { rewrite over_add. f_equal. unfold A. rewrite <- over_scal. apply over_ext. intros c _. rewrite <- over_scal. apply over_ext. intros d _. ring. }
    rewrite E1.
    assert (E2 : upto r (fun i => upto r (fun j => hcore h V (m i) (m j) * D1 (m i) (m j))) = upto r (fun i => upto r (fun j => h (m i) (m j) * D1 (m i) (m j))) + X).
    { unfold X. rewrite (over_upto core r (fun c i => upto r (fun j => (V (m i) c (m j) c - V (m i) c c (m j)) * D1 (m i) (m j)))). rewrite <- upto_add. apply upto_ext. intros i _.
      rewrite (over_upto core r (fun c j => (V (m i) c (m j) c - V (m i) c c (m j)) * D1 (m i) (m j))). rewrite <- upto_add. apply upto_ext. intros j _.
      unfold hcore. rewrite (over_ext K core (fun c => (V (m i) c (m j) c - V (m i) c c (m j)) * D1 (m i) (m j)) (fun c => D1 (m i) (m j) * (V (m i) c (m j) c + - V (m i) c c (m j)))) by (intros; ring).
      rewrite over_scal. ring. }
    rewrite E2.
    transitivity (over core (fun c => h c c) + upto r (fun i => upto r (fun j => h (m i) (m j) * D1 (m i) (m j))) + chalf * A + (chalf * X + chalf * X) + chalf * Z); [ring|].
    rewrite (two_half K X). ring.
  Qed.
  Lemma ofnat_add a b : @ofnat K (a + b) = ofnat a + ofnat b.
  Proof. induction a as [|a IH]; cbn; [ring|rewrite IH; ring]. Qed.
  Lemma over_const (l : list nat) (x : K) : over l (fun _ => x) = ofnat (length l) * x.
  Proof. induction l as [|a l IH]; cbn; [ring|]. change (fold_right (fun _ s => x + s) 0 l) with (over l (fun _ => x)). rewrite IH. ring. Qed.
  Lemma act_contract Ne_as i j : has_particles R (Ne_as + length core) psi -> (1 <= Ne_as)%nat -> (i < r)%nat -> (j < r)%nat ->
    upto r (fun k => D2 (m j) (m k) (m i) (m k)) = ofnat (Ne_as - 1) * D1 (m j) (m i).
  Proof.
    intros HP H1 Hi Hj. assert (A := contract2 K R _ psi (m j) (m i) HP). rewrite split_all in A.
    rewrite (over_zero virt) in A by (intros k Hk; now apply D2_virt_t).
    rewrite (over_ext K core _ (fun _ => D1 (m j) (m i))) in A.
    2:{ intros c Hc. rewrite D2_core_r by auto. rewrite (dl_ca i c Hi Hc). unfold delta. rewrite Nat.eqb_refl. ring. }
    rewrite over_const in A. replace (Ne_as + length core - 1)%nat with ((Ne_as - 1) + length core)%nat in A by lia. rewrite ofnat_add in A.
    transitivity ((ofnat (length core) * D1 (m j) (m i) + upto r (fun k => D2 (m j) (m k) (m i) (m k)) + 0) - ofnat (length core) * D1 (m j) (m i)); [ring|]. rewrite A. ring.
  Qed.
  Lemma active_value Ne_as (w : K) (g : nat -> nat -> K) (W : tensor4) : has_particles R (Ne_as + length core) psi -> (1 <= Ne_as)%nat ->
    (1 + 1 + 1 + 1) * w * ofnat (Ne_as - 1) = 1 ->
    observable r (apply_all (flat_map (fun i => flat_map (fun j => flat_map (fun k => one_body (g i j * w) i j k ++ map (fun l => ((i, k, j, l), chalf * W i k j l)) (seq 0 r)) (seq 0 r)) (seq 0 r)) (seq 0 r)) (fun _ _ _ _ => 0))
      (fun a b c d => D2 (m a) (m b) (m c) (m d)) =
    upto r (fun i => upto r (fun j => g j i * D1 (m i) (m j))) + chalf * upto r (fun i => upto r (fun k => upto r (fun j => upto r (fun l => W j l i k * D2 (m i) (m k) (m j) (m l))))).
  Proof.
    intros HP H1 Hw. rewrite observable_apply.
    2:{ intros a b c d v Hi. apply in_flat_map in Hi. destruct Hi as [i [Hi H]]. apply in_flat_map in H. destruct H as [j [Hj H]]. apply in_flat_map in H. destruct H as [k [Hk H]].
        apply in_seq in Hi, Hj, Hk. apply in_app_iff in H. destruct H as [H|H]; [destruct H as [E|[E|[E|[E|[]]]]]; injection E; intros; subst; lia|].
        apply in_map_iff in H. destruct H as [l [E Hl]]. apply in_seq in Hl. injection E; intros; subst; lia. }
    rewrite observable_eq. rewrite (upto_ext K r (fun i => upto r (fun k => upto r (fun j => upto r (fun l => 0 * D2 (m j) (m l) (m i) (m k))))) (fun i => 0 * 0)).
    2:{ intros i _. rewrite (upto_ext K r _ (fun k => 0 * 0)); [rewrite upto_scal; ring|]. intros k _. rewrite (upto_ext K r _ (fun j => 0 * 0)); [rewrite upto_scal; ring|]. intros j _. rewrite upto_scal. ring. }
    rewrite upto_scal, over_flat_map. fold (upto r (fun x => over (flat_map (fun j => flat_map (fun k => one_body (g x j * w) x j k ++ map (fun l => ((x, k, j, l), chalf * W x k j l)) (seq 0 r)) (seq 0 r)) (seq 0 r)) (fun u => let '(a, b, c, d, v) := u in v * D2 (m c) (m d) (m a) (m b)))).
    transitivity (upto r (fun i => upto r (fun j => g i j * D1 (m j) (m i) + upto r (fun k => upto r (fun l => chalf * W i k j l * D2 (m j) (m l) (m i) (m k)))))).
    { transitivity (upto r (fun i => over (flat_map (fun j => flat_map (fun k => one_body (g i j * w) i j k ++ map (fun l => ((i, k, j, l), chalf * W i k j l)) (seq 0 r)) (seq 0 r)) (seq 0 r)) (fun u => let '(a, b, c, d, v) := u in v * D2 (m c) (m d) (m a) (m b)))); [ring|].
      apply upto_ext. intros i Hi. rewrite over_flat_map. apply over_ext. intros j Hj. apply in_seq in Hj. rewrite over_flat_map.
      rewrite (over_ext K (seq 0 r) _ (fun k => (1 + 1 + 1 + 1) * (g i j * w) * D2 (m j) (m k) (m i) (m k) + upto r (fun l => chalf * W i k j l * D2 (m j) (m l) (m i) (m k)))).
      2:{ intros k _. rewrite over_app, (one_body_value K m R psi), over_map. reflexivity. }
      rewrite over_add, over_scal. fold (upto r (fun k => D2 (m j) (m k) (m i) (m k))). rewrite (act_contract Ne_as i j HP H1 Hi) by lia. unfold upto at 1. f_equal.
      transitivity (((1 + 1 + 1 + 1) * w * ofnat (Ne_as - 1)) * (g i j * D1 (m j) (m i))); [ring|rewrite Hw; ring]. }
    rewrite upto_swap.
    transitivity (upto r (fun i => upto r (fun j => g j i * D1 (m i) (m j))) + upto r (fun i => upto r (fun j => upto r (fun k => upto r (fun l => chalf * W j k i l * D2 (m i) (m l) (m j) (m k)))))).
    { rewrite <- upto_add. apply upto_ext. intros i _. rewrite <- upto_add. reflexivity. }
    f_equal. rewrite <- upto_scal. apply upto_ext. intros i _. rewrite <- upto_scal.
    transitivity (upto r (fun j => upto r (fun l => upto r (fun k => chalf * W j k i l * D2 (m i) (m l) (m j) (m k))))).
    { apply upto_ext. intros j _. apply upto_swap. }
    rewrite upto_swap. apply upto_ext. intros k _. rewrite <- upto_scal. apply upto_ext. intros j _. rewrite <- upto_scal. apply upto_ext. intros l _. ring.
  Qed.
End Frozen.

Section Active.
  Variable K : CoefRing.
  Add Ring KRing2 : (c_ring K).
  Local Open Scope coef_scope.
  Notation tensor4 := (nat -> nat -> nat -> nat -> K).
  Lemma core_1e_eq core (h : nat -> nat -> K) (V : tensor4) p q : core_1e core h V p q = hcore K core h V p q.
  Proof.
    unfold core_1e, hcore. assert (G : forall l x, fold_left (fun x c => x + V p c q c + - V p c c q) l x = x + over l (fun c => V p c q c + - V p c c q)).
    { induction l as [|a l IH]; intro x; cbn; [ring|]. rewrite IH. unfold over. ring. }
    rewrite G. ring.
  Qed.
  Lemma core_energy_eq No_core No_tot (h : nat -> nat -> K) (V : tensor4) : core_energy No_core No_tot h V =
    over (alpha_inactive No_core ++ beta_inactive No_core No_tot) (fun c => h c c + over (alpha_inactive No_core ++ beta_inactive No_core No_tot) (fun d => chalf * V c d c d + - (chalf * V c d d c))).
  Proof.
    unfold core_energy. set (core := alpha_inactive No_core ++ beta_inactive No_core No_tot).
    assert (I : forall i l x, fold_left (fun x j => x + chalf * V i j i j + - (chalf * V i j j i)) l x = x + over l (fun d => chalf * V i d i d + - (chalf * V i d d i))).
    { intro i. induction l as [|a l IH]; intro x; cbn; [ring|]. rewrite IH. unfold over. ring. }
    assert (G : forall l x, fold_left (fun x i => fold_left (fun x j => x + chalf * V i j i j + - (chalf * V i j j i)) core (x + h i i)) l x =
       x + over l (fun c => h c c + over core (fun d => chalf * V c d c d + - (chalf * V c d d c)))).
    { induction l as [|a l IH]; intro x; cbn [fold_left]; [cbn; ring|]. rewrite IH, I. unfold over. cbn [fold_right]. ring. }
    rewrite G. ring.
  Qed.
  Definition virtuals (No_as No_core No_tot : nat) : list nat :=
    seq (No_core + No_as) (No_tot - No_core - No_as) ++ seq (No_core + No_as + No_tot) (No_tot - No_core - No_as).
  Lemma seq_shift_map a : forall n s, map (fun i => (i + a)%nat) (seq s n) = seq (s + a) n.
  Proof. induction n as [|n IH]; intro s; cbn; [reflexivity|]. now rewrite IH. Qed.
  Lemma split_modes No_as No_core No_tot (f : nat -> K) : (No_core + No_as <= No_tot)%nat ->
    upto (2 * No_tot) f = over (alpha_inactive No_core ++ beta_inactive No_core No_tot) f + upto (2 * No_as) (fun i => f (orb No_as No_core No_tot i)) + over (virtuals No_as No_core No_tot) f.
  Proof.
    intro H. rewrite <- (over_map K (orb No_as No_core No_tot) (seq 0 (2 * No_as)) f : _ = upto _ _), <- orbs_eq.
    unfold virtuals, alpha_inactive, beta_inactive, alpha_active, beta_active. rewrite !over_app.
    rewrite (seq_shift_map No_tot), (seq_shift_map No_core). rewrite (map_ext (fun i => (i + No_core + No_tot)%nat) (fun i => (i + (No_core + No_tot))%nat)) by (intro; lia). rewrite seq_shift_map.
    unfold upto. replace (2 * No_tot)%nat with (No_core + (No_as + ((No_tot - No_core - No_as) + (No_core + (No_as + (No_tot - No_core - No_as))))))%nat by lia.
    rewrite !seq_app, !over_app. cbn [Nat.add].
    replace (No_core + No_as + (No_tot - No_core - No_as))%nat with No_tot by lia. replace (No_tot + No_core)%nat with (No_core + No_tot)%nat by lia. replace (No_core + No_tot + No_as)%nat with (No_core + No_as + No_tot)%nat by lia. ring.
  Qed.
  Theorem active_energy No_as No_core No_tot Ne_as (w : K) (h : nat -> nat -> K) (V : tensor4) (psi : bits -> K) :
    (No_core + No_as <= No_tot)%nat -> (1 <= Ne_as)%nat -> (1 + 1 + 1 + 1) * w * ofnat (Ne_as - 1) = 1 ->
    (forall p q, h p q = h q p) -> (forall p r q s, V p r q s = V q s p r) -> (forall p r q s, V p r q s = V r p s q) ->
    has_particles (2 * No_tot) (Ne_as + 2 * No_core) psi -> expect (2 * No_tot) mone psi = 1 ->
    (forall p x, In p (alpha_inactive No_core ++ beta_inactive No_core No_tot) -> length x = (2 * No_tot)%nat -> nth p x false = false -> psi x = 0) ->
    (forall p x, In p (virtuals No_as No_core No_tot) -> length x = (2 * No_tot)%nat -> nth p x false = true -> psi x = 0) ->
    core_energy No_core No_tot h V + observable (2 * No_as) (build_K2_active No_as No_core No_tot w h V)
       (fun a b c d => rdm_of (2 * No_tot) psi [orb No_as No_core No_tot a; orb No_as No_core No_tot b] [orb No_as No_core No_tot c; orb No_as No_core No_tot d]) =
    expect (2 * No_tot) (ham (2 * No_tot) h V) psi.
  Proof.
    intros HT HN Hw Hh HV1 HV2 HP Hn Hc Hv. set (R := (2 * No_tot)%nat) in *. set (core := alpha_inactive No_core ++ beta_inactive No_core No_tot) in *. set (m := orb No_as No_core No_tot).
    assert (LC : length core = (2 * No_core)%nat) by (unfold core, alpha_inactive, beta_inactive; rewrite app_length, map_length, !seq_length; lia).
    assert (IC : forall p, In p core -> ((p < No_core) \/ (No_tot <= p < No_tot + No_core))%nat).
    { intros p Hp. unfold core, alpha_inactive, beta_inactive in Hp. apply in_app_iff in Hp. destruct Hp as [Hp|Hp]; [apply in_seq in Hp; lia|]. apply in_map_iff in Hp. destruct Hp as [i [<- Hi]]. apply in_seq in Hi. lia. }
    assert (SP := split_modes No_as No_core No_tot). 
    assert (AR : forall i, (i < 2 * No_as)%nat -> (m i < R)%nat) by (intros i Hi; unfold m; apply orb_lt; unfold R; lia).
    assert (DJ : forall i, (i < 2 * No_as)%nat -> ~ In (m i) core).
    { intros i Hi Hin. apply IC in Hin. unfold m, orb in Hin. destruct (Nat.ltb_spec i No_as); lia. }
    assert (CR : forall p, In p core -> (p < R)%nat) by (intros p Hp; apply IC in Hp; unfold R; lia).
    rewrite <- LC in HP.
    rewrite (frozen_energy K R psi core (virtuals No_as No_core No_tot) (2 * No_as) m (fun f => SP f HT) CR AR DJ Hc Hv Hn h V HV2).
    rewrite core_energy_eq. fold core.
    set (g := fun i j => hcore K core h V (m i) (m j)). set (W := fun i k j l => V (m i) (m k) (m j) (m l)).
    assert (E : build_K2_active No_as No_core No_tot w h V = apply_all (flat_map (fun i => flat_map (fun j => flat_map (fun k => one_body (g i j * w) i j k ++ map (fun l => ((i, k, j, l), chalf * W i k j l)) (seq 0 (2 * No_as))) (seq 0 (2 * No_as))) (seq 0 (2 * No_as))) (seq 0 (2 * No_as))) (fun _ _ _ _ => 0)).
    { unfold build_K2_active. fold core. rewrite orbs_eq. f_equal. 
      assert (FE : forall A B (f f' : A -> list B) l, (forall x, In x l -> f x = f' x) -> flat_map f l = flat_map f' l).
      { intros A B f f' l. induction l as [|x l IH]; intro Hl; cbn; [reflexivity|]. rewrite Hl by now left. f_equal. apply IH. intros; apply Hl; now right. }
      assert (NM : forall i, In i (seq 0 (2 * No_as)) -> nth i (map (orb No_as No_core No_tot) (seq 0 (2 * No_as))) 0%nat = m i).
      { intros i Hi. apply in_seq in Hi. rewrite (nth_indep _ 0%nat (orb No_as No_core No_tot 0)) by (rewrite map_length, seq_length; lia). rewrite map_nth, seq_nth by lia. reflexivity. }
      apply FE. intros i Hi. apply FE. intros j Hj. apply FE. intros k Hk. rewrite !NM by assumption. f_equal; [unfold g; now rewrite core_1e_eq|].
      apply map_ext_in. intros l Hl. rewrite NM by assumption. reflexivity. }
    rewrite E.
    rewrite (active_value K R psi core (virtuals No_as No_core No_tot) (2 * No_as) m (fun f => SP f HT) CR AR DJ Hc Hv Ne_as w g W HP HN Hw).
    assert (Eh : forall p q, hcore K core h V p q = hcore K core h V q p).
    { intros p q. unfold hcore. rewrite (Hh p q). f_equal. apply over_ext. intros c _. rewrite (HV1 p c q c). f_equal. f_equal. rewrite (HV1 p c c q). apply HV2. }
    assert (E1 : upto (2 * No_as) (fun i => upto (2 * No_as) (fun j => g j i * rdm_of R psi [m i] [m j])) = upto (2 * No_as) (fun i => upto (2 * No_as) (fun j => hcore K core h V (m i) (m j) * rdm_of R psi [m i] [m j]))).
    { apply upto_ext. intros i _. apply upto_ext. intros j _. unfold g. now rewrite Eh. }
    rewrite E1.
    assert (E2 : upto (2 * No_as) (fun i => upto (2 * No_as) (fun k => upto (2 * No_as) (fun j => upto (2 * No_as) (fun l => W j l i k * rdm_of R psi [m i; m k] [m j; m l])))) =
      upto (2 * No_as) (fun i => upto (2 * No_as) (fun k => upto (2 * No_as) (fun j => upto (2 * No_as) (fun l => V (m i) (m k) (m j) (m l) * rdm_of R psi [m i; m k] [m j; m l]))))).
    { apply upto_ext. intros i _. apply upto_ext. intros k _. apply upto_ext. intros j _. apply upto_ext. intros l _. unfold W. now rewrite HV1. }
    rewrite E2. ring.
  Qed.
End Active.
