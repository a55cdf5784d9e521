From Coq Require Import Bool List Arith Lia Setoid Morphisms.
From Verif Require Import Coeff MatSpec MatLemmas FockSpec OpSpec FermiModel FermiProofs AdjProofs
  CircuitSpec RdmSpec RdmFock TaperSpec TaperProofs TaperProofs2 HamModel HamSpec HamProofs HamProofs2.
Import ListNotations.

Section HamProofs3.
  Variable K : CoefRing.
  Add Ring KRing : (c_ring K).
  Local Open Scope coef_scope.
  Notation tensor4 := (nat -> nat -> nat -> nat -> K).
  Notation dl := (delta K).

  Lemma fold_over (l : list K) : fold_right cadd 0 l = over l (fun x => x).
  Proof. reflexivity. Qed.
  Lemma observable_eq r (H D : tensor4) : observable r H D = upto r (fun i => upto r (fun k => upto r (fun j => upto r (fun l => H i k j l * D j l i k)))).
  Proof.
    unfold observable, upto. rewrite fold_over, over_flat_map. apply over_ext. intros i _. rewrite over_flat_map. apply over_ext. intros k _.
    rewrite over_flat_map. apply over_ext. intros j _. rewrite over_map. reflexivity.
  Qed.
  Lemma upto_ext r (f g : nat -> K) : (forall i, (i < r)%nat -> f i = g i) -> upto r f = upto r g.
  Proof. intro H. apply over_ext. intros i Hi. apply in_seq in Hi. apply H. lia. Qed.
  Lemma upto_delta r a (f : nat -> K) : (a < r)%nat -> upto r (fun i => dl a i * f i) = f a.
  Proof.
    intro Ha. unfold upto. apply (over_delta_key K (fun i => i) (seq 0 r) f a); [rewrite map_id; apply seq_NoDup|apply in_seq; lia].
  Qed.
  Lemma upto_scal r x (f : nat -> K) : upto r (fun i => x * f i) = x * upto r f.
  Proof. apply over_scal. Qed.
  Lemma upto_add r (f g : nat -> K) : upto r (fun i => f i + g i) = upto r f + upto r g.
  Proof. apply over_add. Qed.
  Lemma upto_swap r r' (f : nat -> nat -> K) : upto r (fun i => upto r' (fun j => f i j)) = upto r' (fun j => upto r (fun i => f i j)).
  Proof. apply over_swap. Qed.

  Lemma observable_upd r a b c d v (t D : tensor4) : (a < r)%nat -> (b < r)%nat -> (c < r)%nat -> (d < r)%nat ->
    observable r (upd4 ((a, b, c, d), v) t) D = observable r t D + v * D c d a b.
  Proof.
    intros Ha Hb Hc Hd. rewrite !observable_eq.
    transitivity (upto r (fun i => upto r (fun k => upto r (fun j => upto r (fun l => t i k j l * D j l i k + dl a i * (dl b k * (dl c j * (dl d l * (v * D j l i k)))))))) ).
    { apply upto_ext. intros i _. apply upto_ext. intros k _. apply upto_ext. intros j _. apply upto_ext. intros l _. unfold upd4, delta.
      rewrite (Nat.eqb_sym i a), (Nat.eqb_sym k b), (Nat.eqb_sym j c), (Nat.eqb_sym l d).
      destruct (Nat.eqb a i), (Nat.eqb b k), (Nat.eqb c j), (Nat.eqb d l); cbn [andb]; ring. }
    transitivity (upto r (fun i => upto r (fun k => upto r (fun j => upto r (fun l => t i k j l * D j l i k)))) + v * D c d a b); [|reflexivity].
    transitivity (upto r (fun i => upto r (fun k => upto r (fun j => upto r (fun l => t i k j l * D j l i k))) + dl a i * (v * D c d i b))).
    2:{ rewrite upto_add. f_equal. exact (upto_delta r a (fun i => v * D c d i b) Ha). }
    apply upto_ext. intros i _.
    transitivity (upto r (fun k => upto r (fun j => upto r (fun l => t i k j l * D j l i k)) + dl a i * (dl b k * (v * D c d i k)))).
    2:{ rewrite upto_add, upto_scal. f_equal. f_equal. exact (upto_delta r b (fun k => v * D c d i k) Hb). }
    apply upto_ext. intros k _.
    transitivity (upto r (fun j => upto r (fun l => t i k j l * D j l i k) + dl a i * (dl b k * (dl c j * (v * D j d i k))))).
    2:{ rewrite upto_add, !upto_scal. f_equal. f_equal. f_equal. exact (upto_delta r c (fun j => v * D j d i k) Hc). }
    apply upto_ext. intros j _.
    rewrite upto_add, !upto_scal. f_equal. f_equal. f_equal. f_equal. exact (upto_delta r d (fun l => v * D j l i k) Hd).
  Qed.
  Lemma observable_apply r (D : tensor4) : forall us (t : tensor4),
    (forall a b c d v, In ((a, b, c, d), v) us -> (a < r /\ b < r /\ c < r /\ d < r)%nat) ->
    observable r (apply_all us t) D = observable r t D + over us (fun u => let '(a, b, c, d, v) := u in v * D c d a b).
  Proof.
    induction us as [|[[[[a b] c] d] v] us IH]; intros t H; cbn [apply_all fold_left over fold_right]; [ring|].
    change (fold_left (fun t0 u => upd4 u t0) us (upd4 (a, b, c, d, v) t)) with (apply_all us (upd4 (a, b, c, d, v) t)).
    rewrite IH by (intros a' b' c' d' v' Hi; apply (H a' b' c' d' v'); now right).
    destruct (H a b c d v (or_introl eq_refl)) as [? [? [? ?]]]. rewrite observable_upd by assumption. unfold over. ring.
  Qed.

  (** ** Expectation of the Hamiltonian *)
  Lemma expect_upto R n (A : nat -> mat K) (psi : bits -> K) : expect R (fun x y => upto n (fun i => A i x y)) psi = upto n (fun i => expect R (A i) psi).
  Proof. symmetry. apply (lsum_expect K R (seq 0 n) A psi). Qed.
  Lemma expect_ham R (h : nat -> nat -> K) (V : tensor4) (psi : bits -> K) : expect R (ham R h V) psi =
    upto R (fun p => upto R (fun q => h p q * rdm_of R psi [p] [q])) +
    chalf * upto R (fun p => upto R (fun r => upto R (fun q => upto R (fun s => V p r q s * rdm_of R psi [p; r] [q; s])))).
  Proof.
    transitivity (expect R (madd (fun x y => upto R (fun p => upto R (fun q => mscal (h p q) (fock_mat [(Cre, p); (Ann, q)]) x y)))
      (mscal chalf (fun x y => upto R (fun p => upto R (fun r => upto R (fun q => upto R (fun s => mscal (V p r q s) (fock_mat [(Cre, p); (Cre, r); (Ann, s); (Ann, q)]) x y))))))) psi).
    - apply expect_ext. intros x y Hx Hy. unfold ham, madd, mscal. f_equal.
      + apply upto_ext. intros p _. apply upto_ext. intros q _. unfold cre, ann. now rewrite (word2 K R _ _ x y Hx Hy).
      + f_equal. apply upto_ext. intros p _. apply upto_ext. intros r _. apply upto_ext. intros q _. apply upto_ext. intros s _. unfold cre, ann. now rewrite (word4 K R _ _ _ _ x y Hx Hy).
    - rewrite expect_madd, expect_scal. f_equal; [|f_equal].
      + rewrite (expect_upto R R (fun p x y => upto R (fun q => mscal (h p q) (fock_mat [(Cre, p); (Ann, q)]) x y))). apply upto_ext. intros p _.
        rewrite (expect_upto R R (fun q => mscal (h p q) (fock_mat [(Cre, p); (Ann, q)]))). apply upto_ext. intros q _. rewrite expect_scal. reflexivity.
      + rewrite (expect_upto R R (fun p x y => upto R (fun r => upto R (fun q => upto R (fun s => mscal (V p r q s) (fock_mat [(Cre, p); (Cre, r); (Ann, s); (Ann, q)]) x y))))). apply upto_ext. intros p _.
        rewrite (expect_upto R R (fun r x y => upto R (fun q => upto R (fun s => mscal (V p r q s) (fock_mat [(Cre, p); (Cre, r); (Ann, s); (Ann, q)]) x y)))). apply upto_ext. intros r _.
        rewrite (expect_upto R R (fun q x y => upto R (fun s => mscal (V p r q s) (fock_mat [(Cre, p); (Cre, r); (Ann, s); (Ann, q)]) x y))). apply upto_ext. intros q _.
        rewrite (expect_upto R R (fun s => mscal (V p r q s) (fock_mat [(Cre, p); (Cre, r); (Ann, s); (Ann, q)]))). apply upto_ext. intros s _. rewrite expect_scal. reflexivity.
  Qed.

  (** ** One-body part *)
  Lemma D_swap_both R (psi : bits -> K) a b c d : rdm_of R psi [b; a] [d; c] = rdm_of R psi [a; b] [c; d].
  Proof.
    assert (A := rdm_antisym_cre K R psi [] b a [] [d; c]). assert (B := rdm_antisym_ann K R psi [] d c [] [a; b]). cbn [app] in A, B. rewrite A, B. ring.
  Qed.
  Lemma D_swap_ann R (psi : bits -> K) a b c d : rdm_of R psi [a; b] [d; c] = - rdm_of R psi [a; b] [c; d].
  Proof. assert (B := rdm_antisym_ann K R psi [] d c [] [a; b]). cbn [app] in B. exact B. Qed.
  Lemma one_body_value (m : nat -> nat) R (psi : bits -> K) (x : K) i j k :
    over (one_body x i j k) (fun u => let '(a, b, c, d, v) := u in v * rdm_of R psi [m c; m d] [m a; m b])
    = (1 + 1 + 1 + 1) * x * rdm_of R psi [m j; m k] [m i; m k].
  Proof.
    cbn [one_body over fold_right]. rewrite (D_swap_both R psi (m j) (m k) (m i) (m k)), (D_swap_ann R psi (m j) (m k) (m i) (m k)).
    assert (E : rdm_of R psi [m k; m j] [m i; m k] = - rdm_of R psi [m j; m k] [m i; m k]).
    { assert (A := rdm_antisym_cre K R psi [] (m k) (m j) [] [m i; m k]). cbn [app] in A. exact A. }
    rewrite E. ring.
  Qed.
  Lemma contract2 R Ne (psi : bits -> K) p q : has_particles R Ne psi -> upto R (fun k => rdm_of R psi [p; k] [q; k]) = ofnat (Ne - 1) * rdm_of R psi [p] [q].
  Proof. intro H. exact (rdm_contract K R Ne psi [p] [q] H). Qed.

  (** ** C38 without an active space *)
  Lemma K2_energy r Ne (w : K) (h : nat -> nat -> K) (V : tensor4) (psi : bits -> K) : has_particles r Ne psi -> (1 + 1 + 1 + 1) * w * ofnat (Ne - 1) = 1 ->
    observable r (build_K2 r w h V) (fun a b c d => rdm_of r psi [a; b] [c; d]) = expect r (ham r (fun p q => h q p) (fun p t q s => V q s p t)) psi.
  Proof.
    intros HN Hw. unfold build_K2. rewrite observable_apply.
    2:{ intros a b c d v Hi. apply in_flat_map in Hi. destruct Hi as [i [Hi H]]. apply in_flat_map in H. destruct H as [j [Hj H]]. apply in_flat_map in H. destruct H as [k [Hk H]].
        apply in_seq in Hi, Hj, Hk. destruct H as [E|[E|[E|[E|[]]]]]; injection E; intros; subst; lia. }
    rewrite expect_ham, observable_eq, over_flat_map.
    assert (E1 : over (seq 0 r) (fun x => over (flat_map (fun j => flat_map (fun k => one_body (h x j * w) x j k) (seq 0 r)) (seq 0 r)) (fun u => let '(a, b, c, d, v) := u in v * rdm_of r psi [c; d] [a; b]))
      = upto r (fun p => upto r (fun q => h q p * rdm_of r psi [p] [q]))).
    { rewrite (upto_swap r r (fun p q => h q p * rdm_of r psi [p] [q])). apply over_ext. intros i _. rewrite over_flat_map. apply over_ext. intros j _. rewrite over_flat_map.
      rewrite (over_ext K (seq 0 r) _ (fun k => ((1 + 1 + 1 + 1) * (h i j * w)) * rdm_of r psi [j; k] [i; k])) by (intros k _; exact (one_body_value (fun a => a) r psi (h i j * w) i j k)).
      rewrite over_scal. change (over (seq 0 r) (fun k => rdm_of r psi [j; k] [i; k])) with (upto r (fun k => rdm_of r psi [j; k] [i; k])). rewrite (contract2 r Ne psi j i HN).
      transitivity (((1 + 1 + 1 + 1) * w * ofnat (Ne - 1)) * (h i j * rdm_of r psi [j] [i])); [ring|rewrite Hw; ring]. }
    rewrite E1.
    assert (E2 : upto r (fun i => upto r (fun k => upto r (fun j => upto r (fun l => V i k j l * chalf * rdm_of r psi [j; l] [i; k])))) =
       chalf * upto r (fun p => upto r (fun t => upto r (fun q => upto r (fun s => V q s p t * rdm_of r psi [p; t] [q; s]))))).
    { transitivity (chalf * upto r (fun i => upto r (fun k => upto r (fun j => upto r (fun l => V i k j l * rdm_of r psi [j; l] [i; k]))))).
      { rewrite <- upto_scal. apply upto_ext. intros i _. rewrite <- upto_scal. apply upto_ext. intros k _. rewrite <- upto_scal. apply upto_ext. intros j _. rewrite <- upto_scal. apply upto_ext. intros l _. ring. }
      f_equal.
      transitivity (upto r (fun i => upto r (fun j => upto r (fun k => upto r (fun l => V i k j l * rdm_of r psi [j; l] [i; k]))))).
      { apply upto_ext. intros i _. apply upto_swap. }
      rewrite upto_swap. apply upto_ext. intros p _.
      transitivity (upto r (fun i => upto r (fun l => upto r (fun k => V i k p l * rdm_of r psi [p; l] [i; k])))).
      { apply upto_ext. intros i _. apply upto_swap. }
      apply upto_swap. }
    rewrite E2. ring.
  Qed.
End HamProofs3.
