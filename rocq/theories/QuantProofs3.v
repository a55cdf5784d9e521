(** The reduced Hamiltonian acts as the Hamiltonian on states with the right number of particles, so that the quantum
    and the classical residual are the same number. *)
From Coq Require Import Bool List Arith Lia Ring.
From Verif Require Import Coeff Sqrt2 MatSpec MatLemmas OpSpec FockSpec CircuitSpec CircuitProofs CircuitProofs2 RdmSpec RdmFock RdmProofs HamModel HamSpec HamProofs HamProofs3
  ResSpec ResProofs3 InvSpec.
Import ListNotations.

Section Link.
  Variable K : CoefRing.
  Add Ring KRing : (c_ring K).
  Local Open Scope coef_scope.
  Notation tensor4 := (nat -> nat -> nat -> nat -> K).

  (** ** Symmetry of K2 *)
  Definition hit (u : (nat * nat * nat * nat) * K) (i j k l : nat) : K :=
    let '(a, b, c, d, v) := u in if Nat.eqb i a && Nat.eqb j b && Nat.eqb k c && Nat.eqb l d then v else 0.
  Lemma apply_value us : forall (t : tensor4) i j k l, apply_all us t i j k l = t i j k l + over us (fun u => hit u i j k l).
  Proof.
    induction us as [|[[[[a b] c] d] v] us IH]; intros t i j k l; [cbn; ring|].
    change (apply_all ((a, b, c, d, v) :: us) t) with (apply_all us (upd4 (a, b, c, d, v) t)). rewrite IH.
    cbn [over fold_right hit upd4]. unfold over. destruct (Nat.eqb i a && Nat.eqb j b && Nat.eqb k c && Nat.eqb l d); ring.
  Qed.
  Lemma K2_value r (w : K) (h : nat -> nat -> K) (V : tensor4) p q s t : build_K2 r w h V p q s t = V p q s t * chalf +
    upto r (fun i => upto r (fun j => upto r (fun k => over (one_body (h i j * w) i j k) (fun u => hit u p q s t)))).
  Proof.
    unfold build_K2. rewrite apply_value. f_equal. rewrite over_flat_map. apply over_ext. intros i _. rewrite over_flat_map.
    apply over_ext. intros j _. rewrite over_flat_map. reflexivity.
  Qed.
  Lemma upto_conj n (f : nat -> K) : cconj (upto n f) = upto n (fun i => cconj (f i)).
  Proof. unfold upto, over. induction (seq 0 n) as [|a l IH]; cbn [fold_right]; [apply cconj_0|]. now rewrite cconj_add, IH. Qed.
  Lemma hit_conj u p q s t : cconj (hit u p q s t) = hit (fst u, cconj (snd u)) p q s t.
  Proof.
    destruct u as [[[[a b] c] d] v]. cbn [hit fst snd]. destruct (Nat.eqb p a && Nat.eqb q b && Nat.eqb s c && Nat.eqb t d); [reflexivity|apply cconj_0].
  Qed.
  Lemma and4_flip a b c d : a && b && c && d = b && a && d && c.
  Proof. destruct a, b, c, d; reflexivity. Qed.
  Lemma and4_rot a b c d : a && b && c && d = c && d && a && b.
  Proof. destruct a, b, c, d; reflexivity. Qed.
  Lemma K2_symmetric r (w : K) (h : nat -> nat -> K) (V : tensor4) : cconj w = w ->
    (forall i j, cconj (h i j) = h i j) -> (forall i j, h i j = h j i) ->
    (forall p q s t, cconj (V p q s t) = V p q s t) -> (forall p q s t, V p q s t = V q p t s) -> (forall p q s t, V p q s t = V s t p q) ->
    real_symmetric (build_K2 r w h V).
  Proof.
    intros Cw Ch Sh CV S1 S2. split; [|split]; intros p q s t; rewrite !K2_value.
    - rewrite cconj_add, cconj_mul, CV, cconj_half, upto_conj. f_equal. apply upto_ext. intros i _. rewrite upto_conj. apply upto_ext. intros j _.
      rewrite upto_conj. apply upto_ext. intros k _. unfold one_body, over. cbn [fold_right]. rewrite !cconj_add, !hit_conj, cconj_0. cbn [fst snd].
      rewrite cconj_opp, cconj_mul, Ch, Cw. reflexivity.
    - rewrite S1. f_equal. apply upto_ext. intros i _. apply upto_ext. intros j _. apply upto_ext. intros k _. unfold one_body, over. cbn [fold_right hit].
      rewrite !(and4_flip (Nat.eqb q _)). ring.
    - rewrite S2. f_equal. rewrite upto_swap. apply upto_ext. intros i _. apply upto_ext. intros j _. apply upto_ext. intros k _. unfold one_body, over. cbn [fold_right hit]. rewrite (Sh j i).
      rewrite !(and4_rot (Nat.eqb s _)). ring.
  Qed.

  (** ** Polarisation *)
  Definition two_vec (a b : K) (x y : bits) : bits -> K := fun r => a * basis_vec x r + b * basis_vec y r.
  Lemma basis_sum N x (f : bits -> K) : length x = N -> sumbits N (fun r => basis_vec x r * f r) = f x.
  Proof.
    intro L. rewrite (sumbits_ext K N _ (fun r => if bits_eqb r x then f r else 0)); [apply sumbits_pick; exact L|].
    intros r _. unfold basis_vec. destruct (bits_eqb x r) eqn:E, (bits_eqb r x) eqn:F; try ring.
    - apply bits_eqb_spec in E. subst r. rewrite (proj2 (bits_eqb_spec x x) eq_refl) in F. discriminate.
    - apply bits_eqb_spec in F. subst r. rewrite (proj2 (bits_eqb_spec x x) eq_refl) in E. discriminate.
  Qed.
  Lemma basis_conj x r : cconj (@basis_vec K x r) = basis_vec x r.
  Proof. unfold basis_vec. destruct (bits_eqb x r); [apply cconj_1|apply cconj_0]. Qed.
  Lemma expect_two N (A : mat K) a b x y : length x = N -> length y = N ->
    expect N A (two_vec a b x y) = cconj a * a * A x x + cconj a * b * A x y + cconj b * a * A y x + cconj b * b * A y y.
  Proof.
    intros Lx Ly. unfold expect.
    assert (E : forall r, mvec N A (two_vec a b x y) r = a * A r x + b * A r y).
    { intro r. unfold mvec, two_vec.
      transitivity (a * sumbits N (fun c => basis_vec x c * A r c) + b * sumbits N (fun c => basis_vec y c * A r c)).
      - rewrite <- !sumbits_scal, <- sumbits_add. apply sumbits_ext. intros; ring.
      - rewrite !basis_sum by assumption. reflexivity. }
    transitivity (cconj a * sumbits N (fun r => basis_vec x r * (a * A r x + b * A r y)) + cconj b * sumbits N (fun r => basis_vec y r * (a * A r x + b * A r y))).
    - rewrite <- !sumbits_scal, <- sumbits_add. apply sumbits_ext. intros r _. rewrite E. unfold two_vec. rewrite cconj_add, !cconj_mul, !basis_conj. ring.
    - rewrite !basis_sum by assumption. ring.
  Qed.
  Lemma polarize N Ne (A B : mat K) : (forall psi, has_particles N Ne psi -> expect N A psi = expect N B psi) ->
    forall x y, length x = N -> length y = N -> popcount x = Ne -> popcount y = Ne -> A x y = B x y.
  Proof.
    intros H x y Lx Ly Px Py.
    assert (G : forall a b, has_particles N Ne (two_vec a b x y)).
    { intros a b z Lz Pz. unfold two_vec, basis_vec. destruct (bits_eqb x z) eqn:E; [apply bits_eqb_spec in E; subst z; contradiction|].
      destruct (bits_eqb y z) eqn:F; [apply bits_eqb_spec in F; subst z; contradiction|]. ring. }
    assert (X : forall a b, cconj a * a * A x x + cconj a * b * A x y + cconj b * a * A y x + cconj b * b * A y y
                          = cconj a * a * B x x + cconj a * b * B x y + cconj b * a * B y x + cconj b * b * B y y).
    { intros a b. rewrite <- !(expect_two N) by assumption. apply H, G. }
    pose proof (X 1 0) as Exx. pose proof (X 0 1) as Eyy. pose proof (X 1 1) as E1. pose proof (X 1 ci) as Ei.
    rewrite ?cconj_1, ?cconj_0, ?cconj_i in *.
    assert (Dx : A x x = B x x).
    { transitivity (1 * 1 * A x x + 1 * 0 * A x y + 0 * 1 * A y x + 0 * 0 * A y y); [ring|rewrite Exx; ring]. }
    assert (Dy : A y y = B y y).
    { transitivity (0 * 0 * A x x + 0 * 1 * A x y + 1 * 0 * A y x + 1 * 1 * A y y); [ring|rewrite Eyy; ring]. }
    assert (Ds : A x y + A y x = B x y + B y x).
    { transitivity ((1 * 1 * A x x + 1 * 1 * A x y + 1 * 1 * A y x + 1 * 1 * A y y) - A x x - A y y); [ring|]. rewrite E1, Dx, Dy. ring. }
    assert (Di : ci * (A x y - A y x) = ci * (B x y - B y x)).
    { transitivity ((1 * 1 * A x x + 1 * ci * A x y + - ci * 1 * A y x + - ci * ci * A y y) - A x x - - (ci * ci) * A y y); [ring|]. rewrite Ei, Dx, Dy. ring. }
    assert (Dd : A x y - A y x = B x y - B y x).
    { transitivity (- ((ci * ci) * (A x y - A y x))); [rewrite ci_sq; ring|].
      transitivity (- (ci * (ci * (A x y - A y x)))); [ring|]. rewrite Di.
      transitivity (- ((ci * ci) * (B x y - B y x))); [ring|]. rewrite ci_sq. ring. }
    apply (dbl_cancel K). transitivity ((A x y + A y x) + (A x y - A y x)); [ring|]. rewrite Ds, Dd. ring.
  Qed.

  (** ** The reduced Hamiltonian on states with Ne particles *)
  Lemma two_swap4 r (f : tensor4) : upto r (fun p => upto r (fun q => upto r (fun s => upto r (fun t => f p q s t)))) =
    upto r (fun p => upto r (fun q => upto r (fun s => upto r (fun t => f s t p q)))).
  Proof.
    transitivity (upto r (fun p => upto r (fun s => upto r (fun q => upto r (fun t => f p q s t))))).
    { apply upto_ext. intros p _. apply upto_swap. }
    rewrite upto_swap. apply upto_ext. intros s _.
    transitivity (upto r (fun p => upto r (fun t => upto r (fun q => f p q s t)))).
    { apply upto_ext. intros p _. apply upto_swap. }
    apply upto_swap.
  Qed.
  Lemma two_body_expect R (V : tensor4) psi : expect R (two_body R V) psi =
    upto R (fun p => upto R (fun q => upto R (fun s => upto R (fun t => V p q s t * rdm_of R psi [p; q] [s; t])))).
  Proof.
    unfold two_body. rewrite (expect_upto K R R (fun p x y => upto R (fun q => upto R (fun s => upto R (fun t => V p q s t * excitation p q s t x y))))).
    apply upto_ext. intros p _. rewrite (expect_upto K R R (fun q x y => upto R (fun s => upto R (fun t => V p q s t * excitation p q s t x y)))).
    apply upto_ext. intros q _. rewrite (expect_upto K R R (fun s x y => upto R (fun t => V p q s t * excitation p q s t x y))).
    apply upto_ext. intros s _. rewrite (expect_upto K R R (fun t x y => V p q s t * excitation p q s t x y)).
    apply upto_ext. intros t _. exact (expect_scal K R (V p q s t) (excitation p q s t) psi).
  Qed.
  Lemma K2_on_particles r Ne (w : K) (h : nat -> nat -> K) (V : tensor4) x y :
    (1 + 1 + 1 + 1) * w * ofnat (Ne - 1) = 1 -> real_symmetric (build_K2 r w h V) ->
    length x = r -> length y = r -> popcount x = Ne -> popcount y = Ne ->
    two_body r (build_K2 r w h V) x y = ham r (fun p q => h q p) (fun p t q s => V q s p t) x y.
  Proof.
    intros Hw [_ [_ S]] Lx Ly Px Py. apply (polarize r Ne); try assumption. intros psi HN.
    rewrite <- (K2_energy K r Ne w h V psi HN Hw), observable_eq, two_body_expect.
    rewrite (two_swap4 r (fun p q s t => build_K2 r w h V p q s t * rdm_of r psi [p; q] [s; t])).
    apply upto_ext. intros i _. apply upto_ext. intros k _. apply upto_ext. intros j _. apply upto_ext. intros l _. now rewrite S.
  Qed.
End Link.
