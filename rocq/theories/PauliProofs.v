(** Proofs about the PauliString model. *)
From Coq Require Import Bool List ZArith Lia Ring.
From Verif Require Import Coeff MatSpec MatLemmas PauliModel.
Import ListNotations.
Local Open Scope coef_scope.

Lemma pauli_list_eqb_spec a b : pauli_list_eqb a b = true <-> a = b.
Proof.
  revert b. induction a as [|x a IH]; intros [|y b]; cbn; try (split; discriminate).
  - split; reflexivity.
  - rewrite andb_true_iff, pauli_eqb_spec, IH. split; [intros [-> ->]; reflexivity|].
    intro H; inversion H; split; reflexivity.
Qed.

Lemma construct_vecs s : construct (lvec s) (rvec s) = s.
Proof. induction s as [|p s IH]; cbn; [reflexivity|]. f_equal; [destruct p; reflexivity|exact IH]. Qed.

Lemma vecs_construct l r : length l = length r ->
  lvec (construct l r) = l /\ rvec (construct l r) = r.
Proof.
  revert r. induction l as [|a l IH]; intros [|b r] H; try discriminate.
  - split; reflexivity.
  - cbn in H. destruct (IH r) as [E1 E2]; [lia|]. cbn. unfold lvec, rvec in *.
    rewrite E1, E2. destruct a, b; split; reflexivity.
Qed.

Section PauliProofs.
  Variable K : CoefRing.
  Add Ring KRing : (c_ring K).

  (** One-letter data of the product. *)
  Definition pmul1 (a b : pauli) : pauli :=
    construct1 (xorb (pauli_eqb a PX || pauli_eqb a PY) (pauli_eqb b PX || pauli_eqb b PY))
               (xorb (pauli_eqb a PZ || pauli_eqb a PY) (pauli_eqb b PZ || pauli_eqb b PY)).
  Definition pexp1 (a b : pauli) : Z :=
    let l1 := pauli_eqb a PX || pauli_eqb a PY in
    let r1 := pauli_eqb a PZ || pauli_eqb a PY in
    let l2 := pauli_eqb b PX || pauli_eqb b PY in
    let r2 := pauli_eqb b PZ || pauli_eqb b PY in
    (bz (andb r1 l2) - bz (andb l1 r2) +
     ((bz l1 + bz l2) * (bz r1 + bz r2) - bz (andb (xorb l1 l2) (xorb r1 r2))))%Z.

  Fixpoint pmuls (s t : list pauli) : list pauli :=
    match s, t with a :: s', b :: t' => pmul1 a b :: pmuls s' t' | _, _ => [] end.
  Fixpoint pexps (s t : list pauli) : Z :=
    match s, t with a :: s', b :: t' => (pexp1 a b + pexps s' t')%Z | _, _ => 0%Z end.

  Lemma ipow_add a b : @ipow K (a + b) = ipow a * ipow b.
  Proof.
    unfold ipow. rewrite Zplus_mod.
    pose proof (Z.mod_pos_bound a 4 ltac:(lia)) as Ha.
    pose proof (Z.mod_pos_bound b 4 ltac:(lia)) as Hb.
    assert (Ci : (ci * ci : K) = - (1)) by apply ci_sq.
    assert (Ea : (a mod 4 = 0 \/ a mod 4 = 1 \/ a mod 4 = 2 \/ a mod 4 = 3)%Z) by lia.
    assert (Eb : (b mod 4 = 0 \/ b mod 4 = 1 \/ b mod 4 = 2 \/ b mod 4 = 3)%Z) by lia.
    destruct Ea as [->|[->|[->| ->]]]; destruct Eb as [->|[->|[->| ->]]]; cbn;
      ring [Ci].
  Qed.

  Lemma ipow_0 : @ipow K 0 = 1.
  Proof. reflexivity. Qed.

  (** The code's product in closed form. *)
  Lemma pauli_mul_eq (x y : pstring K) :
    length (fst x) = length (fst y) ->
    pauli_mul x y = (pmuls (fst x) (fst y), snd x * snd y * ipow (pexps (fst x) (fst y))).
  Proof.
    destruct x as [s cx], y as [t cy]. cbn [fst snd]. intro H.
    unfold pauli_mul. cbn [fst snd]. rewrite <- ipow_add.
    enough (G : construct (zipb xorb (lvec s) (lvec t)) (zipb xorb (rvec s) (rvec t)) = pmuls s t /\
      (zsum (zipz Z.sub (map bz (zipb andb (rvec s) (lvec t))) (map bz (zipb andb (lvec s) (rvec t))))
       + zsum (zipz Z.sub (zipz Z.mul (zipz Z.add (map bz (lvec s)) (map bz (lvec t)))
                                      (zipz Z.add (map bz (rvec s)) (map bz (rvec t))))
               (map bz (zipb andb (zipb xorb (lvec s) (lvec t)) (zipb xorb (rvec s) (rvec t))))))%Z
      = pexps s t).
    { destruct G as [-> ->]. reflexivity. }
    revert t H. induction s as [|a s IH]; intros [|b t] H; try discriminate.
    - split; reflexivity.
    - cbn in H. destruct (IH t) as [E1 E2]; [lia|]. clear IH. split.
      + cbn. f_equal. exact E1.
      + cbn [lvec rvec map zipb zipz zsum fold_right pexps] in *.
        fold (lvec s) (lvec t) (rvec s) (rvec t) in *. rewrite <- E2.
        unfold pexp1, zsum. lia.
  Qed.

  Lemma pauli1_mul a b r c :
    @ipow K (pexp1 a b) * pauli1 (pmul1 a b) r c
    = pauli1 a r false * pauli1 b false c + pauli1 a r true * pauli1 b true c.
  Proof.
    assert (Ci : (ci * ci : K) = - (1)) by apply ci_sq.
    destruct a, b; destruct r, c; cbn; ring [Ci].
  Qed.

  Lemma pmat_mul s t n : length s = n -> length t = n ->
    meq n (mscal (@ipow K (pexps s t)) (pmat (pmuls s t))) (mmul n (pmat s) (pmat t)).
  Proof.
    intros Hs Ht r c Hr Hc. unfold mscal, mmul. revert s t r c Hs Ht Hr Hc.
    induction n as [|n IH]; intros [|a s] [|b t] [|x r] [|y c] Hs Ht Hr Hc; try discriminate.
    - cbn. unfold ipow. cbn. ring.
    - cbn in Hs, Ht, Hr, Hc. cbn [pmuls pexps pmat sumbits]. rewrite ipow_add.
      rewrite !sumbits_scal2. rewrite <- (IH s t r c) by lia.
      transitivity ((@ipow K (pexp1 a b) * pauli1 (pmul1 a b) x y)
                    * (ipow (pexps s t) * pmat (pmuls s t) r c)); [ring|].
      rewrite pauli1_mul. ring.
  Qed.

  Lemma length_pmuls s t n : length s = n -> length t = n -> length (pmuls s t) = n.
  Proof.
    revert s t. induction n as [|n IH]; intros [|a s] [|b t] Hs Ht; try discriminate; cbn in *.
    - reflexivity.
    - rewrite IH; lia.
  Qed.

  Lemma pauli_mul_matrix n (x y : pstring K) :
    length (fst x) = n -> length (fst y) = n ->
    length (fst (pauli_mul x y)) = n /\
    meq n (mscal (snd (pauli_mul x y)) (pmat (fst (pauli_mul x y))))
          (mmul n (mscal (snd x) (pmat (fst x))) (mscal (snd y) (pmat (fst y)))).
  Proof.
    intros Hx Hy. rewrite pauli_mul_eq by congruence. cbn [fst snd]. split.
    - apply length_pmuls; assumption.
    - intros r c Hr Hc. unfold mscal at 1.
      rewrite mmul_scal_l by assumption. unfold mscal at 1.
      rewrite mmul_scal_r by assumption. unfold mscal at 1.
      rewrite <- pmat_mul by assumption. unfold mscal. ring.
  Qed.

  Lemma pauli_scale_eq (x : pstring K) a : pauli_scale x a = (fst x, snd x * a).
  Proof. unfold pauli_scale. rewrite construct_vecs. reflexivity. Qed.
  Lemma pauli_scale_matrix n (x : pstring K) a :
    meq n (mscal (snd (pauli_scale x a)) (pmat (fst (pauli_scale x a)))) (mscal a (mscal (snd x) (pmat (fst x)))).
  Proof. rewrite pauli_scale_eq. intros r c _ _. unfold mscal. cbn [fst snd]. ring. Qed.

  Lemma pauli_letters_eqb (s t : list pauli) : pauli_list_eqb s t = true <-> s = t.
  Proof.
    revert t. induction s as [|a s IH]; intros [|b t]; cbn; try (split; [discriminate|discriminate]); [now split|].
    rewrite andb_true_iff, IH, pauli_eqb_spec. split; [intros [-> ->]; reflexivity|intro H; now inversion H].
  Qed.
  Lemma pauli_add_matrix n (x y : pstring K) : length (fst x) = n ->
    (fst x = fst y -> exists z, pauli_add x y = Some z /\
       meq n (mscal (snd z) (pmat (fst z))) (madd (mscal (snd x) (pmat (fst x))) (mscal (snd y) (pmat (fst y))))) /\
    (fst x <> fst y -> pauli_add x y = None).
  Proof.
    intro Hx. unfold pauli_add. split; intro H.
    - rewrite (proj2 (pauli_letters_eqb (fst y) (fst x)) (eq_sym H)). eexists. split; [reflexivity|].
      intros r c _ _. unfold madd, mscal. cbn [fst snd]. rewrite <- H. ring.
    - destruct (pauli_list_eqb (fst y) (fst x)) eqn:E; [|reflexivity]. apply pauli_letters_eqb in E. congruence.
  Qed.
  Lemma pauli_eq_letters (x y : pstring K) : pauli_eq x y = true <-> fst x = fst y.
  Proof. apply pauli_letters_eqb. Qed.
End PauliProofs.
