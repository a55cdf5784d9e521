(** The averages of the reference after the gates of initial_clifford, and a whole run on it. *)
From Coq Require Import Bool List Arith ZArith Lia Ring Ascii.
From Verif Require Import Coeff MatSpec MatLemmas KronLemmas FockSpec EncProofs ParityProofs BKProofs PauliModel PauliProofs TwoTerm
  CircuitSpec CircuitModel CircuitProofs CircuitProofs2 PlanModel PlanSpec QtomModel QtomProofs QtomProofs2 IclModel IclSpec IclProofs.
Import ListNotations.

Section IclR.
  Variable K : CoefRing.
  Add Ring KRing : (c_ring K).
  Local Open Scope coef_scope.
  Variable rt : K.
  Hypothesis rt_sq : rt * rt = chalf.
  Hypothesis rt_real : cconj rt = rt.

  Lemma clash2 p q : eq2 (mul2 (@pauli1 K q) (mul2 (pauli1 p) (pauli1 q))) (fun a b => sgn (clash1 p q) * pauli1 p a b).
  Proof. pose proof (Ci K) as Ci. destruct p, q; intros [|] [|]; unfold mul2; cbn [pauli1 clash1 sgn]; ring [Ci]. Qed.
  Lemma clash_kron s : forall t r c, length t = length s -> length r = length s -> length c = length s ->
    kron (zip2 K (map pauli1 t) (zip2 K (map pauli1 s) (map pauli1 t))) r c = sgn (clash s t) * pmat s r c.
  Proof.
    induction s as [|p s IH]; intros [|q t] [|a r] [|b c] Ht Hr Hc; try discriminate; cbn [map zip2 kron pmat clash] in *; [cbn; ring|].
    cbn [length] in *. rewrite IH by lia. rewrite (clash2 p q a b).
    assert (S : @sgn K (xorb (clash1 p q) (clash s t)) = sgn (clash1 p q) * sgn (clash s t)) by apply sgn_xorb. rewrite S. ring.
  Qed.
  Lemma clash_average N s t (psi : bits -> K) : length s = N -> length t = N ->
    expect N (pmat s) (mvec N (pmat t) psi) = sgn (clash s t) * expect N (pmat s) psi.
  Proof.
    intros Ls Lt.
    assert (E : meq N (mmul N (madj (pmat t)) (mmul N (pmat s) (pmat t))) (mscal (sgn (clash s t)) (@pmat K s))).
    { eapply meq_trans; [apply mmul_meq; [apply pmat_adj; exact Lt|apply meq_refl]|].
      eapply meq_trans.
      { apply mmul_meq; [intros r c _ _; apply pmat_kron|]. eapply meq_trans; [apply mmul_meq; intros r c _ _; apply pmat_kron|].
        apply kron_mul; rewrite map_length; assumption. }
      eapply meq_trans; [apply kron_mul; [rewrite map_length; exact Lt|]|].
      { assert (Z : forall (x y : list (mat2 K)), length x = length y -> length (zip2 K x y) = length x).
        { induction x as [|m x IH]; intros [|m' y] Hxy; try discriminate; [reflexivity|]. cbn in *. rewrite IH; lia. }
        rewrite Z; rewrite ?map_length; lia. }
      intros r c Hr Hc. subst N. apply clash_kron; assumption. }
    rewrite <- (expect_scal K), <- (expect_meq K N _ _ psi E), (expect_adj K).
    unfold expect. apply sumbits_ext. intros b Hb. rewrite mvec_mmul. reflexivity.
  Qed.
  Lemma zero_average N s : length s = N -> expect N (pmat s) (zero_state N) = if diagonal s then 1 else 0 :> K.
  Proof.
    intro L. unfold expect.
    rewrite (sumbits_ext K N _ (fun r => if bits_eqb r (repeat false N) then pmat s r (repeat false N) else 0)).
    2:{ intros r Hr. rewrite (mvec_zeros K N (pmat s) r). unfold zero_state. rewrite bits_eqb_sym.
        destruct (bits_eqb r (repeat false N)); [rewrite cconj_1|rewrite cconj_0]; ring. }
    rewrite (sumbits_pick K N (repeat false N) (fun r => pmat s r (repeat false N))) by apply repeat_length.
    subst N. unfold diagonal. induction s as [|p s IH]; [reflexivity|]. cbn [length repeat pmat forallb]. rewrite IH.
    destruct p; cbn [pauli1 andb]; try ring; destruct (forallb _ s); ring.
  Qed.
  Lemma ipow_conj z : cconj (@ipow K z) * ipow z = 1.
  Proof.
    pose proof (Ci K) as Ci. unfold ipow. destruct (z mod 4)%Z as [|[[|[]|]|[|[]|]|]|]; rewrite ?cconj_opp, ?cconj_i, ?cconj_1; ring [Ci].
  Qed.
  Lemma phase_average N (A : mat K) (f g : bits -> K) z : (forall x, length x = N -> f x = ipow z * g x) -> expect N A f = expect N A g.
  Proof.
    intro H. unfold expect. apply sumbits_ext. intros r Hr.
    assert (M : mvec N A f r = ipow z * mvec N A g r).
    { unfold mvec. rewrite <- sumbits_scal. apply sumbits_ext. intros c Hc. rewrite H by exact Hc. ring. }
    rewrite M, H by exact Hr. rewrite cconj_mul.
    transitivity (cconj (ipow z) * ipow z * (cconj (g r) * mvec N A g r)); [ring|]. rewrite ipow_conj. ring.
  Qed.
  Lemma pulled_length U : forall s, length (fst (pulled U s)) = length s.
  Proof. induction U as [|u U IH]; intros [|p s]; cbn [pulled fst length]; auto. Qed.

  Theorem reference_average U t c g s : clifford_reference rt (length t) U [(t, c)] = Some g -> y_safe U t -> length s = length t ->
    expect (length t) (pmat s) (prepared rt (length t) g) =
      if diagonal (fst (pulled U s)) then sgn (xorb (clash s t) (snd (pulled U s))) else 0.
  Proof.
    intros H Y L. destruct (reference_state K rt rt_sq U t c g H Y) as [h [z [Hh E]]].
    unfold prepared. rewrite (phase_average _ _ _ _ z E). rewrite clash_average by auto.
    rewrite (clifford_average K rt rt_sq rt_real _ U h s) by assumption.
    pose proof (zero_average (length t) (fst (pulled U s))) as Z. rewrite pulled_length in Z. specialize (Z L).
    rewrite Z.
    assert (S : @sgn K (xorb (clash s t) (snd (pulled U s))) = sgn (clash s t) * sgn (snd (pulled U s))) by apply sgn_xorb.
    destruct (diagonal _); [rewrite S|]; ring.
  Qed.
  (** Without a condition on Y: the averages are those of the reference with X in place of Y. *)
  Theorem reference_actual U t c g s : clifford_reference rt (length t) U [(t, c)] = Some g -> length s = length t ->
    expect (length t) (pmat s) (prepared rt (length t) g) =
      if diagonal (fst (pulled U s)) then sgn (xorb (clash s (map yx t)) (snd (pulled U s))) else 0.
  Proof.
    intros H L. unfold clifford_reference in H. destruct (initial_clifford (length t) U) as [h|] eqn:Hh; [|discriminate].
    assert (Hg : g = h ++ initial_circuit rt [(t, c)]) by congruence. clear H. subst g.
    set (N := length t) in *.
    assert (A : meq N (cmat rt N (h ++ initial_circuit rt [(t, c)])) (mscal (cpow (- ci) (nz t)) (mmul N (pmat (map yx t)) (cmat rt N h)))).
    { unfold initial_circuit. cbn [flat_map fst]. rewrite app_nil_r.
      eapply meq_trans; [apply cmat_app|]. eapply meq_trans; [apply mmul_meq; [apply (apply_mat K rt rt_sq t)|apply meq_refl]|]. apply mmul_scal_l. }
    unfold prepared. rewrite (phase_average N _ _ (mvec N (pmat (map yx t)) (mvec N (cmat rt N h) (zero_state N))) (3 * Z.of_nat (nz t))).
    2:{ intros r Hr. rewrite (mvec_meq K N _ _ (zero_state N) r A Hr), <- mvec_mmul, <- minus_i_pow.
        unfold mvec, mscal. rewrite <- sumbits_scal. apply sumbits_ext. intros b Hb. ring. }
    rewrite clash_average by (rewrite ?map_length; auto). rewrite (clifford_average K rt rt_sq rt_real _ U h s) by assumption.
    pose proof (zero_average N (fst (pulled U s))) as Z. rewrite pulled_length in Z. specialize (Z L). rewrite Z.
    assert (S : @sgn K (xorb (clash s (map yx t)) (snd (pulled U s))) = sgn (clash s (map yx t)) * sgn (snd (pulled U s))) by apply sgn_xorb.
    destruct (diagonal _); [rewrite S|]; ring.
  Qed.
  Theorem reference_run tiny simp imag U t c g paulis values : (forall x, tiny x = true -> x = 0) -> sized simp ->
    clifford_reference rt (length t) U [(t, c)] = Some g -> y_safe U t -> (forall s, In s paulis -> length s = length t) ->
    pauli_values rt tiny simp imag (length t) paulis g = Some values ->
    values = map (fun s => (if imag then ci else 1) * (if diagonal (fst (pulled U s)) then sgn (xorb (clash s t) (snd (pulled U s))) else 0)) paulis.
  Proof.
    intros Ht Hs H Y L R. rewrite (pauli_values_spec K rt rt_sq rt_real tiny Ht simp imag _ paulis g values Hs L R).
    apply map_ext_in. intros s Is. rewrite (reference_average U t c g s H Y (L s Is)). reflexivity.
  Qed.
End IclR.
