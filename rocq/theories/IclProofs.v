(** Proofs about the gates of initial_clifford. *)
From Coq Require Import Bool List Arith ZArith Lia Ring Ascii.
From Verif Require Import Coeff MatSpec MatLemmas KronLemmas FockSpec EncProofs ParityProofs BKProofs PauliModel PauliProofs TwoTerm
  CircuitSpec CircuitModel CircuitProofs CircuitProofs2 PlanSpec IclModel IclSpec.
Import ListNotations.

Lemma idle_skipped u : skipped u = true <-> idle u.
Proof. unfold skipped, idle. rewrite orb_true_iff, !Ascii.eqb_eq. reflexivity. Qed.

Section IclP.
  Variable K : CoefRing.
  Add Ring KRing : (c_ring K).
  Local Open Scope coef_scope.
  Variable rt : K.
  Hypothesis rt_sq : rt * rt = chalf.
  Hypothesis rt_real : cconj rt = rt.
  Notation I2 := (@pauli1 K PI).

  (** The letters as an enumerated type. *)
  Definition code (u : ascii) : pauli :=
    if Ascii.eqb u "H" then PX else if Ascii.eqb u "S" then PZ else if Ascii.eqb u "V" then PY else PI.
  Definition em (q : nat) (c : pauli) : list (gate K) :=
    match c with PI => [] | PX => [Gh q] | PY => [Gs q; Gh q; Gsdg q] | PZ => [Gs q] end.
  Definition lm (c : pauli) : mat2 K :=
    match c with PI => I2 | PX => h2 rt | PY => mul2 (mul2 sdg2 (h2 rt)) s2 | PZ => s2 end.
  Fixpoint codes (k : nat) (U : list ascii) : list pauli :=
    match k with
    | O => []
    | S k' => match U with [] => PI :: codes k' [] | u :: U' => code u :: codes k' U' end
    end.
  Lemma codes_length k : forall U, length (codes k U) = k.
  Proof. induction k as [|k IH]; intros [|u U]; cbn; auto. Qed.
  Lemma code_skipped u : skipped u = true -> code u = PI.
  Proof. rewrite idle_skipped. intros [-> | ->]; reflexivity. Qed.
  Lemma gate_code u q g : clifford_gate u q = Some g -> g = em q (code u) /\ acts u.
  Proof.
    unfold clifford_gate, code, acts. destruct (Ascii.eqb_spec u "H"); [intros [= <-]; auto|].
    destruct (Ascii.eqb_spec u "S"); [intros [= <-]; auto|]. destruct (Ascii.eqb_spec u "V"); [intros [= <-]; auto|discriminate].
  Qed.

  Lemma from_emits N U : forall n g, clifford_from N n U = Some g -> g = emits K em n (codes (N - n) U).
  Proof.
    induction U as [|u U IH]; intros n g; cbn [clifford_from].
    - intros [= <-]. generalize (N - n)%nat as k. intro k. revert n. induction k as [|k IH]; intro n; [reflexivity|]. cbn [codes emits em app]. apply IH.
    - destruct (skipped u) eqn:E.
      + intro H. apply IH in H. destruct (N - n)%nat as [|k] eqn:Ek.
        * replace (N - S n)%nat with O in H by lia. exact H.
        * replace (N - S n)%nat with k in H by lia. cbn [codes emits]. rewrite (code_skipped _ E). exact H.
      + destruct (clifford_gate u n) as [h|] eqn:Eg; [|discriminate]. destruct (Nat.ltb_spec n N) as [L|L]; [|discriminate].
        destruct (clifford_from N (S n) U) as [r|] eqn:Er; [|discriminate]. intros [= <-].
        apply IH in Er. destruct (gate_code _ _ _ Eg) as [-> _]. replace (N - n)%nat with (S (N - S n)) by lia.
        cbn [codes emits]. rewrite <- Er. reflexivity.
  Qed.

  Lemma em_ok N q p pre x post : length pre = q -> N = (q + S (length post))%nat ->
    meq N (mmul N (cmat rt N (em q p)) (kron (pre ++ x :: post))) (kron (pre ++ mul2 (lm p) x :: post)).
  Proof.
    intros Hq HN. destruct p; cbn [em lm].
    - apply emit0; [lia|apply eq2_refl].
    - eapply emit_cons; [exact Hq|exact HN|reflexivity|intro; apply emit0; [lia|apply eq2_refl]|].
      intros a b. symmetry. apply mul2_I_l.
    - eapply emit_cons; [exact Hq|exact HN|reflexivity| |apply eq2_refl].
      intro. eapply emit_cons; [exact Hq|exact HN|reflexivity| |apply eq2_refl].
      intro. eapply emit_cons; [exact Hq|exact HN|reflexivity|intro; apply emit0; [lia|apply eq2_refl]|].
      intros a b. symmetry. apply mul2_I_l.
    - eapply emit_cons; [exact Hq|exact HN|reflexivity|intro; apply emit0; [lia|apply eq2_refl]|].
      intros a b. symmetry. apply mul2_I_l.
  Qed.
  Lemma clifford_kron N U g : initial_clifford N U = Some g -> meq N (cmat rt N g) (kron (map lm (codes N U))).
  Proof.
    intro H. apply from_emits in H. rewrite Nat.sub_0_r in H. subst g.
    pose proof (emits_kron K rt em lm em_ok (codes N U)) as M. rewrite codes_length in M. exact M.
  Qed.

  Lemma adj_lm_lm p : eq2 (mul2 (adj2 K (lm p)) (lm p)) I2.
  Proof.
    pose proof (Ci K) as Ci. pose proof (rt2 K rt rt_sq) as R.
    destruct p; intros [|] [|]; unfold adj2, lm, mul2, h2, s2, sdg2, m2; cbn [pauli1];
      rewrite ?cconj_add, ?cconj_mul, ?cconj_add, ?cconj_mul, ?cconj_opp, ?cconj_i, ?cconj_1, ?cconj_0, ?rt_real; try (ring [Ci]);
      (transitivity (rt * rt + rt * rt); [ring [Ci]|exact R]).
  Qed.
  Lemma adj_lm_pauli u p : skipped u = true \/ acts u ->
    eq2 (mul2 (adj2 K (lm (code u))) (mul2 (pauli1 p) (lm (code u)))) (fun a b => sgn (snd (pulled1 u p)) * pauli1 (fst (pulled1 u p)) a b).
  Proof.
    pose proof (Ci K) as Ci. pose proof (rt2 K rt rt_sq) as R.
    rewrite idle_skipped. intros [[-> | ->] | [-> | [-> | ->]]]; cbn [code Ascii.eqb Bool.eqb];
    destruct p; intros [|] [|]; unfold adj2, lm, mul2, h2, s2, sdg2, m2; cbn [pauli1 pulled1 fst snd sgn];
      rewrite ?cconj_add, ?cconj_mul, ?cconj_add, ?cconj_mul, ?cconj_opp, ?cconj_i, ?cconj_1, ?cconj_0, ?rt_real; try (ring [Ci]).
    all: match goal with |- _ = ?r => replace r with (r * (rt * rt + rt * rt)) by (rewrite R; ring) end; ring [Ci].
  Qed.

  (** ** Which lists are accepted *)
  Lemma from_some N U : forall n, (exists g : list (gate K), clifford_from N n U = Some g) <->
    (forall k u, nth_error U k = Some u -> idle u \/ acts u /\ (n + k < N)%nat).
  Proof.
    induction U as [|u U IH]; intro n; cbn [clifford_from].
    - split; [intros _ [|k] u; discriminate|]. intros _. eexists. reflexivity.
    - destruct (skipped u) eqn:E.
      + apply idle_skipped in E. rewrite IH. split; intros H k v Hk.
        * destruct k as [|k]; [injection Hk as <-; left; exact E|]. destruct (H k v Hk) as [A | [A B]]; [left; exact A|right; split; [exact A|lia]].
        * destruct (H (S k) v Hk) as [A | [A B]]; [left; exact A|right; split; [exact A|lia]].
      + split.
        * intros [g Hg]. destruct (clifford_gate u n) as [h|] eqn:Eg; [|discriminate]. destruct (Nat.ltb_spec n N) as [L|L]; [|discriminate].
          destruct (clifford_from N (S n) U) as [r|] eqn:Er; [|discriminate]. pose proof (proj1 (IH (S n)) (ex_intro _ r Er)) as H.
          intros [|k] v Hk; [injection Hk as <-; right; split; [exact (proj2 (gate_code _ _ _ Eg))|lia]|].
          destruct (H k v Hk) as [A | [A B]]; [left; exact A|right; split; [exact A|lia]].
        * intro H. destruct (H O u eq_refl) as [A | [A B]]; [apply idle_skipped in A; congruence|].
          assert (Eg : exists h : list (gate K), clifford_gate u n = Some h) by (destruct A as [-> | [-> | ->]]; eexists; reflexivity).
          destruct Eg as [h ->]. destruct (Nat.ltb_spec n N) as [L|L]; [|lia].
          destruct (proj2 (IH (S n))) as [r ->]; [|eexists; reflexivity].
          intros k v Hk. destruct (H (S k) v Hk) as [C | [C D]]; [left; exact C|right; split; [exact C|lia]].
  Qed.
  Lemma clifford_some N U : (exists g : list (gate K), initial_clifford N U = Some g) <-> letters_ok N U.
  Proof. exact (from_some N U O). Qed.
  Lemma clifford_ok N U (g : list (gate K)) : initial_clifford N U = Some g -> forall x, In x g -> gate_ok N x.
  Proof.
    unfold initial_clifford. generalize O as n. revert g. induction U as [|u U IH]; intros g n; cbn [clifford_from]; [intros [= <-] x []|].
    destruct (skipped u); [apply IH|]. destruct (clifford_gate u n) as [h|] eqn:Eg; [|discriminate].
    destruct (Nat.ltb_spec n N) as [L|L]; [|discriminate]. destruct (clifford_from N (S n) U) as [r|] eqn:Er; [|discriminate].
    intros [= <-] x Hx. apply in_app_or in Hx. destruct Hx as [Hx|Hx]; [|exact (IH r (S n) Er x Hx)].
    destruct (gate_code _ _ _ Eg) as [-> _]. destruct (code u); cbn [em In] in Hx; intuition (subst; exact L).
  Qed.

  Lemma clifford_single N U (g : list (gate K)) : initial_clifford N U = Some g -> forall x, In x g -> is_cx x = false.
  Proof.
    intro H. apply from_emits in H. subst g. generalize (codes (N - 0) U) as l. intro l. generalize O as n.
    induction l as [|p l IH]; intros n x Hx; [contradiction|]. cbn [emits] in Hx. apply in_app_or in Hx.
    destruct Hx as [Hx|Hx]; [|exact (IH _ _ Hx)]. destruct p; cbn [em In] in Hx; intuition (subst; reflexivity).
  Qed.

  (** ** Conjugation *)
  Definition known (U : list ascii) : Prop := forall u, In u U -> skipped u = true \/ acts u.
  Lemma ok_known N U : letters_ok N U -> known U.
  Proof.
    intros H u Hu. apply In_nth_error in Hu. destruct Hu as [n Hn]. destruct (H n u Hn) as [A | [A _]]; [left; apply idle_skipped; exact A|right; exact A].
  Qed.
  Lemma conj_kron U : known U -> forall s r c, length r = length s -> length c = length s ->
    kron (zip2 K (map (adj2 K) (map lm (codes (length s) U))) (zip2 K (map pauli1 s) (map lm (codes (length s) U)))) r c =
    sgn (snd (pulled U s)) * pmat (fst (pulled U s)) r c.
  Proof.
    induction U as [|u U IH]; intros Hk s.
    - induction s as [|p s IHs]; intros [|a r] [|b c] Hr Hc; try discriminate; cbn [codes length map zip2 kron pulled fst snd sgn pmat] in *; [ring|].
      rewrite IHs by lia. cbn [pulled fst snd sgn]. pose proof (adj_lm_pauli "I"%char p (or_introl eq_refl) a b) as E.
      change (code "I") with PI in E. rewrite E. cbn [pulled1 fst snd sgn]. ring.
    - destruct s as [|p s]; intros [|a r] [|b c] Hr Hc; try discriminate; cbn [codes length map zip2 kron pulled fst snd sgn pmat] in *; [ring|].
      rewrite IH by (try lia; intros v Hv; apply Hk; right; exact Hv).
      rewrite (adj_lm_pauli u p (Hk u (or_introl eq_refl)) a b).
      assert (S : sgn (xorb (snd (pulled1 u p)) (snd (pulled U s))) = sgn (snd (pulled1 u p)) * @sgn K (snd (pulled U s))) by apply sgn_xorb.
      rewrite S. ring.
  Qed.
  Theorem clifford_conj N U g s : initial_clifford N U = Some g -> length s = N ->
    let C := cmat rt N g in
    meq N (mmul N (madj C) C) mone /\
    meq N (mmul N (madj C) (mmul N (pmat s) C)) (mscal (sgn (snd (pulled U s))) (pmat (fst (pulled U s)))).
  Proof.
    intros H L C. pose proof (clifford_kron N U g H) as E. fold C in E.
    assert (A : meq N (madj C) (kron (map (adj2 K) (map lm (codes N U))))).
    { eapply meq_trans; [apply madj_meq, E|]. intros r c _ _. apply kron_adj. }
    assert (Lc : length (map lm (codes N U)) = N) by (rewrite map_length; apply codes_length).
    split.
    - eapply meq_trans; [apply mmul_meq; [exact A|exact E]|]. rewrite map_map.
      pose proof (kron_map_mul K (fun x => adj2 K (lm x)) lm (codes N U)) as M. rewrite codes_length in M.
      eapply meq_trans; [exact M|].
      pose proof (kron_map_eq K _ (fun _ => I2) (codes N U) adj_lm_lm) as Q. rewrite codes_length in Q.
      eapply meq_trans; [exact Q|]. eapply meq_trans; [|apply kron_one]. intros r c _ _. apply kron_eqk.
      clear. generalize (codes_length N U). generalize (codes N U) as l. intro l. revert N.
      induction l as [|x l IH]; intros [|N] Hl; try discriminate; constructor; [apply eq2_refl|]. apply IH. cbn in Hl. lia.
    - eapply meq_trans.
      { apply mmul_meq; [exact A|]. eapply meq_trans.
        - apply mmul_meq; [|exact E]. intros r c _ _. apply pmat_kron.
        - apply kron_mul; [rewrite map_length; exact L|exact Lc]. }
      eapply meq_trans; [apply kron_mul; [rewrite map_length; exact Lc|]|].
      { assert (Z : forall (x y : list (mat2 K)), length x = length y -> length (zip2 K x y) = length x).
        { induction x as [|m x IH]; intros [|m' y] Hxy; try discriminate; [reflexivity|]. cbn in *. rewrite IH; lia. }
        rewrite Z; rewrite ?map_length, ?codes_length; lia. }
      intros r c Hr Hc. subst N. apply conj_kron; [|exact Hr|exact Hc]. apply (ok_known (length s)), clifford_some. eexists. exact H.
  Qed.
  Lemma expect_scal N x (A : mat K) psi : expect N (mscal x A) psi = x * expect N A psi.
  Proof.
    unfold expect, mvec, mscal. rewrite <- sumbits_scal. apply sumbits_ext. intros r Hr.
    rewrite (sumbits_ext K N _ (fun c => x * (A r c * psi c))) by (intros; ring). rewrite sumbits_scal. ring.
  Qed.
  Theorem clifford_average N U g s psi : initial_clifford N U = Some g -> length s = N ->
    expect N (pmat s) (mvec N (cmat rt N g) psi) = sgn (snd (pulled U s)) * expect N (pmat (fst (pulled U s))) psi.
  Proof.
    intros H L. destruct (clifford_conj N U g s H L) as [_ C]. rewrite <- expect_scal, <- (expect_meq K N _ _ psi C), expect_adj.
    unfold expect. apply sumbits_ext. intros b Hb. rewrite mvec_mmul. reflexivity.
  Qed.

  (** ** The strings of the reference after the gates *)
  Notation zeros := (@zero_state K).
  Lemma mvec_zeros N (A : mat K) r : mvec N A (zeros N) r = A r (repeat false N).
  Proof.
    unfold mvec, zero_state. rewrite (sumbits_ext K N _ (fun c => if bits_eqb c (repeat false N) then A r c else 0)).
    - apply (sumbits_pick K N (repeat false N) (fun c => A r c)). apply repeat_length.
    - intros b Hb. rewrite bits_eqb_sym. destruct (bits_eqb b _); ring.
  Qed.
  Lemma yx_zero U : forall t, y_safe U t -> exists z, forall r, length r = length t ->
    kron (zip2 K (map pauli1 (map yx t)) (map lm (codes (length t) U))) r (repeat false (length t)) =
    ipow z * kron (zip2 K (map pauli1 t) (map lm (codes (length t) U))) r (repeat false (length t)).
  Proof.
    intro t. revert U. induction t as [|p t IH]; intros U Y.
    - exists 0%Z. intros [|a r] Hr; try discriminate. unfold ipow. cbn. ring.
    - set (U' := tl U).
      assert (Y' : y_safe U' t) by (intros n Hn; specialize (Y (S n) Hn); destruct U; [destruct n; split; discriminate|exact Y]).
      destruct (IH U' Y') as [z Hz].
      exists (match p with PY => 3 + z | _ => z end)%Z. intros [|a r] Hr; try discriminate. cbn in Hr.
      assert (Ec : codes (length (p :: t)) U = match U with [] => PI | u :: _ => code u end :: codes (length t) U') by (destruct U; reflexivity).
      rewrite Ec. cbn [map zip2 length repeat kron]. rewrite Hz by lia.
      destruct p; cbn [yx]; try ring. rewrite ipow_add. replace (@ipow K 3) with (- (@ci K)) by (unfold ipow; cbn; ring).
      assert (Q : forall b, mul2 (pauli1 PX) (lm match U with [] => PI | u :: _ => code u end) b false =
                            - ci * mul2 (pauli1 PY) (lm match U with [] => PI | u :: _ => code u end) b false).
      { pose proof (Ci K) as Ci. destruct (Y O eq_refl) as [NH NV]. destruct U as [|u U0]; cbn [nth_error] in NH, NV.
        - intros [|]; unfold mul2; cbn [lm pauli1]; ring [Ci].
        - unfold code. destruct (Ascii.eqb_spec u "H"); [congruence|]. destruct (Ascii.eqb_spec u "S").
          + intros [|]; unfold mul2, lm, s2, m2; cbn [pauli1]; ring [Ci].
          + destruct (Ascii.eqb_spec u "V"); [congruence|]. intros [|]; unfold mul2; cbn [lm pauli1]; ring [Ci]. }
      rewrite Q. ring.
  Qed.
  Lemma minus_i_pow k : cpow (- ci) k = @ipow K (3 * Z.of_nat k).
  Proof.
    induction k as [|k IHk]; [reflexivity|].
    replace (3 * Z.of_nat (S k))%Z with (3 + 3 * Z.of_nat k)%Z by lia. rewrite ipow_add, <- IHk. cbn [cpow]. unfold ipow. cbn. ring.
  Qed.
  Theorem reference_state U t c g : clifford_reference rt (length t) U [(t, c)] = Some g -> y_safe U t ->
    exists h z, initial_clifford (length t) U = Some h /\ forall r, length r = length t ->
      mvec (length t) (cmat rt (length t) g) (zeros (length t)) r =
      ipow z * mvec (length t) (pmat t) (mvec (length t) (cmat rt (length t) h) (zeros (length t))) r.
  Proof.
    unfold clifford_reference. destruct (initial_clifford (length t) U) as [h|] eqn:H; [|discriminate]. intros [= <-] Y.
    exists h. destruct (yx_zero U t Y) as [z Hz]. exists (3 * Z.of_nat (nz t) + z)%Z. split; [reflexivity|]. intros r Hr.
    set (N := length t) in *.
    assert (E : forall s, length s = N -> meq N (mmul N (pmat s) (cmat rt N h)) (kron (zip2 K (map pauli1 s) (map lm (codes N U))))).
    { intros s Ls. eapply meq_trans.
      - apply mmul_meq; [intros r0 c0 _ _; apply pmat_kron|apply clifford_kron, H].
      - apply kron_mul; [rewrite map_length; exact Ls|rewrite map_length; apply codes_length]. }
    rewrite <- mvec_mmul. rewrite !mvec_zeros.
    rewrite (E t eq_refl r _ Hr (repeat_length _ _)). rewrite ipow_add, <- minus_i_pow.
    assert (A : meq N (cmat rt N (h ++ initial_circuit rt [(t, c)])) (mscal (cpow (- ci) (nz t)) (mmul N (pmat (map yx t)) (cmat rt N h)))).
    { cbn [initial_circuit flat_map fst]. unfold initial_circuit. cbn [flat_map fst]. rewrite app_nil_r.
      eapply meq_trans; [apply cmat_app|]. eapply meq_trans; [apply mmul_meq; [apply (apply_mat K rt rt_sq t)|apply meq_refl]|]. apply mmul_scal_l. }
    rewrite (A r _ Hr (repeat_length _ _)). unfold mscal.
    rewrite (E (map yx t) (map_length _ _) r _ Hr (repeat_length _ _)). unfold N in *. rewrite Hz by exact Hr. ring.
  Qed.
End IclP.
