(** The averages of a group of strings from one stabilized circuit. *)
From Coq Require Import Bool List Arith ZArith Lia Ring.
From Verif Require Import Coeff MatSpec MatLemmas PauliModel PauliProofs OptModel CircuitSpec CircuitModel CircuitProofs2 TomoModel TomoProofs PlanProofs2 StabModel StabSpec
  Sqrt2 StabProofs StabProofs2 StabProofs3 StabProofs4 ScModel ScSpec ScProofs1 ScProofs2 ScProofs3 ScProofs4.
Import ListNotations.

(** ** The dictionary *)
Lemma fold_pset_in : forall l d e, In e (fold_left (fun d e => pset (fst e) (snd e) d) l d) -> In e l \/ In e d.
Proof.
  induction l as [|x l IH]; intros d e H; [now right|]. cbn [fold_left] in H. apply IH in H. destruct H as [H|H]; [left; now right|].
  apply pset_In in H. destruct H as [->|H]; [left; left; now destruct x|now right].
Qed.
Lemma fold_pset_key : forall l d k, In k (map fst l) \/ In k (map fst d) -> In k (map fst (fold_left (fun d e => pset (fst e) (snd e) d) l d)).
Proof.
  induction l as [|x l IH]; intros d k H; [destruct H as [[]|H]; exact H|]. cbn [fold_left]. apply IH. cbn [map] in H.
  destruct H as [[<-|H]|H]; [right; apply pset_key_in|now left|right; now apply pset_key_keep].
Qed.
Lemma in_combine_nth : forall A B (la : list A) (lb : list B) da db x y, length la = length lb -> In (x, y) (combine la lb) ->
  exists t, t < length la /\ x = nth t la da /\ y = nth t lb db.
Proof.
  induction la as [|a la IH]; intros [|b lb] da db x y HL H; try discriminate; [destruct H|]. cbn [combine] in H. destruct H as [H|H].
  - injection H as <- <-. exists 0. cbn. split; [lia|split; reflexivity].
  - destruct (IH lb da db x y ltac:(cbn in HL; lia) H) as (t & Ht & E1 & E2). exists (S t). cbn. split; [lia|split; assumption].
Qed.
Lemma map_fst_combine : forall A B (la : list A) (lb : list B), length la = length lb -> map fst (combine la lb) = la.
Proof. induction la as [|a la IH]; intros [|b lb] H; try discriminate; [reflexivity|]. cbn. f_equal. apply IH. cbn in H. lia. Qed.

Lemma paulis_get_In : forall K t s e, (forall x, In x t -> x <> None) -> In (Some (s, e)) t -> exists e', @paulis_get K s t = Some e' /\ In (Some (s, e')) t.
Proof.
  intros K t s e. induction t as [|[(s', x)|] t IH]; intros H Hi; [destruct Hi| |exfalso; apply (H None); [now left|reflexivity]]. cbn [paulis_get].
  assert (H' : forall x, In x t -> x <> None) by (intros; apply H; now right).
  destruct (paulis_get s t) as [e'|] eqn:Q.
  - exists e'. split; [reflexivity|]. right. clear IH Hi H. revert Q. induction t as [|[(s2, x2)|] t IH]; intro Q; [discriminate| |discriminate].
    cbn [paulis_get] in Q. destruct (paulis_get s t) as [e2|] eqn:Q2.
    + injection Q as <-. right. apply IH; auto. intros; apply H'; now right.
    + destruct (pstr_eqb s s2) eqn:Es; [|discriminate]. injection Q as <-. apply pstr_eqb_spec in Es. subst s2. now left.
  - destruct Hi as [Hi|Hi].
    + injection Hi as -> ->. rewrite (proj2 (pstr_eqb_spec s s) eq_refl). exists e. split; [reflexivity|now left].
    + destruct (IH H' Hi) as (e' & C & _). congruence.
Qed.

Section Avg.
  Variable K : CoefRing.
  Add Ring KRing5 : (c_ring K).
  Local Open Scope coef_scope.

  Lemma agree_mul a s b : agrees a b -> agrees s b -> agrees (pmuls a s) b /\ @ipow K (pexps a s) = 1.
  Proof.
    intro A. revert s. induction A as [|x a b A IH|x a b A IH]; intros s S.
    - inversion S; subst. split; [constructor|reflexivity].
    - inversion S as [|y s' b' S' E1 E2|y s' b' S' E1 E2]; subst; destruct (IH _ S') as (I1 & I2); cbn [pmuls pexps]; rewrite ipow_add, I2;
        (split; [destruct x; now constructor|destruct x; cbn; ring]).
    - inversion S as [|y s' b' S' E1 E2|y s' b' S' E1 E2]; subst; destruct (IH _ S') as (I1 & I2); cbn [pmuls pexps]; rewrite ipow_add, I2;
        (split; [destruct x; now constructor|destruct x; cbn; ring]).
  Qed.
  Lemma agree_identity b : agrees (repeat PI (length b)) b.
  Proof. induction b as [|x b IH]; cbn; now constructor. Qed.
  Lemma product_agree N b ss : length b = N -> (forall s, In s ss -> agrees s b) ->
    agrees (fst (@string_product K N ss)) b /\ snd (@string_product K N ss) = 1.
  Proof.
    intros Lb H. unfold string_product.
    assert (G : forall ss (acc : list pauli * K), (forall s, In s ss -> agrees s b) -> agrees (fst acc) b -> snd acc = 1 ->
      let r := fold_left (fun prod s => pauli_mul prod (s, c1)) ss acc in agrees (fst r) b /\ snd r = 1).
    { clear ss H. induction ss as [|s ss IH]; intros acc H A E; [split; assumption|]. cbn [fold_left].
      assert (As : agrees s b) by (apply H; now left). destruct (agree_mul _ s b A As) as (M1 & M2).
      assert (Hl : length (fst acc) = length s) by (rewrite (agrees_length _ _ A), (agrees_length _ _ As); reflexivity).
      apply IH; [intros; apply H; now right| |]; rewrite (pauli_mul_eq K acc (s, c1)) by exact Hl; cbn [fst snd]; [exact M1|].
      rewrite E, M2. ring. }
    apply G; [exact H|cbn [fst]; rewrite <- Lb; apply agree_identity|reflexivity].
  Qed.

  Lemma mprod_carries N (U : mat K) : forall ss ts, length ss = length ts ->
    (forall t, (t < length ss)%nat -> carries N U (nth t ss []) (nth t ts [])) -> meq N (mmul N U (mprod N ss)) (mmul N (mprod N ts) U).
  Proof.
    induction ss as [|s ss IH]; intros [|t ts] HL H; try discriminate.
    - unfold mprod. cbn [fold_right]. eapply meq_trans; [apply mmul_one_r|apply meq_sym, mmul_one_l].
    - change (mprod N (s :: ss)) with (mmul N (@pmat K s) (mprod N ss)). change (mprod N (t :: ts)) with (mmul N (@pmat K t) (mprod N ts)).
      eapply meq_trans; [apply mmul_assoc|]. eapply meq_trans; [apply mmul_meq; [apply (H 0%nat); cbn; lia|apply meq_refl]|].
      eapply meq_trans; [apply meq_sym, mmul_assoc|]. eapply meq_trans; [apply mmul_meq; [apply meq_refl|]|apply mmul_assoc].
      apply IH; [cbn in HL; lia|]. intros k Hk. apply (H (S k)). cbn. lia.
  Qed.
  Lemma diagonal_agrees s : diagonal s -> agrees s (repeat PZ (length s)).
  Proof.
    induction s as [|x s IH]; intro H; [constructor|]. cbn [length repeat]. assert (D : diagonal s) by (intros y Hy; apply H; now right). destruct (H x (or_introl eq_refl)) as [->| ->]; [apply agrees_I|apply agrees_same]; now apply IH.
  Qed.
  Lemma agrees_diagonal s n : agrees s (repeat PZ n) -> diagonal s.
  Proof.
    revert s. induction n as [|n IH]; intros s A; cbn [repeat] in A; inversion A; subst; intros x Hx; [destruct Hx| |]; (destruct Hx as [<-|Hx]; [auto|eapply IH; eauto]).
  Qed.
  Lemma ctp_diagonal N r : (forall q, (q < N)%nat -> vget r (q + N) = false) -> diagonal (check_to_pauli N r).
  Proof.
    intros H p Hp. unfold check_to_pauli in Hp. apply in_map_iff in Hp. destruct Hp as (i & <- & Hi). apply in_seq in Hi. rewrite H by lia.
    destruct (vget r i); auto.
  Qed.

  Variable rt : K.
  Hypothesis rt_sq : rt * rt = chalf.
  Hypothesis rt_real : cconj rt = rt.

  Theorem stabilized_group N b ps fuel : length b = N -> (forall p, In p ps -> agrees p b) -> (2 * N * N + 6 < fuel)%nat ->
    exists sc, stabilized_circuit fuel N ps = Some sc /\
      (forall g, In g (sc_gates sc) -> sgate_ok N g) /\
      (forall t m, In (t, m) (sc_TM sc) -> length t = N /\ length m = N /\ diagonal m /\ carries N (cmat rt N (circuit rt (sc_gates sc))) t m) /\
      (forall z, In z (sc_zz sc) -> (exists m, pget z (sc_TM sc) = Some m) /\ In z (null_basis N ps) /\ diagonal z) /\
      (forall p, In p ps -> nonid p = true -> exists ss f, @paulis_get K p (paulis_table 3 N ps) = Some (ss, 1) /\
         @fetch K N (sc_TM sc) ss = Some (f, 1) /\ length f = N /\ diagonal f /\ carries N (cmat rt N (circuit rt (sc_gates sc))) p f).
  Proof.
    intros Lb A Fu. destruct (gaussian_elimination N (parity_matrix N ps)) as [E piv] eqn:GE.
    pose proof (lens N b ps Lb A) as HL. pose proof (RR N b ps E piv Lb A GE) as R.
    destruct (whole N b ps E piv Lb A GE K rt rt_sq fuel Fu) as (gs & m3 & ES & O & T & X & _).
    set (G0 := map (exchange N) (firstn (length piv) E)) in *.
    set (L := filter (fun m => z_type N (nullv (2 * N) E piv m)) (free (2 * N) piv)) in *.
    set (Z0 := map (nullv (2 * N) E piv) L) in *. set (m0 := (G0 ++ Z0)%list) in *.
    set (T0 := map (check_to_pauli N) m0) in *. set (TM := fold_left (fun d e => pset (fst e) (snd e) d) (combine T0 (map (check_to_pauli N) m3)) []) in *.
    destruct T as (T1 & T2).
    assert (TL : length T0 = length (map (check_to_pauli N) m3)) by (rewrite map_length; symmetry; exact T1).
    assert (ent : forall t m, In (t, m) TM -> length t = N /\ length m = N /\ diagonal m /\ carries N (cmat rt N (circuit rt gs)) t m).
    { intros t m H. unfold TM in H. apply fold_pset_in in H. destruct H as [H|[]].
      destruct (in_combine_nth _ _ T0 (map (check_to_pauli N) m3) [] (check_to_pauli N []) t m TL H) as (k & Hk & -> & ->).
      rewrite map_nth. assert (Hk3 : (k < length m3)%nat) by (rewrite T1; exact Hk).
      split; [|split; [apply ctp_length|split; [apply ctp_diagonal; intros q Hq; apply X; [now apply nth_In|exact Hq]|now apply T2]]].
      unfold T0 in Hk |- *. rewrite map_length in Hk. rewrite (nth_indep _ [] (check_to_pauli N [])) by (now rewrite map_length). rewrite map_nth. apply ctp_length. }
    assert (key : forall s, In s T0 -> exists m, pget s TM = Some m /\ In (s, m) TM).
    { intros s Hs. assert (Hk : In s (map fst TM)) by (apply fold_pset_key; left; now rewrite map_fst_combine).
      apply in_map_iff in Hk. destruct Hk as ((s', m) & <- & Hk). cbn [fst]. destruct (pget_In s' TM m Hk) as (m' & H1 & H2). exists m'. split; assumption. }
    assert (rowok : forall s, In s (map (check_to_pauli N) G0) -> agrees s b /\ In s T0).
    { intros s Hs. split; [|unfold T0, m0; rewrite map_app; apply in_app_iff; now left].
      apply in_map_iff in Hs. destruct Hs as (r & <- & Hr). destruct (in_G0 N b ps E piv Lb A GE r Hr) as (k & Hk & Er).
      apply agrees_nth; [rewrite ctp_length; now symmetry|]. intros i Hi. destruct (lt_dec i N) as [C|C]; [|rewrite nth_overflow in Hi by (rewrite ctp_length; lia); now destruct Hi].
      fold G0 in Er. rewrite ctp_letter in Hi |- * by exact C. subst r. unfold letter in Hi |- *.
      pose proof (G0_Z N b ps E piv Lb A GE k i Hk C) as QZ. pose proof (G0_X N b ps E piv Lb A GE k i Hk C) as QX. fold G0 in QZ, QX. rewrite QZ, QX in Hi |- *. clear QZ QX.
      destruct (G0_ok N b ps E piv Lb A GE k Hk i C) as (O1 & O2 & O3). unfold xb, zb in O1, O2, O3.
      destruct (nth i b PI); cbn in O1, O2, O3; try rewrite O1 in Hi |- * by reflexivity; try rewrite O2 in Hi |- * by reflexivity; try rewrite O3 in Hi |- * by reflexivity;
        try (destruct (vget (nth k E []) i)); try (destruct (vget (nth k E []) (i + N))); congruence. }
    eexists. split; [exact ES|]. cbn [sc_gates sc_TM sc_zz]. split; [exact O|]. split; [exact ent|]. split.
    - intros z Hz. destruct (key z) as (m & Hm & _); [unfold T0, m0; rewrite map_app; apply in_app_iff; now right|]. split; [now exists m|].
      apply in_map_iff in Hz. destruct Hz as (r & <- & Hr). unfold Z0 in Hr. apply in_map_iff in Hr. destruct Hr as (c & <- & Hc). split.
      + rewrite (null_basis_eq N ps E piv GE). apply in_map, in_map. unfold L in Hc. apply filter_In in Hc. apply Hc.
      + apply ctp_diagonal. intros q Hq. now apply (L_spec N b ps E piv Lb A GE c Hc).
    - intros p Hp Hn. destruct (paulis_table_spec K N ps 3 HL ltac:(lia)) as (P1 & P2).
      destruct (P2 p Hp Hn) as (ss0 & x0 & I0).
      destruct (paulis_get_In K (paulis_table 3 N ps) p (ss0, x0)) as ((ss, x) & Eg & Ig).
      { intros e He. destruct (P1 e He) as (s & ss & x & -> & _). discriminate. }
      { exact I0. }
      destruct (P1 _ Ig) as (s & ss' & x' & Es & _ & Hss & Hm). injection Es as <- <- <-.
      assert (Hss' : forall s, In s ss -> agrees s b /\ In s T0).
      { intros s Hs. apply rowok. specialize (Hss s Hs). rewrite GE in Hss. cbn [fst] in Hss. rewrite (reduced_eq N _ E piv R) in Hss. exact Hss. }
      assert (Hx : x = 1).
      { unfold paulis_table in Ig. rewrite GE in Ig. apply in_map_iff in Ig. destruct Ig as (g & Eq & _). unfold paulis_entry in Eq.
        destruct (decompose 3 (2 * N) (reduced N E) g []) as [soln|]; [|discriminate]. injection Eq as _ <- <-.
        apply (product_agree N b); [exact Lb|]. intros s Hs. now apply Hss'. }
      subst x.
      assert (Im : exists ts, images (TM) ss = Some ts /\ length ss = length ts /\ (forall s, In s ts -> length s = N /\ diagonal s) /\
                  forall k, (k < length ss)%nat -> carries N (cmat rt N (circuit rt gs)) (nth k ss []) (nth k ts [])).
      { clear Hm Eg Ig Hss. induction ss as [|s ss IH].
        - exists []. split; [reflexivity|]. split; [reflexivity|]. split; [intros ? []|]. cbn. intros; lia.
        - destruct IH as (ts & E1 & E2 & E3 & E4); [intros; apply Hss'; now right|].
          destruct (key s) as (m & Hm & Im); [now apply Hss'; left|]. destruct (ent _ _ Im) as (_ & M1 & M2 & M3).
          exists (m :: ts). cbn [images]. rewrite Hm, E1. split; [reflexivity|]. split; [cbn; now rewrite E2|]. split.
          + intros s' [<-|Hs']; [now split|now apply E3].
          + intros [|k] Hk; cbn [nth]; [exact M3|]. apply E4. cbn in Hk. lia. }
      destruct Im as (ts & E1 & E2 & E3 & E4).
      assert (At : forall s, In s ts -> agrees s (repeat PZ N)).
      { intros s Hs. destruct (E3 s Hs) as (Ls & Ds). rewrite <- Ls. now apply diagonal_agrees. }
      destruct (product_agree N (repeat PZ N) ts (repeat_length _ _) At) as (F1 & F2).
      destruct (string_product_spec K N ts (fun s Hs => proj1 (E3 s Hs))) as (F3 & F4).
      exists ss, (fst (@string_product K N ts)). split; [exact Eg|]. split.
      { unfold fetch. rewrite E1. f_equal. rewrite <- F2. now destruct (@string_product K N ts). }
      split; [rewrite F3; apply lprod_length; intros s Hs; now apply E3|]. split; [eapply agrees_diagonal; exact F1|].
      pose proof (mprod_carries N (cmat rt N (circuit rt gs)) ss ts E2 E4) as Hc. unfold carries.
      rewrite F2 in F4.
      eapply meq_trans; [apply mmul_meq; [apply meq_refl|]|eapply meq_trans; [exact Hc|apply mmul_meq; [|apply meq_refl]]].
      + apply meq_sym. eapply meq_trans; [exact Hm|]. intros r c _ _. unfold mscal. ring.
      + apply meq_sym. eapply meq_trans; [|exact F4]. intros r c _ _. unfold mscal. ring.
  Qed.
End Avg.

(** ** Which circuits can be applied *)
Lemma apply_all_spec : forall (K : CoefRing) (gs : list sgate),
  @apply_all K gs <> None <-> forall g, In g gs -> exists i j, g = SCx i j.
Proof.
  intros K gs. induction gs as [|g gs IH]; [split; [intros _ g []|discriminate]|]. cbn [apply_all]. destruct g as [i|i j|i]; cbn [executed].
  - split; [now intros []|]. intro H. destruct (H (SSi i) (or_introl eq_refl)) as (a & c & Q). discriminate.
  - destruct (@apply_all K gs) as [l|] eqn:Q.
    + split; [|discriminate]. intros _ g [<-|Hg]; [now exists i, j|]. apply IH; [discriminate|exact Hg].
    + split; [now intros []|]. intro H. exfalso. apply (proj2 IH); [|reflexivity]. intros g Hg. apply H. now right.
  - split; [now intros []|]. intro H. destruct (H (SH i) (or_introl eq_refl)) as (a & c & Q). discriminate.
Qed.

Section Exec.
  Variable K : CoefRing.
  Variables (N : nat) (b : list pauli) (ps : list (list pauli)) (fuel : nat).
  Hypothesis Lb : length b = N.
  Hypothesis A : forall p, In p ps -> agrees p b.
  Hypothesis Fu : 2 * N * N + 6 < fuel.

  Lemma nondiag_pivot E piv p : gaussian_elimination N (parity_matrix N ps) = (E, piv) -> In p ps -> ~ diagonal p -> exists q, In q piv /\ q < N.
  Proof.
    intros GE Hp D. pose proof (RR N b ps E piv Lb A GE) as R. pose proof (lens N b ps Lb A p Hp) as Lp.
    destruct (existsb (fun q => q <? N) piv) eqn:Q; [apply existsb_exists in Q; destruct Q as (q & H1 & H2); exists q; split; [exact H1|now apply Nat.ltb_lt]|].
    exfalso. apply D. assert (nop : forall q, In q piv -> N <= q).
    { intros q Hq. destruct (le_lt_dec N q) as [C|C]; [exact C|]. assert (existsb (fun q => q <? N) piv = true); [|congruence].
      apply existsb_exists. exists q. split; [exact Hq|now apply Nat.ltb_lt]. }
    assert (nid : nonid p = true).
    { unfold nonid. apply negb_true_iff. destruct (forallb (fun x => pauli_eqb x PI) p) eqn:F; [|reflexivity]. exfalso. apply D. intros x Hx.
      rewrite forallb_forall in F. specialize (F x Hx). left. now destruct x. }
    assert (Sp : span (2 * N) E (exchange N (pauli_to_check p))).
    { apply (rr_span2 _ _ _ _ _ R). apply in_map. now apply (proj1 (columns_spec N ps)). }
    assert (X0 : forall j, j < N -> vget (exchange N (pauli_to_check p)) j = false).
    { intros j Hj. apply (span_zero_prefix (2 * N) _ E piv _ j R Sp); [lia|]. intros q Hq Hle. specialize (nop q Hq). lia. }
    intros x Hx. destruct (In_nth _ _ PI Hx) as (i & Hi & <-). rewrite Lp in Hi. specialize (X0 i Hi).
    rewrite exchange_get in X0 by (try lia; now apply ptc_length). unfold ex in X0. rewrite (proj2 (Nat.ltb_lt i N) Hi) in X0.
    rewrite (vget_ptc_x p i N Lp Hi) in X0. cbn zeta in X0. destruct (nth i p PI); cbn in X0; auto; discriminate.
  Qed.

  Theorem cannot_apply p : In p ps -> ~ diagonal p -> exists sc, stabilized_circuit fuel N ps = Some sc /\ @apply_all K (sc_gates sc) = None.
  Proof.
    intros Hp D. destruct (gaussian_elimination N (parity_matrix N ps)) as [E piv] eqn:GE.
    destruct (nondiag_pivot E piv p GE Hp D) as (q & Hq & Hn).
    destruct (whole N b ps E piv Lb A GE GaussR rrt rrt_sq fuel Fu) as (gs & m3 & ES & O & T & X & H).
    eexists. split; [exact ES|]. cbn [sc_gates]. destruct (@apply_all K gs) as [l|] eqn:Q; [|reflexivity]. exfalso.
    assert (C : @apply_all K gs <> None) by congruence. rewrite apply_all_spec in C. destruct (C _ (H q Hq Hn)) as (i & j & W). discriminate.
  Qed.

  Lemma xx_none m gs : find_pair N m = None -> forall n (done : bool) iters, 5 - iters + (if done then 0 else 1) < n -> xx_loop n N m gs done iters = Some (m, gs).
  Proof.
    intros F. induction n as [|n IH]; intros done iters H; [lia|]. cbn [xx_loop]. destruct (negb done || (iters <? 5)) eqn:C; [|reflexivity].
    unfold sub_step. rewrite F. apply IH. destruct done; [|lia]. cbn [negb orb] in C. apply Nat.ltb_lt in C. lia.
  Qed.
  Lemma filter_nil (f : nat -> bool) : (forall i, i < N -> f i = false) -> filter f (seq 0 N) = [].
  Proof.
    intro H. assert (G : forall l, (forall i, In i l -> i < N) -> filter f l = []).
    { induction l as [|x l IH]; intro Hl; [reflexivity|]. cbn [filter]. rewrite H by (apply Hl; now left). apply IH. intros; apply Hl; now right. }
    apply G. intros i Hi. apply in_seq in Hi. lia.
  Qed.
  Theorem can_apply : (forall p, In p ps -> diagonal p) -> exists sc, stabilized_circuit fuel N ps = Some sc /\ sc_gates sc = [].
  Proof.
    intro D. set (b' := repeat PZ N). assert (Lb' : length b' = N) by apply repeat_length.
    assert (A' : forall p, In p ps -> agrees p b').
    { intros p Hp. unfold b'. rewrite <- (lens N b ps Lb A p Hp). apply diagonal_agrees. now apply D. }
    destruct (gaussian_elimination N (parity_matrix N ps)) as [E piv] eqn:GE.
    unfold stabilized_circuit. rewrite (construct_eq N b' ps E piv Lb' A' GE).
    set (G0 := map (exchange N) (firstn (length piv) E)). set (Z0 := map (nullv (2 * N) E piv) _). set (m0 := G0 ++ Z0).
    pose proof (m0_shape N b' ps E piv Lb' A' GE) as S0. fold G0 Z0 m0 in S0.
    assert (X0 : forall r i, In r m0 -> i < N -> vget r (i + N) = false).
    { intros r i Hr Hi. apply in_app_iff in Hr. destruct Hr as [Hr|Hr]; [|exact (Z0_X N b' ps E piv Lb' A' GE r i Hr Hi)].
      destruct (in_G0 N b' ps E piv Lb' A' GE r Hr) as (k & Hk & ->). rewrite (G0_X N b' ps E piv Lb' A' GE k i Hk Hi).
      apply (G0_ok N b' ps E piv Lb' A' GE k Hk i Hi). unfold xb, b'. rewrite (nth_indep _ PI PZ) by (rewrite repeat_length; exact Hi). rewrite nth_repeat. reflexivity. }
    rewrite (simplify_y_eq N m0 [] S0). rewrite filter_nil.
    2:{ intros i Hi. destruct (existsb (is_y N i) m0) eqn:Q; [|reflexivity]. apply existsb_exists in Q. destruct Q as (r & Hr & Q). unfold is_y in Q. rewrite (X0 r i Hr Hi), andb_false_r in Q. discriminate. }
    cbn [map app]. set (m1 := map (upto (y_row N) (is_y N) m0 N) m0).
    assert (S1 : shape (2 * N) m1) by (intros r Hr; apply in_map_iff in Hr; destruct Hr as (r0 & <- & Hr); rewrite upto_len; [now apply S0|apply y_row_len]).
    assert (X1 : forall r i, In r m1 -> i < N -> vget r (i + N) = false).
    { intros r i Hr Hi. apply in_map_iff in Hr. destruct Hr as (r0 & <- & Hr). rewrite y_upto_getX by (auto; now apply S0). now apply X0. }
    assert (F1 : find_pair N m1 = None).
    { pose proof (find_pair_spec N m1) as H. destruct (find_pair N m1) as [[i j]|]; [|reflexivity]. destruct H as (r & Hr & Hi & _ & Xi & _). rewrite X1 in Xi by assumption. discriminate. }
    rewrite (xx_none m1 [] F1) by (cbn; lia). rewrite (simplify_h_eq N m1 [] S1). rewrite filter_nil.
    2:{ intros i Hi. destruct (existsb (is_x N i) m1) eqn:Q; [|reflexivity]. apply existsb_exists in Q. destruct Q as (r & Hr & Q). unfold is_x in Q. rewrite (X1 r i Hr Hi), andb_false_r in Q. discriminate. }
    eexists. split; reflexivity.
  Qed.
End Exec.
