(** Proofs about the ACSE loop and the Newton step. *)
From Coq Require Import Bool List Arith ZArith QArith Qabs Qminmax Lia Lqa.
From Verif Require Import AcseSpec AcseModel AcseProofs2.
Import ListNotations.
Local Open Scope Q_scope.

Lemma Qsq (x : Q) : 0 <= x * x.
Proof. destruct (Qlt_le_dec x 0); nra. Qed.

(** ** The loop. *)
Section Run.
  Variables (backend : acse -> acse_step) (c : acse_cfg).

  Definition ainv (a : acse) : Prop :=
    length (a_logE a) = S (a_iter a) /\
    (a_iter a = 0%nat -> a_ek a = a_best a) /\
    In (a_best a) (a_logE a) /\ (forall x, In x (a_logE a) -> a_best a <= x) /\
    a_incr a = rises (a_logE a).

  Lemma ainv_build e0 : ainv (acse_build e0).
  Proof.
    split; [reflexivity|]. split; [reflexivity|]. split; [left; reflexivity|]. split; [|reflexivity].
    intros x [<-|[]]. cbn. lra.
  Qed.

  Lemma firstn_min3 (l : list Q) k : length l = k -> firstn (Nat.min 3 k) l = firstn 3 l.
  Proof.
    intros <-. destruct (Nat.le_gt_cases 3 (length l)) as [H|H].
    - rewrite Nat.min_l by exact H. reflexivity.
    - rewrite Nat.min_r by lia. rewrite firstn_all. symmetry. apply firstn_all2. lia.
  Qed.

  Lemma check_inv s a a' : ainv a -> acse_check c s a = Some a' ->
    ainv a' /\ a_iter a' = S (a_iter a) /\ a_logE a' = s_en s :: a_logE a /\
    (a_done a' = true <-> a_done a = true \/ s_stop s = true \/ a_iter a' = max_iter c \/
       (Qle_bool (mean (firstn 3 (a_logE a'))) (s_en s) = true /\ (3 <= rises (a_logE a'))%nat) \/
       converged c s = Some true).
  Proof.
    intros [L [Z [B [M I]]]] H. unfold acse_check in H.
    destruct (negb (Nat.eqb (S (a_iter a)) (max_iter c)) &&
              match max_depth c with Some d => Nat.eqb (s_depth s) d | None => false end); [discriminate|].
    destruct (converged c s) as [cv|] eqn:Cv; [|discriminate].
    assert (SI : forall x y : acse, Some x = Some y -> x = y) by congruence. apply SI in H. clear SI. subst a'.
    assert (FM : firstn (Nat.min 3 (S (a_iter a) + 1)) (s_en s :: a_logE a) = firstn 3 (s_en s :: a_logE a)).
    { apply firstn_min3. cbn [length]. lia. }
    assert (BE : (if Nat.eqb (a_iter a) 0 then a_ek a else a_best a) = a_best a).
    { destruct (Nat.eqb (a_iter a) 0) eqn:E; [apply Z; apply Nat.eqb_eq; exact E|reflexivity]. }
    assert (Incr : (if Qle_bool (average (firstn (Nat.min 3 (S (a_iter a) + 1)) (s_en s :: a_logE a))) (s_en s)
                    then S (a_incr a) else a_incr a) = rises (s_en s :: a_logE a)).
    { rewrite FM. destruct (a_logE a) as [|y l] eqn:EL; [destruct B|].
      change (rises (s_en s :: y :: l)) with
        ((if Qle_bool (mean (firstn 3 (s_en s :: y :: l))) (s_en s) then 1 else 0) + rises (y :: l))%nat.
      rewrite <- I. change (average (firstn 3 (s_en s :: y :: l))) with (mean (firstn 3 (s_en s :: y :: l))).
      destruct (Qle_bool _ _); reflexivity. }
    split; [|split; [reflexivity|split; [reflexivity|]]].
    - cbn [a_iter a_logE a_ek a_best a_incr ainv]. unfold ainv. cbn [a_iter a_logE a_ek a_best a_incr].
      split; [cbn [length]; lia|]. split; [discriminate|]. rewrite BE.
      split; [|split; [|exact Incr]].
      + destruct (Qltb (s_en s) (a_best a)); [left; reflexivity|right; exact B].
      + intros x [<-|Hx]; destruct (Qltb (s_en s) (a_best a)) eqn:T.
        * lra.
        * apply Qltb_ge in T. exact T.
        * apply Qltb_lt in T. specialize (M x Hx). lra.
        * apply M. exact Hx.
    - cbn [a_done a_iter a_logE]. rewrite Incr, FM. fold (mean (firstn 3 (s_en s :: a_logE a))).
      change (average (firstn 3 (s_en s :: a_logE a))) with (mean (firstn 3 (s_en s :: a_logE a))).
      rewrite !orb_true_iff, andb_true_iff, Nat.eqb_eq, Nat.leb_le.
      split.
      + intros [[[[H|H]|H]|H]|H]; auto. subst cv. auto.
      + intros [H|[H|[H|[H|H]]]]; auto. injection H as ->. auto.
  Qed.

  Lemma run_ok fuel a a' : ainv a -> (a_done a = true \/ a_iter a < max_iter c)%nat ->
    (max_iter c <= a_iter a + fuel)%nat -> acse_run backend c fuel a = Some a' ->
    ainv a' /\ a_done a' = true /\ (a_iter a' <= Nat.max (a_iter a) (max_iter c))%nat /\
    exists new, a_logE a' = new ++ a_logE a.
  Proof.
    revert a. induction fuel as [|fuel IH]; intros a Ia D F R; cbn [acse_run] in R.
    - destruct (a_done a) eqn:Da.
      + injection R as <-. repeat split; auto; try apply Ia; try lia. exists []. reflexivity.
      + destruct D as [D|D]; [discriminate|lia].
    - destruct (a_done a) eqn:Da.
      + injection R as <-. repeat split; auto; try apply Ia; try lia. exists []. reflexivity.
      + destruct D as [D|D]; [discriminate|].
        destruct (acse_check c (backend a) a) as [b|] eqn:Ck; [|discriminate].
        destruct (check_inv _ _ _ Ia Ck) as [Ib [It [Lg Dn]]].
        destruct (IH b Ib) as [H1 [H2 [H3 [new H4]]]].
        * destruct (Nat.eq_dec (a_iter b) (max_iter c)) as [E|E]; [left; apply Dn; auto|right; lia].
        * lia.
        * exact R.
        * split; [exact H1|]. split; [exact H2|]. split; [lia|]. exists (new ++ [s_en (backend a)]).
          rewrite H4, Lg, <- app_assoc. reflexivity.
  Qed.

  Lemma run_more fuel extra a a' : acse_run backend c fuel a = Some a' -> a_done a' = true ->
    acse_run backend c (fuel + extra) a = Some a'.
  Proof.
    revert a. induction fuel as [|fuel IH]; intros a R D; cbn [acse_run Nat.add] in *.
    - destruct (a_done a) eqn:Da; [destruct extra; cbn; rewrite Da; exact R|]. injection R as <-. congruence.
    - destruct (a_done a); [exact R|]. destruct (acse_check c (backend a) a); [|discriminate]. apply IH; assumption.
  Qed.

  Lemma run_some fuel a : conv_type c <> COther -> max_depth c = None -> acse_run backend c fuel a <> None.
  Proof.
    intros Hc Hd. revert a. induction fuel as [|fuel IH]; intro a; cbn [acse_run].
    - destruct (a_done a); discriminate.
    - destruct (a_done a); [discriminate|]. unfold acse_check at 1. rewrite Hd, andb_false_r.
      unfold converged. destruct (conv_type c); [apply IH|apply IH|contradiction].
  Qed.
End Run.

(** ** The Newton step. *)
Section Newton.
  Variables (c : newton_cfg) (E : Q -> Q) (e_k : Q).

  Lemma newton_coeff_bound grad hess del : 0 <= del -> Qabs (newton_coeff grad hess del) <= del.
  Proof.
    intro D. unfold newton_coeff. destruct (Qltb (Qabs (grad / hess)) del) eqn:T.
    - apply Qltb_lt in T. assert (H : - grad / hess == - (grad / hess)) by (unfold Qdiv; ring).
      rewrite H, Qabs_opp. lra.
    - destruct (Qltb (- grad / hess) 0).
      + assert (H : del * (-1) == - del) by ring. rewrite H, Qabs_opp, Qabs_pos by exact D. lra.
      + rewrite Qabs_pos by exact D. lra.
  Qed.

  Lemma newton_loop_ok grad hess turns del : 0 <= del -> 0 <= n_gd c <= 1 ->
    let '(coeff, ef, _) := newton_loop c E e_k grad hess turns del in ef = E coeff /\ Qabs coeff <= del.
  Proof.
    intros D G. revert del D. induction turns as [|t IH]; intros del D; cbn [newton_loop];
      destruct (Qle_bool _ (n_obj c)); try (split; [reflexivity|apply newton_coeff_bound; exact D]);
      destruct (Qle_bool _ (n_ts c)); try (split; [reflexivity|apply newton_coeff_bound; exact D]);
      destruct (Qle_bool (n_nv c) _); try (split; [reflexivity|apply newton_coeff_bound; exact D]);
      destruct (Qle_bool (n_ns c) _); try (split; [reflexivity|apply newton_coeff_bound; exact D]).
    assert (D' : 0 <= del * n_gd c) by nra.
    specialize (IH (del * n_gd c) D'). destruct (newton_loop c E e_k grad hess t (del * n_gd c)) as [[co ef] dl].
    destruct IH as [H1 H2]. split; [exact H1|]. nra.
  Qed.

  Lemma newton_accept coeff energy radius : 0 <= n_Del c -> 0 <= n_gd c <= 1 ->
    newton_step c E e_k = Some (NAccept coeff energy radius) -> energy = E coeff /\ Qabs coeff <= n_Del c.
  Proof.
    intros D G H. unfold newton_step in H. destruct (Qeq_bool _ 0); [discriminate|].
    destruct (negb (n_trust c)); [discriminate|]. destruct (newton_derivs c E e_k) as [grad hess].
    destruct (Qltb hess 0); [destruct (n_hardware c); discriminate|].
    assert (L := newton_loop_ok grad hess (if n_hardware c then 0 else 1)%nat (n_Del c) D G).
    destruct (newton_loop c E e_k grad hess (if n_hardware c then 0 else 1)%nat (n_Del c)) as [[co ef] dl].
    destruct (n_hardware c); [discriminate|]. injection H as <- <- <-. exact L.
  Qed.

  (** The trust radius after a step taken with radius del. *)
  Definition radius_rule (g h del coeff ef del' : Q) : Prop :=
    let actual := e_k - ef in
    let predicted := e_k - (e_k + coeff * g + (1 # 2) * coeff * h * coeff) in
    (Qabs actual <= n_obj c \/ Qabs predicted <= n_ts c -> del' = del)
    /\ (n_obj c < Qabs actual -> n_ts c < Qabs predicted ->
        (n_nv c <= actual / predicted -> del' = del * n_gi c)
        /\ (n_ns c <= actual / predicted -> actual / predicted < n_nv c -> del' = del)
        /\ (actual / predicted < n_nv c -> actual / predicted < n_ns c -> del' = del * n_gd c)).
  Lemma newton_loop_turn grad hess turns del :
    let '(coeff, ef, del') := newton_loop c E e_k grad hess turns del in
    (coeff = newton_coeff grad hess del /\ radius_rule grad hess del coeff ef del')
    \/ (exists t, turns = S t /\ (coeff, ef, del') = newton_loop c E e_k grad hess t (del * n_gd c)).
  Proof.
    destruct turns as [|t]; cbn [newton_loop];
    (destruct (Qle_bool _ (n_obj c)) eqn:E1; [|destruct (Qle_bool _ (n_ts c)) eqn:E2; [|destruct (Qle_bool (n_nv c) _) eqn:E3; [|destruct (Qle_bool (n_ns c) _) eqn:E4]]]).
    10: { destruct (newton_loop c E e_k grad hess t (del * n_gd c)) as [[co ef] dl] eqn:L. right. exists t. split; [reflexivity|now symmetry]. }
    all: left; split; [reflexivity|]; unfold radius_rule; cbn zeta;
      repeat match goal with
      | H : Qle_bool _ _ = true |- _ => apply Qle_bool_iff in H
      | H : Qle_bool _ _ = false |- _ => apply Qle_bool_false in H
      end;
      (split; [intros [H | H] | intros; repeat split; intros]; first [reflexivity | exfalso; lra]).
  Qed.
  Lemma newton_radius coeff energy radius : newton_step c E e_k = Some (NAccept coeff energy radius) ->
    let '(g, h) := newton_derivs c E e_k in
    exists del, (del = n_Del c \/ del = n_Del c * n_gd c) /\ coeff = newton_coeff g h del /\ radius_rule g h del coeff energy radius.
  Proof.
    intro H. unfold newton_step in H. destruct (Qeq_bool _ 0); [discriminate|].
    destruct (negb (n_trust c)); [discriminate|]. destruct (newton_derivs c E e_k) as [grad hess].
    destruct (Qltb hess 0); [destruct (n_hardware c); discriminate|].
    assert (L := newton_loop_turn grad hess (if n_hardware c then 0 else 1)%nat (n_Del c)).
    destruct (newton_loop c E e_k grad hess (if n_hardware c then 0 else 1)%nat (n_Del c)) as [[co ef] dl].
    destruct (n_hardware c); [discriminate|]. injection H as <- <- <-. destruct L as [[L1 L2] | [t [Et L]]]; [exists (n_Del c); auto|].
    injection Et as <-. assert (L' := newton_loop_turn grad hess 0 (n_Del c * n_gd c)). rewrite <- L in L'.
    destruct L' as [[L1 L2] | [t' [Et' _]]]; [|discriminate]. exists (n_Del c * n_gd c). auto.
  Qed.

  Lemma newton_hardware : n_hardware c = true -> n_trust c = true ->
    ~ n_d c * n_eps c * n_eps c * (n_d c - 1) == 0 -> exists radius, newton_step c E e_k = Some (NReject radius).
  Proof.
    intros Hh Ht Hd. unfold newton_step.
    destruct (Qeq_bool _ 0) eqn:Z; [apply Qeq_bool_iff in Z; contradiction|]. rewrite Ht, Hh. cbn [negb].
    destruct (newton_derivs c E e_k) as [grad hess]. destruct (Qltb hess 0); [eauto|].
    destruct (newton_loop c E e_k grad hess 0 (n_Del c)) as [[co ef] dl]. eauto.
  Qed.
End Newton.

(** An exactly quadratic energy: the finite differences are its derivatives. *)
Section Quadratic.
  Variables (c : newton_cfg) (E : Q -> Q) (e_k a b : Q).
  Hypothesis quad : forall s, E s == e_k + a * s + b * (s * s).
  Hypothesis den : ~ n_d c * n_eps c * n_eps c * (n_d c - 1) == 0.

  Lemma d_neq0 : ~ n_d c == 0. Proof. intro H. apply den. rewrite H. ring. Qed.
  Lemma eps_neq0 : ~ n_eps c == 0. Proof. intro H. apply den. rewrite H. ring. Qed.
  Lemma d1_neq0 : ~ n_d c - 1 == 0. Proof. intro H. apply den. rewrite H. ring. Qed.

  Lemma quad_d2 : (2 * (E (n_d c * n_eps c) - e_k) - 2 * n_d c * (E (n_eps c) - e_k)) / (n_d c * n_eps c * n_eps c * (n_d c - 1)) == 2 * b.
  Proof.
    rewrite !quad. field. repeat split; [apply d1_neq0|apply eps_neq0|apply d_neq0].
  Qed.
  Lemma quad_d1 : ((E (n_eps c) - e_k) * (n_d c * n_d c) - (E (n_d c * n_eps c) - e_k)) / (n_d c * n_eps c * (n_d c - 1)) == a.
  Proof.
    rewrite !quad. field. repeat split; [apply d1_neq0|apply eps_neq0|apply d_neq0].
  Qed.

  Lemma quad_derivs : tiny <= Qabs a -> tiny <= 2 * b ->
    fst (newton_derivs c E e_k) == a /\ snd (newton_derivs c E e_k) == 2 * b.
  Proof.
    intros Ha Hb. unfold newton_derivs.
    assert (H2 := quad_d2). assert (H1 := quad_d1).
    assert (T0 : 0 < tiny) by reflexivity.
    set (d2 := (2 * (E (n_d c * n_eps c) - e_k) - 2 * n_d c * (E (n_eps c) - e_k)) / (n_d c * n_eps c * n_eps c * (n_d c - 1))) in *.
    set (d1 := ((E (n_eps c) - e_k) * (n_d c * n_d c) - (E (n_d c * n_eps c) - e_k)) / (n_d c * n_eps c * (n_d c - 1))) in *.
    destruct (Qltb (Qabs d2) tiny) eqn:T2.
    { exfalso. apply Qltb_lt in T2. rewrite H2 in T2. rewrite Qabs_pos in T2 by lra. lra. }
    destruct (Qltb (Qabs d1) tiny) eqn:T1.
    { exfalso. apply Qltb_lt in T1. rewrite H1 in T1. lra. }
    cbn. auto.
  Qed.

  Lemma newton_quadratic : n_hardware c = false -> n_trust c = true -> n_nv c <= 1 ->
    0 <= n_ts c -> tiny <= Qabs a -> tiny <= 2 * b -> Qabs (a / (2 * b)) < n_Del c ->
    exists coeff energy radius, newton_step c E e_k = Some (NAccept coeff energy radius) /\
      coeff == - a / (2 * b) /\ energy = E coeff /\ forall s, energy <= E s.
  Proof.
    intros Hh Ht Hn Hts Ha Hb HD. unfold newton_step.
    destruct (Qeq_bool _ 0) eqn:Z; [apply Qeq_bool_iff in Z; contradiction|]. rewrite Ht, Hh. cbn [negb]. clear Z.
    destruct (quad_derivs Ha Hb) as [G H].
    destruct (newton_derivs c E e_k) as [grad hess]. cbn [fst snd] in G, H.
    assert (T0 : 0 < tiny) by reflexivity.
    destruct (Qltb hess 0) eqn:T; [apply Qltb_lt in T; lra|]. clear T.
    assert (Bz : ~ b == 0) by lra.
    assert (GH : grad / hess == a / (2 * b)) by (rewrite G, H; reflexivity).
    assert (Co : newton_coeff grad hess (n_Del c) == - a / (2 * b)).
    { unfold newton_coeff. replace (Qltb (Qabs (grad / hess)) (n_Del c)) with true.
      - unfold Qdiv. rewrite G, H. reflexivity.
      - symmetry. apply Qltb_lt. rewrite GH. exact HD. }
    assert (Low : forall s, E (newton_coeff grad hess (n_Del c)) <= E s).
    { intro s. rewrite !quad. rewrite Co.
      assert (S : 0 <= b * ((s + a / (2 * b)) * (s + a / (2 * b)))).
      { assert (0 <= (s + a / (2 * b)) * (s + a / (2 * b))) by apply Qsq.
        apply Qmult_le_0_compat; [lra|assumption]. }
      assert (Eq : e_k + a * s + b * (s * s) - (e_k + a * (- a / (2 * b)) + b * ((- a / (2 * b)) * (- a / (2 * b))))
                   == b * ((s + a / (2 * b)) * (s + a / (2 * b)))).
      { field. exact Bz. }
      lra. }
    assert (Out : exists del, newton_loop c E e_k grad hess 1 (n_Del c)
                    = (newton_coeff grad hess (n_Del c), E (newton_coeff grad hess (n_Del c)), del)).
    { cbn [newton_loop].
      destruct (Qle_bool _ (n_obj c)) eqn:O1; [eauto|].
      destruct (Qle_bool _ (n_ts c)) eqn:O2; [eauto|].
      match goal with |- context [Qle_bool (n_nv c) ?r] => assert (R : n_nv c <= r) end.
      { apply Qle_bool_false in O2. revert O2.
        set (co := newton_coeff grad hess (n_Del c)) in *. intro O2.
        assert (TE : e_k - (e_k + co * grad + (1 # 2) * co * hess * co) == e_k - E co).
        { rewrite quad, G, H. field. }
        assert (NZ : ~ e_k - E co == 0).
        { intro C. rewrite TE, C in O2. cbn in O2. lra. }
        unfold Qdiv. rewrite TE. rewrite Qmult_inv_r by exact NZ. exact Hn. }
      apply Qle_bool_iff in R. rewrite R. eauto. }
    destruct Out as [del ->]. exists (newton_coeff grad hess (n_Del c)), (E (newton_coeff grad hess (n_Del c))), del.
    split; [reflexivity|]. split; [exact Co|]. split; [reflexivity|exact Low].
  Qed.
End Quadratic.

(** ** Further facts about the loop. *)
Lemma run_inv backend c fuel a a' : ainv a -> acse_run backend c fuel a = Some a' -> ainv a'.
Proof.
  revert a. induction fuel as [|fuel IH]; intros a I R; cbn [acse_run] in R.
  - destruct (a_done a); injection R as <-; exact I.
  - destruct (a_done a); [injection R as <-; exact I|].
    destruct (acse_check c (backend a) a) as [b|] eqn:Ck; [|discriminate].
    apply (IH b); [|exact R]. apply (check_inv _ _ _ _ I Ck).
Qed.

Definition falling0 (a : acse) : acse_step := MkStep (a_ek a - 1) 1 1 1 0 false.
Definition never0 : acse_cfg := MkCfg 0 None CNorm 0 0 0.

(** Energies that fall by one each step: the mean of the last energies stays above the newest. *)
Definition finv (a : acse) : Prop :=
  a_done a = false /\ a_incr a = 0%nat /\
  match a_logE a with
  | [] => False
  | [x] => x == a_ek a /\ a_iter a = 0%nat
  | x :: y :: _ => x == a_ek a /\ y == a_ek a + 1 /\ (1 <= a_iter a)%nat
  end.

Lemma average2 x y : average [x; y] == (1 # 2) * (x + y).
Proof.
  unfold average, Qsum. cbn [fold_right length]. change (inject_Z (Z.of_nat 2)) with 2. field.
Qed.
Lemma average3 x y z : average [x; y; z] == (1 # 3) * (x + y + z).
Proof.
  unfold average, Qsum. cbn [fold_right length]. change (inject_Z (Z.of_nat 3)) with 3. field.
Qed.

Lemma falling_step a : finv a -> exists a', acse_check never0 (falling0 a) a = Some a' /\ finv a' /\ a_iter a' = S (a_iter a).
Proof.
  intros [D [I L]]. unfold acse_check. cbn [max_iter max_depth never0 Nat.eqb negb andb].
  cbn [converged conv_type never0 s_norm falling0 crit s_en s_stop].
  eexists. split; [reflexivity|]. split; [|reflexivity]. rewrite D, I. cbn [orb].
  assert (Av : Qle_bool (average (firstn (Nat.min 3 (S (a_iter a) + 1)) ((a_ek a - 1) :: a_logE a))) (a_ek a - 1) = false).
  { apply Qle_bool_false. destruct (a_logE a) as [|x [|y l]]; [contradiction| |].
    - destruct L as [Lx Li]. rewrite Li. change (firstn (Nat.min 3 (1 + 1)) [a_ek a - 1; x]) with [a_ek a - 1; x].
      rewrite average2, Lx. lra.
    - destruct L as [Lx [Ly Li]].
      replace (Nat.min 3 (S (a_iter a) + 1)) with 3%nat by lia. cbn [firstn]. rewrite average3, Lx, Ly. lra. }
  rewrite Av. cbn [andb]. unfold finv. cbn [a_done a_incr a_logE a_ek a_iter].
  assert (QB : Qltb 1 0 = false) by reflexivity.
  split; [reflexivity|]. split; [reflexivity|].
  destruct (a_logE a) as [|x [|y l]]; [contradiction| |].
  - destruct L as [Lx Li]. split; [reflexivity|]. split; [rewrite Lx; ring|lia].
  - destruct L as [Lx [Ly Li]]. split; [reflexivity|]. split; [rewrite Lx; ring|lia].
Qed.

Lemma falling_run fuel a : finv a -> exists a', acse_run falling0 never0 fuel a = Some a' /\ a_done a' = false /\ a_iter a' = (a_iter a + fuel)%nat.
Proof.
  revert a. induction fuel as [|fuel IH]; intros a I; cbn [acse_run]; rewrite (proj1 I).
  - exists a. split; [reflexivity|]. split; [apply I|lia].
  - destruct (falling_step a I) as [b [E [Ib It]]]. rewrite E. destruct (IH b Ib) as [a' [R [D N]]].
    exists a'. split; [exact R|]. split; [exact D|lia].
Qed.

Lemma falling_forever : exists (backend : acse -> acse_step) (c : acse_cfg) (e0 : Q),
  max_iter c = 0%nat /\ forall fuel, exists a, acse_run backend c fuel (acse_build e0) = Some a /\
    a_done a = false /\ a_iter a = fuel.
Proof.
  exists falling0, never0, 0. split; [reflexivity|]. intro fuel.
  destruct (falling_run fuel (acse_build 0)) as [a [R [D N]]].
  - split; [reflexivity|]. split; [reflexivity|]. cbn. split; reflexivity.
  - exists a. auto.
Qed.
