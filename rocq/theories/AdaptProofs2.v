From Coq Require Import Bool List Arith QArith Qabs Lia Lqa Sorted.
From Verif Require Import Coeff MatSpec FockSpec FermiModel OperatorModel PauliModel TransformModel CircuitModel AcseModel RdmModel VqeModel AdaptModel AdaptProofs AdaptSpec.
Import ListNotations.
Local Open Scope nat_scope.

Section Run.
  Variable K : CoefRing.
  Variable keys : list (list nat).
  Variable max_iter : nat.
  Variable crit : Q.
  Variable rs : nat -> resid.
  Variable ms : nat -> micro K.
  Notation run := (ad_run true keys max_iter crit rs ms).
  Notation loop := (ad_loop true keys max_iter crit rs ms).
  Notation step s := (ad_step true keys max_iter crit (rs (S (ad_iter s))) (ms (ad_iter s)) s).

  Lemma loop_S fuel : forall s, loop (S fuel) s =
    match loop fuel s with
    | None => None
    | Some s' => if ad_done s' then Some s' else step s'
    end.
  Proof.
    induction fuel as [|f IH]; intro s.
    - cbn [ad_loop]. destruct (ad_done s) eqn:D; [rewrite D; reflexivity|]. rewrite D. destruct (step s) as [s'|]; [|reflexivity].
      destruct (ad_done s'); reflexivity.
    - change (loop (S (S f)) s) with (if ad_done s then Some s else match step s with None => None | Some s' => loop (S f) s' end).
      change (loop (S f) s) with (if ad_done s then Some s else match step s with None => None | Some s' => loop f s' end).
      destruct (ad_done s) eqn:D; [rewrite D; reflexivity|]. destruct (step s) as [s'|]; [apply IH|reflexivity].
  Qed.
  Lemma run_S fuel : run (S fuel) = match run fuel with None => None | Some s => if ad_done s then Some s else step s end.
  Proof. unfold ad_run. destruct (ad_build true keys (rs 0) (ms 0)) as [s|]; [apply loop_S|reflexivity]. Qed.
  Lemma run_0 s : run 0 = Some s -> exists i k, argmax (re_abs (rs 0)) = Some i /\ nth_error keys i = Some k /\
    s = MkAdapt [k] [i] [c0] [mi_first (ms 0)] 0 false 0.
  Proof.
    unfold ad_run, ad_build, ad_grow. destruct (argmax (re_abs (rs 0))) as [i|]; [|discriminate].
    destruct (nth_error keys i) as [k|] eqn:E; [|discriminate]. cbn. intro H. injection H as <-. exists i, k. auto.
  Qed.
  Lemma step_inv s s' : step s = Some s' -> exists row i k,
    first_row (mi_best_x (ms (ad_iter s))) = Some row /\ argmax (re_abs (rs (S (ad_iter s)))) = Some i /\ nth_error keys i = Some k /\
    ad_terms s' = ad_terms s ++ [k] /\ ad_inds s' = ad_inds s ++ [i] /\ ad_para s' = row ++ [c0] /\
    ad_logE s' = ad_logE s ++ [mi_best_f (ms (ad_iter s))] /\ ad_iter s' = S (ad_iter s) /\ ad_best s' = mi_best_f (ms (ad_iter s)) /\
    ad_done s' = (if Nat.eqb (S (ad_iter s)) max_iter then true else if Qltb (re_norm (rs (S (ad_iter s)))) crit then true else ad_done s).
  Proof.
    unfold ad_step, ad_run_micro, ad_grow. destruct (first_row (mi_best_x (ms (ad_iter s)))) as [row|]; [|discriminate].
    destruct (argmax (re_abs (rs (S (ad_iter s))))) as [i|]; [|discriminate]. destruct (nth_error keys i) as [k|] eqn:E; [|discriminate].
    intro H. injection H as <-. exists row, i, k. cbn. repeat split; auto.
  Qed.

  (** Terms. *)
  Lemma run_terms fuel : forall s, run fuel = Some s ->
    length (ad_terms s) = S (ad_iter s) /\ length (ad_inds s) = S (ad_iter s) /\ length (ad_logE s) = S (ad_iter s) /\
    (forall j, j <= ad_iter s -> exists i k, argmax (re_abs (rs j)) = Some i /\ nth_error keys i = Some k /\
       nth_error (ad_inds s) j = Some i /\ nth_error (ad_terms s) j = Some k).
  Proof.
    induction fuel as [|f IH]; intros s H.
    - destruct (run_0 s H) as [i [k [A [B ->]]]]. cbn. repeat split. intros j Hj. replace j with 0 by lia. exists i, k. auto.
    - rewrite run_S in H. destruct (run f) as [s0|] eqn:R; [|discriminate]. destruct (IH s0 eq_refl) as [L1 [L2 [L3 T]]].
      destruct (ad_done s0) eqn:D; [injection H as <-; auto|].
      destruct (step_inv _ _ H) as [row [i [k [_ [A [B [E1 [E2 [_ [E4 [E5 _]]]]]]]]]]]. rewrite E1, E2, E4, E5, !app_length, L1, L2, L3. cbn.
      repeat split; try lia. intros j Hj. destruct (Nat.eq_dec j (S (ad_iter s0))) as [->|N].
      + exists i, k. split; [exact A|]. split; [exact B|]. rewrite !nth_error_app2, L1, L2, Nat.sub_diag by lia. auto.
      + destruct (T j ltac:(lia)) as [i' [k' [A' [B' [C' D']]]]]. exists i', k'. rewrite !nth_error_app1 by lia. auto.
  Qed.

  (** Stopping. *)
  Lemma run_stops fuel : forall s, run fuel = Some s ->
    ad_iter s <= fuel /\ (ad_done s = false -> ad_iter s = fuel) /\
    (ad_done s = true <-> 0 < ad_iter s /\ (ad_iter s = max_iter \/ (re_norm (rs (ad_iter s)) < crit)%Q)) /\
    (forall j, 0 < j < ad_iter s -> j <> max_iter /\ (crit <= re_norm (rs j))%Q).
  Proof.
    induction fuel as [|f IH]; intros s H.
    - destruct (run_0 s H) as [i [k [_ [_ ->]]]]. cbn. repeat split; try lia; try discriminate.
    - rewrite run_S in H. destruct (run f) as [s0|] eqn:R; [|discriminate]. destruct (IH s0 eq_refl) as [L [N0 [DI J]]].
      destruct (ad_done s0) eqn:D.
      + injection H as <-. rewrite D. split; [lia|]. split; [discriminate|]. split; [exact DI|exact J].
      + destruct (step_inv _ _ H) as [row [i [k [_ [_ [_ [_ [_ [_ [_ [E5 [_ E]]]]]]]]]]]]. rewrite E5, E, D. specialize (N0 eq_refl).
        split; [lia|]. split; [intros _; lia|]. split; [split|].
        * intro T. split; [lia|]. destruct (S (ad_iter s0) =? max_iter) eqn:E1; [left; apply Nat.eqb_eq; exact E1|]. destruct (Qltb _ crit) eqn:E2; [|discriminate].
          right. apply Qltb_true. exact E2.
        * intros [_ [X|X]]; [rewrite X, Nat.eqb_refl; reflexivity|]. destruct (S (ad_iter s0) =? max_iter); [reflexivity|].
          destruct (Qltb _ crit) eqn:E2; [reflexivity|]. apply Qltb_false in E2. exfalso. lra.
        * intros j Hj. destruct (Nat.eq_dec j (ad_iter s0)) as [->|M]; [|apply J; lia]. split.
          -- intro X. assert (false = true) by (apply DI; split; [lia|left; lia]). discriminate.
          -- apply Qnot_lt_le. intro X. assert (false = true) by (apply DI; split; [lia|right; exact X]). discriminate.
  Qed.
  Lemma run_bound s : 0 < max_iter -> run max_iter = Some s -> ad_done s = true /\ ad_iter s <= max_iter.
  Proof.
    intros M H. destruct (run_stops _ _ H) as [L [N [DI _]]]. split; [|exact L]. destruct (ad_done s) eqn:D; [reflexivity|].
    specialize (N eq_refl). apply DI. split; [lia|left; exact N].
  Qed.
  Lemma run_final s fuel : 0 < max_iter -> run max_iter = Some s -> max_iter <= fuel -> run fuel = Some s.
  Proof.
    intros M H. destruct (run_bound s M H) as [D _]. induction fuel as [|f IH]; intro L; [lia|].
    destruct (Nat.eq_dec max_iter (S f)) as [<-|N]; [exact H|]. rewrite run_S, IH by lia. rewrite D. reflexivity.
  Qed.

  (** Energies. *)
  Variable R : Type.
  Variable reim : K -> R * R.
  Variable tiny : R -> bool.
  Variable N : nat.
  Variable E : list (R * list pauli) -> Q.
  Notation prog := (ad_program reim tiny N).
  Hypothesis contract : forall fuel s, run fuel = Some s -> ad_done s = false -> honest prog E (ms (ad_iter s)) (ad_terms s) (ad_para s).

  Lemma sorted_snoc l (x : Q) : StronglySorted (fun a b => (b <= a)%Q) l -> (forall y, In y l -> (x <= y)%Q) -> StronglySorted (fun a b => (b <= a)%Q) (l ++ [x]).
  Proof.
    induction l as [|y l IH]; intros S0 H; cbn; [constructor; constructor|]. inversion S0; subst. constructor.
    - apply IH; [assumption|]. intros z Hz. apply H. right. exact Hz.
    - apply Forall_app. split; [assumption|]. constructor; [|constructor]. apply H. left. reflexivity.
  Qed.
  Lemma run_energy fuel : forall s, run fuel = Some s ->
    StronglySorted (fun a b => (b <= a)%Q) (ad_logE s) /\ length (ad_para s) = length (ad_terms s) /\
    (0 < ad_iter s -> exists g, prog (removelast (ad_terms s)) (removelast (ad_para s)) = Some g /\ (E g == ad_best s)%Q /\ forall y, In y (ad_logE s) -> (ad_best s <= y)%Q).
  Proof.
    induction fuel as [|f IH]; intros s H.
    - destruct (run_0 s H) as [i [k [_ [_ ->]]]]. cbn. repeat split; [constructor; constructor|lia].
    - rewrite run_S in H. destruct (run f) as [s0|] eqn:RR; [|discriminate]. destruct (IH s0 eq_refl) as [S0 [L0 G0]].
      destruct (ad_done s0) eqn:D; [injection H as <-; auto|].
      destruct (contract f s0 RR D) as [row [g0 [g1 [Bx [Lr [P0 [P1 [I1 [I2 I3]]]]]]]]].
      destruct (step_inv _ _ H) as [row' [i [k [Fr [_ [_ [E1 [_ [E3 [E4 [E5 [E6 _]]]]]]]]]]]].
      rewrite Bx in Fr. cbn in Fr. injection Fr as <-.
      assert (M : forall y, In y (ad_logE s0) -> (mi_best_f (ms (ad_iter s0)) <= y)%Q).
      { intros y Hy. destruct (Nat.eq_dec (ad_iter s0) 0) as [Z|Z].
        - destruct f as [|f0].
          + destruct (run_0 s0 RR) as [i0 [k0 [_ [_ E0]]]]. subst s0. cbn in *. destruct Hy as [<- |[]]. exact I2.
          + destruct (run_stops _ _ RR) as [_ [NN _]]. specialize (NN D). lia.
        - destruct (G0 ltac:(lia)) as [g [Pg [Eg Mg]]]. specialize (Mg y Hy).
          assert (X : Some g = Some g0).
          { assert (Lt : exists t p k0, ad_terms s0 = t ++ [k0] /\ ad_para s0 = p ++ [c0] /\ length t = length p).
            { destruct f as [|f0]; [destruct (run_0 s0 RR) as [i0 [k0 [_ [_ E0]]]]; subst s0; cbn in Z; lia|].
              rewrite run_S in RR. destruct (run f0) as [s1|] eqn:R1; [|discriminate]. destruct (ad_done s1) eqn:D1; [injection RR as <-; congruence|].
              destruct (step_inv _ _ RR) as [row1 [i1 [k1 [F1 [_ [_ [X1 [_ [X3 _]]]]]]]]]. exists (ad_terms s1), row1, k1. split; [exact X1|]. split; [exact X3|].
              rewrite X1, X3, !app_length in L0. cbn in L0. lia. }
            destruct Lt as [t [p [k0 [T1 [T2 T3]]]]]. rewrite T1, T2 in P0. apply program_grow in P0; [|exact T3].
            rewrite T1, T2, !removelast_last in Pg. congruence. }
          injection X as <-. lra. }
      rewrite E1, E3, E4, E6, E5, !app_length, Lr. split; [|split; [cbn; lia|]].
      + apply sorted_snoc; assumption.
      + intros _. exists g1. rewrite !removelast_last. split; [exact P1|]. split; [lra|]. intros y Hy. apply in_app_or in Hy.
        destruct Hy as [Hy|[<- |[]]]; [apply M; exact Hy|lra].
  Qed.
End Run.
