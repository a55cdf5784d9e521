(** Line searches, gradient descent, particle swarm, driver. *)
From Coq Require Import Bool List Arith QArith Qabs Qpower Lia Lqa.
From Verif Require Import OptModel OptSpec OptProofs.
Import ListNotations.
Local Open Scope nat_scope.

(** ** Bisecting search *)
Section Bis.
  Variable O : Ord.
  Variable f : point -> O.
  Variable x0 : point.

  (** Endpoint values belong to the endpoints and the right value is not below the left one. *)
  Definition bracket (b : bis O) : Prop :=
    fl b = f (vscal (b_l b) x0) /\ fr b = f (vscal (b_r b) x0) /\ oleb (fl b) (fr b) = true.

  Lemma bis_grow_bracket : forall fuel al ar vl b, vl = f (vscal al x0) -> bis_grow f x0 fuel al ar vl = Some b ->
    bracket b /\ oleb (fl b) vl = true.
  Proof.
    intros fuel. induction fuel as [|k IH]; intros al ar vl b Hv E; [discriminate|]. cbn in E.
    destruct (oltb (f (vscal ar x0)) vl) eqn:C.
    - destruct (IH _ _ _ _ eq_refl E) as [A B]. split; [exact A|]. apply oleb_trans with (f (vscal ar x0)); [exact B|]. now apply oltb_leb.
    - inversion E. subst b. unfold bracket. cbn. split; [|apply oleb_refl]. split; [exact Hv|split; [reflexivity|]].
      now apply oltb_false.
  Qed.

  Lemma bis_step_bracket : forall b, bracket b -> bracket (bis_step f x0 b) /\ oleb (fl (bis_step f x0 b)) (fl b) = true.
  Proof.
    intros b [A [B C]]. unfold bis_step, bracket.
    set (a := ((1 # 2) * (b_l b + b_r b))%Q). destruct (oltb (f (vscal a x0)) (fl b)) eqn:E; cbn [b_l b_r fl fr].
    - apply oltb_leb in E. split; [|exact E]. split; [reflexivity|split; [exact B|]]. now apply oleb_trans with (fl b).
    - apply oltb_false in E. split; [|apply oleb_refl]. now repeat split.
  Qed.
  Lemma bis_step_width : forall b, ((b_r (bis_step f x0 b) - b_l (bis_step f x0 b)) == (1 # 2) * (b_r b - b_l b))%Q.
  Proof. intro b. unfold bis_step. destruct (oltb _ _); cbn [b_l b_r]; ring. Qed.
  Lemma bis_best_val : forall b, bracket b -> snd (bis_best b) = f (vscal (fst (bis_best b)) x0) /\
    oleb (snd (bis_best b)) (fl b) = true /\ oleb (fl b) (snd (bis_best b)) = true.
  Proof.
    intros b [A [B C]]. unfold bis_best. destruct (oltb (fl b) (fr b)) eqn:E; cbn [fst snd].
    - now split; [|split; apply oleb_refl].
    - apply oltb_false in E. now repeat split.
  Qed.

  Fixpoint bis_run (n : nat) (b : bis O) : bis O := match n with 0 => b | S k => bis_run k (bis_step f x0 b) end.
  Lemma bis_run_bracket : forall n b, bracket b -> bracket (bis_run n b) /\ oleb (fl (bis_run n b)) (fl b) = true.
  Proof.
    intros n. induction n as [|n IH]; intros b H; cbn; [split; [exact H|apply oleb_refl]|].
    destruct (bis_step_bracket b H) as [A B]. destruct (IH _ A) as [C D]. split; [exact C|].
    now apply oleb_trans with (fl (bis_step f x0 b)).
  Qed.
  Lemma bis_run_width : forall n b, ((b_r (bis_run n b) - b_l (bis_run n b)) == (1 # 2) ^ Z.of_nat n * (b_r b - b_l b))%Q.
  Proof.
    intros n. induction n as [|n IH]; intro b; cbn [bis_run]; [cbn; ring|].
    rewrite IH, bis_step_width. rewrite Nat2Z.inj_succ. unfold Z.succ. rewrite Qpower_plus by discriminate.
    change ((1 # 2) ^ 1)%Q with (1 # 2)%Q. ring.
  Qed.
  Lemma bis_grow_forever : forall fuel al ar vl,
    (forall a, oltb (f (vscal (a * 2) x0)) (f (vscal a x0)) = true) -> oltb (f (vscal ar x0)) vl = true ->
    bis_grow f x0 fuel al ar vl = None.
  Proof.
    intros fuel. induction fuel as [|k IH]; intros al ar vl H H1; [reflexivity|]. cbn. rewrite H1. apply IH; [exact H|apply H].
  Qed.
End Bis.

(** ** Backtracking search *)
Section Bt.
  Variable f : point -> Q.
  Variables (x0 p : point) (f0 y rho c : Q).
  (** The k-th trial step: 1 multiplied k times by rho. *)
  Fixpoint trial (k : nat) : Q := match k with 0 => 1%Q | S j => (trial j * rho)%Q end.
  Definition armijo (a : Q) : Prop := (f (vadd x0 (vscal a p)) <= f0 + c * a * y)%Q.

  Lemma trial_power : forall k, (trial k == rho ^ Z.of_nat k)%Q.
  Proof.
    induction k as [|k IH]; [reflexivity|]. cbn [trial]. rewrite IH.
    destruct k as [|k]; [cbn; ring|].
    change (Z.of_nat (S k)) with (Z.pos (Pos.of_succ_nat k)). change (Z.of_nat (S (S k))) with (Z.pos (Pos.succ (Pos.of_succ_nat k))).
    cbn [Qpower]. rewrite <- Pos.add_1_r. rewrite Qpower_plus_positive. cbn. ring.
  Qed.

  Definition bt_inv (s : bt) : Prop :=
    exists k, bt_alpha s = trial k /\ (forall j, j < k -> ~ armijo (trial j)) /\
      (bt_crit s = false -> armijo (trial k) /\ bt_f1 s = f (vadd x0 (vscal (trial k) p))).
  Lemma bt_try_inv : forall k, (forall j, j < k -> ~ armijo (trial j)) -> bt_inv (bt_try f x0 p f0 y rho c (trial k)).
  Proof.
    intros k H. unfold bt_try. destruct (Qle_bool (f (vadd x0 (vscal (trial k) p))) (f0 + c * trial k * y)) eqn:E.
    - exists k. cbn. split; [reflexivity|split; [exact H|]]. intros _. split; [now apply Qle_bool_iff|reflexivity].
    - exists (S k). cbn [bt_alpha bt_crit]. split; [reflexivity|split].
      + intros j Hj. destruct (Nat.eq_dec j k) as [->|]; [|apply H; lia].
        intro A. apply Qle_bool_iff in A. congruence.
      + discriminate.
  Qed.
  Lemma bt_run_inv : forall n s, bt_inv s -> bt_inv (bt_run f x0 p f0 y rho c n s).
  Proof.
    intros n. induction n as [|n IH]; intros s H; [exact H|]. cbn. apply IH.
    destruct H as [k [A [B C]]]. unfold bt_next. rewrite A. now apply bt_try_inv.
  Qed.
  (** The search stops at the first trial satisfying the condition, when there is one. *)
  Lemma bt_run_plus : forall m n s, bt_run f x0 p f0 y rho c (m + n) s = bt_run f x0 p f0 y rho c n (bt_run f x0 p f0 y rho c m s).
  Proof. induction m as [|m IH]; intros n s; [reflexivity|]. cbn. apply IH. Qed.
  Lemma bt_fail : forall k, ~ armijo (trial k) -> bt_alpha (bt_try f x0 p f0 y rho c (trial k)) = trial (S k).
  Proof.
    intros k H. unfold bt_try. destruct (Qle_bool _ _) eqn:E; [|reflexivity]. apply Qle_bool_iff in E. contradiction.
  Qed.
  Lemma bt_stop : forall a k, (forall j, j < k -> ~ armijo (trial j)) -> armijo (trial k) ->
    let s := bt_run f x0 p f0 y rho c k (bt_init f x0 p f0 y rho c a) in bt_crit s = false /\ bt_alpha s = trial k.
  Proof.
    intros a k H Hk. unfold bt_init. change 1%Q with (trial 0).
    assert (G : forall i, i <= k -> bt_run f x0 p f0 y rho c i (bt_try f x0 p f0 y rho c (trial 0)) = bt_try f x0 p f0 y rho c (trial i)).
    { induction i as [|i IH]; intro Hi; [reflexivity|]. replace (S i) with (i + 1) by lia. rewrite bt_run_plus, IH by lia.
      cbn [bt_run]. unfold bt_next. rewrite bt_fail by (apply H; lia). now replace (i + 1) with (S i) by lia. }
    cbn zeta. rewrite G by lia. unfold bt_try. apply Qle_bool_iff in Hk. rewrite Hk. now split.
  Qed.
End Bt.

(** ** Gradient descent *)
Section Gd.
  Variable O : Ord.
  Variable f : point -> O.
  Variable g : point -> point.
  Variable gamma : Q.
  Lemma gd_run_S : forall n s, gd_run f g gamma (S n) s = gd_step f g gamma (gd_run f g gamma n s).
  Proof. induction n as [|n IH]; intro s; [reflexivity|]. cbn [gd_run] in *. now rewrite IH. Qed.
  (** The iterates of the documented recursion. *)
  Fixpoint iterate (n : nat) (x : point) : point :=
    match n with 0 => x | S k => let z := iterate k x in vsub z (vscal gamma (g z)) end.
  Lemma gd_run_spec : forall n start shift, let s := gd_run f g gamma n (gd_init f g gamma start shift) in
    gd_x s = iterate (S n) (vadd start shift) /\ gd_f s = f (gd_x s) /\
    gd_count s = 1 /\ length (gd_log s) = n + 2 /\
    (n <> 0 -> gd_best s = Some (gd_x s, f (gd_x s))).
  Proof.
    intros n start shift. cbn zeta. induction n as [|n IH]; [cbn; repeat split; congruence|].
    rewrite gd_run_S. set (s := gd_run f g gamma n (gd_init f g gamma start shift)) in *. destruct IH as [A [B [C [D E]]]].
    cbn [gd_step gd_x gd_f gd_count gd_log gd_best]. rewrite app_length, D. cbn [length].
    rewrite A. repeat split; try assumption; lia.
  Qed.
End Gd.

(** ** Particle swarm *)
Section Sw.
  Variable O : Ord.
  Variable f : point -> O.
  Variable zero : O.
  Variables w a1 a2 vmax : Q.
  Lemma swarm_particle_mono : forall i rs s, oleb (sGf (swarm_particle f zero w a1 a2 vmax i rs s)) (sGf s) = true.
  Proof.
    intros i rs s. unfold swarm_particle. destruct (move _ _ _ _ _ _ _ _ _) as [x v]. cbn [sGf].
    destruct (oltb (f x) (sGf s)) eqn:E; [now apply oltb_leb|apply oleb_refl].
  Qed.
  Lemma swarm_step_mono : forall draws i s, oleb (sGf (swarm_step f zero w a1 a2 vmax i draws s)) (sGf s) = true.
  Proof.
    intros draws. induction draws as [|rs draws IH]; intros i s; cbn; [apply oleb_refl|].
    eapply oleb_trans; [apply IH|apply swarm_particle_mono].
  Qed.
  (** The best point is a copy with its value, or a view of a particle that has never moved: its velocity is zero and it
      sits at its own and at the global best position. *)
  Definition settled (s : swarm O) : Prop :=
    match sGx s with
    | Own x => sGf s = f x
    | View b => b < length (sX s) /\ length (sV s) = length (sX s) /\ length (sP s) = length (sX s) /\
                sGf s = f (nth b (sX s) []) /\
                nth b (sP s) [] = nth b (sX s) [] /\ nth b (sV s) [] = map (fun _ => 0%Q) (nth b (sX s) [])
    end.
  Lemma clamp_zero : forall a b c d e : Q, clamp vmax (w * 0 + a1 * (a * (b - b)) + a2 * (d * (e - e)))%Q = 0%Q.
  Proof.
    intros a b c d e. assert (H : (w * 0 + a1 * (a * (b - b)) + a2 * (d * (e - e)) == 0)%Q) by ring.
    unfold clamp. destruct (Qle_bool (w * 0 + a1 * (a * (b - b)) + a2 * (d * (e - e))) 0) eqn:E1.
    - destruct (Qle_bool 0 (w * 0 + a1 * (a * (b - b)) + a2 * (d * (e - e)))) eqn:E2; [reflexivity|].
      assert (Z : (0 <= w * 0 + a1 * (a * (b - b)) + a2 * (d * (e - e)))%Q) by (rewrite H; discriminate).
      apply Qle_bool_iff in Z. congruence.
    - assert (Z : (w * 0 + a1 * (a * (b - b)) + a2 * (d * (e - e)) <= 0)%Q) by (rewrite H; discriminate).
      apply Qle_bool_iff in Z. congruence.
  Qed.
  Lemma Qplus_zero : forall q : Q, (q + 0)%Q = q.
  Proof. intros [n d]. unfold Qplus. cbn. now rewrite Z.mul_1_r, Z.add_0_r, Pos.mul_1_r. Qed.
  Lemma move_settled : forall rs x, move w a1 a2 vmax x (map (fun _ => 0%Q) x) x x rs = (x, map (fun _ => 0%Q) x).
  Proof.
    intros rs. induction rs as [|[r1 r2] rs IH]; intros [|q x]; cbn [move map]; try reflexivity.
    rewrite (clamp_zero r1 q 0%Q r2 q), IH, Qplus_zero. reflexivity.
  Qed.
  Lemma nth_put_same : forall A (d : A) l i x, nth i l d = x -> put_at i x l = l.
  Proof.
    intros A d l. induction l as [|y l IH]; intros [|i] x H; cbn in *; try reflexivity; [now rewrite H|]. now rewrite (IH i x H).
  Qed.
  Lemma swarm_init_settled : forall X s, swarm_init f zero X = Some s -> settled s.
  Proof.
    intros X s. unfold swarm_init. destruct X as [|x X]; cbn [map]; [discriminate|].
    intro E. injection E as E. rewrite <- E. clear E s. unfold settled. cbn [sGx sX sV sP sGf].
    assert (B : forall (F : list O) i b, fst b < i -> argmin i F b < i + length F).
    { clear. intros F. induction F as [|v F IH]; intros i b Hb; cbn [argmin length]; [lia|].
      specialize (IH (S i) (if oltb v (snd b) then (i, v) else b)).
      assert (fst (if oltb v (snd b) then (i, v) else b) < S i) by (destruct (oltb v (snd b)); cbn; lia). lia. }
    specialize (B (map f X) 1 (0, f x) ltac:(cbn; lia)). rewrite map_length in B.
    set (b := argmin 1 (map f X) (0, f x)) in *.
    split; [cbn [length]; lia|]. cbn [length]. rewrite map_length. split; [reflexivity|split; [reflexivity|]]. split; [|split; [reflexivity|]].
    - transitivity (nth b (map f (x :: X)) (f x)); [reflexivity|]. rewrite (nth_indep _ (f x) (f [])) by (rewrite map_length; cbn [length]; lia). apply map_nth.
    - change (map (fun _ : Q => 0%Q) x :: map (map (fun _ : Q => 0%Q)) X) with (map (map (fun _ : Q => 0%Q)) (x :: X)).
      exact (map_nth (map (fun _ : Q => 0%Q)) (x :: X) [] b).
  Qed.
  Lemma swarm_particle_settled : forall i rs s, settled s -> settled (swarm_particle f zero w a1 a2 vmax i rs s).
  Proof.
    intros i rs s H. unfold settled in H. unfold swarm_particle.
    destruct (sGx s) as [b|g] eqn:Eg; cbn [read_g].
    - destruct H as [Hb [LV [LP [HG [HP HV]]]]]. destruct (Nat.eq_dec i b) as [->|Hne].
      + rewrite HV, HP, move_settled. rewrite <- HG. unfold oltb at 3 4. rewrite oleb_refl. cbn [negb].
        unfold settled. cbn [sX sV sP sGx sGf].
        rewrite (nth_put_same _ [] (sX s) b) by reflexivity.
        rewrite (nth_put_same _ [] (sV s) b) by exact HV.
        rewrite (nth_put_same _ [] (sP s) b) by exact HP.
        destruct (oltb (sGf s) (nth b (sPf s) zero)); repeat split; assumption.
      + destruct (move _ _ _ _ _ _ _ _ _) as [x v]. unfold settled. cbn [sX sV sP sGx sGf].
        destruct (oltb (f x) (sGf s)); [reflexivity|].
        assert (R : forall A (d y : A) l, nth b (put_at i y l) d = nth b l d).
        { intros A d y l. destruct (le_lt_dec (length l) i) as [Hl|Hl].
          - assert (Z : put_at i y l = l); [|now rewrite Z]. clear - Hl. revert i Hl.
            induction l as [|z l IH]; intros [|i] Hl; cbn in *; try reflexivity; [lia|]. now rewrite IH by lia.
          - rewrite nth_put_at by exact Hl. now rewrite (proj2 (Nat.eqb_neq b i)) by lia. }
        rewrite put_at_length. split; [exact Hb|]. rewrite put_at_length. split; [exact LV|].
        destruct (oltb (f x) (nth i (sPf s) zero)); rewrite ?put_at_length, ?R; repeat split; assumption.
    - destruct (move _ _ _ _ _ _ _ _ _) as [x v]. unfold settled. cbn [sX sV sP sGx sGf].
      destruct (oltb (f x) (sGf s)); [reflexivity|exact H].
  Qed.
  Lemma swarm_step_settled : forall draws i s, settled s -> settled (swarm_step f zero w a1 a2 vmax i draws s).
  Proof. intros draws. induction draws as [|rs draws IH]; intros i s H; cbn; [exact H|]. now apply IH, swarm_particle_settled. Qed.
  Lemma settled_graph : forall s, settled s -> on_graph f (swarm_best s).
  Proof.
    intros s H. unfold settled in H. unfold on_graph, swarm_best, read_g. destruct (sGx s); cbn [fst snd]; [apply H|exact H].
  Qed.
  Fixpoint swarm_run (ds : list (list (list (Q * Q)))) (s : swarm O) : swarm O :=
    match ds with [] => s | d :: ds' => swarm_run ds' (swarm_step f zero w a1 a2 vmax 0 d s) end.
  Lemma swarm_run_spec : forall ds s, settled s ->
    settled (swarm_run ds s) /\ oleb (sGf (swarm_run ds s)) (sGf s) = true.
  Proof.
    intros ds. induction ds as [|d ds IH]; intros s H; cbn; [split; [exact H|apply oleb_refl]|].
    destruct (IH _ (swarm_step_settled d 0 s H)) as [A B]. split; [exact A|]. eapply oleb_trans; [exact B|apply swarm_step_mono].
  Qed.
End Sw.

(** ** Driver *)
Section Dr.
  Variable St : Type.
  Variable next : St -> St * bool.
  Variables crit best_f : St -> option Q.
  Variable thresh : Q.

  (** The driver's own iterates. *)
  Fixpoint nsteps (n : nat) (s : St) (e : bool) : St * bool :=
    match n with 0 => (s, e) | S k => let '(s', e') := next s in nsteps k s' (e || e') end.
  Definition met (s : St) : Prop := exists c, crit s = Some c /\ (Qabs c <= Qabs thresh)%Q.

  Lemma drv_run_stops : forall verbose n s e,
    (forall k, crit (fst (nsteps (S k) s e)) <> None /\ best_f (fst (nsteps (S k) s e)) <> None) ->
    (forall k, 0 < k -> k < S n -> ~ met (fst (nsteps k s e)) /\ snd (nsteps k s e) = false) ->
    met (fst (nsteps (S n) s e)) \/ snd (nsteps (S n) s e) = true ->
    forall fuel, n < fuel ->
    drv_run next crit best_f thresh verbose fuel (MkDrv s e) false = Some (Some (MkDrv (fst (nsteps (S n) s e)) (snd (nsteps (S n) s e)))).
  Proof.
    intros verbose n. induction n as [|n IH]; intros s e Hattr Hbefore Hstop fuel Hf.
    - destruct fuel as [|fuel]; [lia|]. cbn [drv_run]. unfold drv_next. cbn [d_st d_err].
      specialize (Hattr 0). cbn [nsteps] in *. destruct (next s) as [s' e'] eqn:En. cbn [fst snd] in *.
      destruct Hattr as [Hc Hb]. destruct (crit s') as [c|] eqn:Ec; [|congruence]. destruct (best_f s') as [b|] eqn:Eb; [|congruence].
      rewrite andb_false_r. unfold drv_check. cbn [d_st d_err]. rewrite Ec, Eb.
      assert (Z : (if Qle_bool (Qabs c) (Qabs thresh) then (true, e || e') else if e || e' then (true, true) else (false, false)) = (true, e || e')).
      { destruct Hstop as [[c' [Hc' Hm]]|He].
        - rewrite Ec in Hc'. inversion Hc'. subst c'. apply Qle_bool_iff in Hm. now rewrite Hm.
        - rewrite He. now destruct (Qle_bool _ _). }
      rewrite Z. cbn [fst]. destruct fuel; reflexivity.
    - destruct fuel as [|fuel]; [lia|]. cbn [drv_run]. unfold drv_next. cbn [d_st d_err].
      pose proof (Hattr 0) as Ha. pose proof (Hbefore 1 ltac:(lia) ltac:(lia)) as Hb1. cbn [nsteps] in *.
      destruct (next s) as [s' e'] eqn:En. cbn [fst snd] in *.
      destruct Ha as [Hc Hb]. destruct (crit s') as [c|] eqn:Ec; [|congruence]. destruct (best_f s') as [b|] eqn:Eb; [|congruence].
      rewrite andb_false_r. unfold drv_check. cbn [d_st d_err]. rewrite Ec, Eb. destruct Hb1 as [Hm He]. rewrite He.
      destruct (Qle_bool (Qabs c) (Qabs thresh)) eqn:Q.
      { exfalso. apply Hm. exists c. split; [exact Ec|]. now apply Qle_bool_iff. }
      cbn [fst]. rewrite He in *. apply (IH s' false).
      + intro k. exact (Hattr (S k)).
      + intros k Hk1 Hk2. pose proof (Hbefore (S k) ltac:(lia) ltac:(lia)) as H. cbn [nsteps] in H. rewrite En, He in H. exact H.
      + exact Hstop.
      + lia.
  Qed.

  (** Without [best_f] the quiet driver ignores the criterion. *)
  Lemma drv_run_never : forall fuel s, (forall x, best_f x = None) -> (forall x, snd (next x) = false) ->
    drv_run next crit best_f thresh false fuel (MkDrv s false) false = None.
  Proof.
    intros fuel. induction fuel as [|fuel IH]; intros s Hb Hn; [reflexivity|]. cbn [drv_run].
    unfold drv_next. cbn [d_st d_err andb]. pose proof (Hn s) as H1. destruct (next s) as [s' e']. cbn [snd] in H1. subst e'.
    unfold drv_check. cbn [d_st d_err orb]. rewrite Hb. destruct (crit s'); cbn [fst]; now apply IH.
  Qed.
  Lemma drv_run_raises : forall fuel s, (forall x, best_f x = None) ->
    drv_run next crit best_f thresh true (S fuel) (MkDrv s false) false = Some None.
  Proof.
    intros fuel s Hb. cbn [drv_run]. unfold drv_next. cbn [d_st d_err]. destruct (next s) as [s' e']. now rewrite Hb.
  Qed.
End Dr.
