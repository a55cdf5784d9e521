(** Proofs about the shift error mitigation. *)
From Coq Require Import Bool List Arith ZArith Ring Lia.
From Verif Require Import Coeff OperatorModel AcseModel MitModel MitSpec.
Import ListNotations.
Local Open Scope nat_scope.

Section Proofs.
  Variable K : CoefRing.
  Add Ring KRing : (c_ring K).
  Variable key : Type.
  Variable keqb : key -> key -> bool.
  Variable idx : Type.
  Notation layer := (opv K key).
  Notation rdm := (idx -> K).
  Local Open Scope coef_scope.

  Lemma scale_last_app : forall (eps : K) (A : list layer) (l : layer),
    scale_last eps (A ++ [l]) = Some (A ++ [scale_layer eps l]).
  Proof.
    induction A as [|a A IH]; intros l; [reflexivity|].
    cbn [app scale_last]. destruct (A ++ [l]) eqn:E; [destruct A; discriminate|].
    rewrite <- E, IH. reflexivity.
  Qed.

  Lemma firstn_S_app : forall (T : list layer) d, (d < length T)%nat ->
    exists l, firstn (d + 1) T = firstn d T ++ [l].
  Proof.
    intros T d H. rewrite Nat.add_1_r. exists (nth d T []). revert T H.
    induction d as [|d IH]; intros T H; destruct T as [|t T]; cbn in *; try lia; [reflexivity|].
    now rewrite <- IH by lia.
  Qed.

  Section Identity.
    Variable meas : nat -> list layer -> rdm.
    Variable hf : rdm.
    Variable closed : Z.
    Variable tr : list layer -> rdm.
    Variable err : nat -> rdm.
    Hypothesis Hm : forall n S i, meas n S i = tr S i + err (length S) i.
    Variable eps : K.

    Lemma full_loop_identity : forall (rest done : list layer) n g, done <> [] ->
      exists g' n', full_loop meas eps (done ++ rest) (seq (length done) (length rest)) n g = Some (g', n') /\
        forall i, g' i = g i + err (length done) i - err (length (done ++ rest)) i + leftover tr hf eps done rest i.
    Proof.
      induction rest as [|l rest IH]; intros done n g Hd.
      - exists g, n. split; [reflexivity|]. intros i. rewrite app_nil_r. cbn [leftover]. ring.
      - cbn [length seq full_loop]. unfold ans_truncate.
        replace (firstn (length done + 1) (done ++ l :: rest)) with (done ++ [l])
          by (rewrite firstn_app_2; reflexivity).
        rewrite scale_last_app.
        replace (firstn (length done) (done ++ l :: rest)) with done
          by (rewrite firstn_app, Nat.sub_diag, firstn_all; cbn [firstn]; symmetry; apply app_nil_r).
        replace (done ++ l :: rest) with ((done ++ [l]) ++ rest) by (rewrite <- app_assoc; reflexivity).
        replace (S (length done)) with (length (done ++ [l])) by (rewrite app_length; cbn; lia).
        destruct (IH (done ++ [l]) (n + 2)%nat
          (radd K idx g (rsub K idx (meas n done) (meas (n + 1)%nat (done ++ [scale_layer eps l])))))
          as (g' & n' & E & Hg); [destruct done; discriminate|].
        exists g', n'. split; [exact E|]. intros i. rewrite Hg. unfold radd, rsub. rewrite !Hm.
        cbn [leftover]. change (@damped K key) with (@scale_layer K key). destruct done as [|x done]; [contradiction|].
        replace (length ((x :: done) ++ [scale_layer eps l])) with (length ((x :: done) ++ [l])) by (rewrite !app_length; reflexivity).
        ring.
    Qed.

    Lemma full_identity : forall (S : list layer) (P : layer) n, ans_add keqb closed S P <> [] ->
      exists g n', full_gamma keqb meas hf closed eps S P n = Some (g, n') /\
        forall k i, corrected (Some g) c1 (meas k (ans_add keqb closed S P)) i
                    = tr (ans_add keqb closed S P) i + leftover tr hf eps [] (ans_add keqb closed S P) i.
    Proof.
      intros S P n HT. unfold full_gamma. destruct (ans_add keqb closed S P) as [|t T]; [contradiction|].
      unfold ans_truncate. cbn [firstn scale_last].
      destruct (full_loop_identity T [t] (n + 1) (rsub K idx hf (meas n [scale_layer eps t]))) as (g & n' & E & Hg);
        [discriminate|].
      exists g, n'. split.
      - replace (length (t :: T) - 1)%nat with (length T) by (cbn [length]; lia). exact E.
      - intros k i. unfold corrected, radd, rscale. rewrite Hg. unfold rsub. rewrite !Hm.
        cbn [leftover app length]. change (@damped K key) with (@scale_layer K key). ring.
    Qed.
  End Identity.

  Section Exact.
    Variable meas : nat -> list layer -> rdm.
    Variable hf : rdm.
    Variable closed : Z.
    (** The matrix the ansatz prepares, and the error of the device at a number of layers. *)
    Variable tr : list layer -> rdm.
    Variable err : nat -> rdm.
    Hypothesis Hm : forall n S i, meas n S i = tr S i + err (length S) i.

    Variable eps : K.
    Hypothesis Hhf : forall l i, tr [scale_layer eps l] i = hf i.
    Hypothesis Htr : forall (A : list layer) l i, A <> [] -> tr (A ++ [scale_layer eps l]) i = tr A i.

    Lemma full_loop_exact : forall (T : list layer) m d n g,
      (0 < d)%nat -> (d + m = length T)%nat -> (forall i, g i = - err d i) ->
      exists g' n', full_loop meas eps T (seq d m) n g = Some (g', n') /\ forall i, g' i = - err (length T) i.
    Proof.
      intros T m. induction m as [|m IH]; intros d n g Hd E Hg.
      - exists g, n. split; [reflexivity|]. replace (length T) with d by lia. exact Hg.
      - cbn [seq full_loop]. unfold ans_truncate.
        destruct (firstn_S_app T d) as [l El]; [lia|]. rewrite El, scale_last_app.
        apply IH; [lia|lia|]. intros i. unfold radd, rsub. rewrite !Hm, Hg, app_length, Htr.
        + rewrite firstn_length_le by lia. cbn [length]. replace (d + 1)%nat with (S d) by lia. ring.
        + destruct T; cbn in E; [lia|]. destruct d; [lia|]. discriminate.
    Qed.

    Lemma full_exact : forall (S : list layer) (P : layer) n, ans_add keqb closed S P <> [] ->
      exists g n', full_gamma keqb meas hf closed eps S P n = Some (g, n') /\
        forall k i, corrected (Some g) c1 (meas k (ans_add keqb closed S P)) i = tr (ans_add keqb closed S P) i.
    Proof.
      intros S P n HT. unfold full_gamma. set (T := ans_add keqb closed S P) in *.
      destruct T as [|t T'] eqn:ET; [contradiction|]. rewrite <- ET in *.
      unfold ans_truncate. replace (firstn 1 T) with ([] ++ [t]) by (rewrite ET; reflexivity).
      rewrite scale_last_app. cbn [app].
      destruct (full_loop_exact T (length T - 1) 1 (n + 1) (rsub K idx hf (meas n [scale_layer eps t]))) as (g & n' & E & Hg).
      - lia.
      - rewrite ET. cbn [length]. lia.
      - intros i. unfold rsub. rewrite Hm, Hhf. cbn [length]. ring.
      - exists g, n'. split; [exact E|]. intros k i. unfold corrected, radd, rscale. rewrite Hm, Hg. ring.
    Qed.

    Lemma half_sum : forall a : K, (a + a) * chalf = a.
    Proof.
      intros a. replace ((a + a) * chalf) with (a * (chalf + chalf)) by ring. rewrite chalf_dbl. ring.
    Qed.

    Lemma current_first : forall (rdm0 : rdm) (S : list layer) (P l : layer) n coeff,
      ans_add keqb closed S P = [l] ->
      exists g n', current_gamma keqb meas hf closed eps coeff None rdm0 S P n = Some (Some g, n') /\
        forall i, g i = - err 1 i.
    Proof.
      intros rdm0 S P l n coeff E. unfold current_gamma. rewrite E. cbn [ans_truncate firstn scale_last].
      eexists; eexists; split; [reflexivity|]. intros i. unfold rsub, rscale, radd. rewrite !Hm, Hhf, half_sum.
      cbn [length]. ring.
    Qed.

    Lemma current_same : forall (g rdm0 : rdm) (S : list layer) (P : layer) n coeff,
      length (ans_add keqb closed S P) = length S ->
      current_gamma keqb meas hf closed eps coeff (Some g) rdm0 S P n = Some (Some g, n).
    Proof.
      intros g rdm0 S P n coeff E. unfold current_gamma. now rewrite E, Nat.eqb_refl.
    Qed.

    Lemma current_next : forall (g rdm0 : rdm) (S : list layer) (P l : layer) n,
      S <> [] -> ans_add keqb closed S P = S ++ [l] ->
      (forall i, g i = - err (length S) i) -> (forall i, rdm0 i = tr S i) ->
      exists g' n', current_gamma keqb meas hf closed eps c1 (Some g) rdm0 S P n = Some (Some g', n') /\
        forall i, g' i = - err (length (S ++ [l])) i.
    Proof.
      intros g rdm0 S P l n HS E Hg H0. unfold current_gamma. rewrite E.
      replace (Nat.eqb (length (S ++ [l])) (length S)) with false
        by (symmetry; apply Nat.eqb_neq; rewrite app_length; cbn; lia).
      rewrite scale_last_app. eexists; eexists; split; [reflexivity|]. intros i.
      cbv zeta. unfold corrected, radd, rsub, rscale. rewrite !Hm, H0, !Htr, half_sum by exact HS.
      rewrite !app_length. cbn [length]. ring.
    Qed.

    Lemma shift_exact : forall (g : rdm) (S : list layer) k, (forall i, g i = - err (length S) i) ->
      forall i, corrected (Some g) c1 (meas k S) i = tr S i.
    Proof. intros g S k Hg i. unfold corrected, radd, rscale. rewrite Hm, Hg. ring. Qed.
  End Exact.
End Proofs.

Lemma shift_never : forall c, rc_protocol c <> Other -> shift_runs c = false.
Proof.
  intros [cl [] [] []] H; unfold shift_runs, shift_builds, get_residual, check_shift, shift_step; cbn in *;
    rewrite ?andb_false_r; try reflexivity; congruence.
Qed.
