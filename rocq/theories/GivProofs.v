(** The loop of Givens rotations: orthogonality and triangularity. *)
From Coq Require Import Bool List Arith Reals Lra Lia.
From Verif Require Import CholSpec CholModel CholProofs GivSpec GivModel.
Import ListNotations.
Local Open Scope R_scope.

Lemma rsum_pair n f p q : (p < n)%nat -> (q < n)%nat -> p <> q -> (forall i, (i < n)%nat -> i <> p -> i <> q -> f i = 0) -> rsum n f = f p + f q.
Proof.
  intros Hp Hq D Z. rewrite (rsum_ext n f (fun i => (if Nat.eq_dec i p then f p else 0) + (if Nat.eq_dec i q then f q else 0))).
  - rewrite rsum_plus. f_equal.
    + rewrite (rsum_one n _ p Hp); [destruct (Nat.eq_dec p p); [reflexivity|contradiction]|]. intros i _ Hi. destruct (Nat.eq_dec i p); [contradiction|reflexivity].
    + rewrite (rsum_one n _ q Hq); [destruct (Nat.eq_dec q q); [reflexivity|contradiction]|]. intros i _ Hi. destruct (Nat.eq_dec i q); [contradiction|reflexivity].
  - intros i Hi. destruct (Nat.eq_dec i p) as [Ep|Np], (Nat.eq_dec i q) as [Eq|Nq]; [congruence|subst i; lra|subst i; lra|rewrite Z by assumption; lra].
Qed.
Lemma dot_sum n A B i j : dot n A B i j = rsum n (fun k => A i k * B k j).
Proof. unfold dot. rewrite <- rlsum_seq. reflexivity. Qed.
Lemma givens_dot n r t A i j : (1 <= r < n)%nat -> (i < n)%nat -> dot n (givens r t) A i j = rotated r t A i j.
Proof.
  intros Hr Hi. rewrite dot_sum. unfold rotated, givens.
  destruct (Nat.eq_dec i r) as [->|N1]; [|destruct (Nat.eq_dec i (r - 1)) as [->|N2]].
  - rewrite (rsum_pair n _ r (r - 1)); [|lia|lia|lia|].
    + rewrite !Nat.eqb_refl. replace (r =? r - 1)%nat with false by (symmetry; apply Nat.eqb_neq; lia). replace (r - 1 =? r)%nat with false by (symmetry; apply Nat.eqb_neq; lia). cbn [andb orb]. ring.
    + intros k Hk K1 K2. rewrite !Nat.eqb_refl. replace (k =? r)%nat with false by (symmetry; now apply Nat.eqb_neq). replace (k =? r - 1)%nat with false by (symmetry; now apply Nat.eqb_neq).
      replace (r =? k)%nat with false by (symmetry; apply Nat.eqb_neq; congruence). replace (r =? r - 1)%nat with false by (symmetry; apply Nat.eqb_neq; lia). cbn [andb orb]. ring.
  - rewrite (rsum_pair n _ r (r - 1)); [|lia|lia|lia|].
    + rewrite !Nat.eqb_refl. replace (r =? r - 1)%nat with false by (symmetry; apply Nat.eqb_neq; lia). replace (r - 1 =? r)%nat with false by (symmetry; apply Nat.eqb_neq; lia). cbn [andb orb]. ring.
    + intros k Hk K1 K2. rewrite !Nat.eqb_refl. replace (k =? r)%nat with false by (symmetry; now apply Nat.eqb_neq). replace (k =? r - 1)%nat with false by (symmetry; now apply Nat.eqb_neq).
      replace (r - 1 =? k)%nat with false by (symmetry; apply Nat.eqb_neq; congruence). replace (r - 1 =? r)%nat with false by (symmetry; apply Nat.eqb_neq; lia). cbn [andb orb]. ring.
  - replace (i =? r)%nat with false by (symmetry; now apply Nat.eqb_neq). replace (i =? r - 1)%nat with false by (symmetry; now apply Nat.eqb_neq). cbn [andb orb].
    rewrite (rsum_one n _ i Hi); [rewrite Nat.eqb_refl; ring|]. intros k Hk K. replace (i =? k)%nat with false by (symmetry; apply Nat.eqb_neq; congruence). ring.
Qed.

(** Weighted inner products of columns that a rotation preserves. *)
Definition wsum (n : nat) (w : nat -> R) (A : nat -> nat -> R) (j k : nat) : R := rsum n (fun i => w i * (A i j * A i k)).
Lemma wsum_rotated n w r t A j k : (1 <= r < n)%nat -> w r = w (r - 1)%nat -> wsum n w (rotated r t A) j k = wsum n w A j k.
Proof.
  intros Hr W. unfold wsum. apply Rminus_diag_uniq. unfold Rminus. rewrite <- (Rmult_1_l (- _)). replace (1 * - rsum n (fun i => w i * (A i j * A i k))) with ((-1) * rsum n (fun i => w i * (A i j * A i k))) by ring.
  rewrite <- rsum_scal, <- rsum_plus. rewrite (rsum_pair n _ r (r - 1)); [|lia|lia|lia|].
  - unfold rotated. destruct (Nat.eq_dec r r); [|contradiction]. destruct (Nat.eq_dec (r - 1) r); [lia|]. destruct (Nat.eq_dec (r - 1) (r - 1)); [|contradiction].
    rewrite W. pose proof (sin2_cos2 t) as S. unfold Rsqr in S. replace (sin t * sin t) with (1 - cos t * cos t) in * by lra.
    set (x := A r j). set (y := A (r - 1)%nat j). set (x' := A r k). set (y' := A (r - 1)%nat k).
    transitivity (w (r - 1)%nat * ((cos t * cos t + sin t * sin t - 1) * (x * x' + y * y'))); [ring|]. replace (cos t * cos t + sin t * sin t - 1) with 0 by (pose proof (sin2_cos2 t) as S'; unfold Rsqr in S'; lra). ring.
  - intros i Hi I1 I2. unfold rotated. destruct (Nat.eq_dec i r); [contradiction|]. destruct (Nat.eq_dec i (r - 1)); [contradiction|]. ring.
Qed.
Lemma wsum_ext n w A B j k : (forall i l, (i < n)%nat -> A i l = B i l) -> wsum n w A j k = wsum n w B j k.
Proof. intros E. apply rsum_ext. intros i Hi. now rewrite !E. Qed.

(** The angle makes the entry small. *)
Lemma angle_small temp r c t : angle temp r c = Some t -> (1 <= r)%nat -> Rabs (rotated r t temp r c) < cut8 /\ - (PI / 2) <= t <= PI / 2.
Proof.
  intros E Hr. unfold angle in E. destruct (Rlt_dec (Rabs (temp r c)) cut8) as [|H1]; [discriminate|].
  pose proof PI_RGT_0 as P. unfold rotated. destruct (Nat.eq_dec r r); [|contradiction].
  destruct (Rlt_dec (Rabs (temp (r - 1)%nat c)) cut8) as [H2|H2]; injection E as <-.
  - rewrite cos_PI2, sin_PI2. split; [|lra]. replace (0 * temp r c - 1 * temp (r - 1)%nat c) with (- temp (r - 1)%nat c) by ring. now rewrite Rabs_Ropp.
  - set (x := temp r c / temp (r - 1)%nat c). pose proof (atan_bound x) as B. split; [|lra].
    assert (C : 0 < cos (atan x)) by (apply cos_gt_0; lra). assert (T : sin (atan x) = cos (atan x) * x) by (rewrite <- (tan_atan x) at 3; unfold tan; field; lra).
    rewrite T. assert (Nz : temp (r - 1)%nat c <> 0). { intros Z. rewrite Z, Rabs_R0 in H2. apply H2. unfold cut8. apply Rinv_0_lt_compat. apply pow_lt. lra. }
    replace (cos (atan x) * temp r c - cos (atan x) * x * temp (r - 1)%nat c) with 0 by (unfold x; field; exact Nz). rewrite Rabs_R0. unfold cut8. apply Rinv_0_lt_compat. apply pow_lt. lra.
Qed.

Section Loop.
  Variables (n : nat) (U : nat -> nat -> R).
  (** What holds of every state: the rotations done so far, and their generators. *)
  Definition done (st : (nat -> nat -> R) * list (R * (nat * nat))) : Prop :=
    exists l, snd st = generators n l /\ (forall e, In e l -> (1 <= fst e < n)%nat /\ - (PI / 2) <= snd e <= PI / 2) /\ forall i j, (i < n)%nat -> fst st i j = rotated_all l U i j.
  Lemma rotated_ext r t A B i j : (1 <= r < n)%nat -> (i < n)%nat -> (forall i j, (i < n)%nat -> A i j = B i j) -> rotated r t A i j = rotated r t B i j.
  Proof. intros Hr Hi E. unfold rotated. destruct (Nat.eq_dec i r); [now rewrite !E by lia|]. destruct (Nat.eq_dec i (r - 1)); [now rewrite !E by lia|now apply E]. Qed.
  Lemma done_step st r c : (1 <= r < n)%nat -> done st -> done (giv_step n st (r, c)).
  Proof.
    intros Hr (l & G & B & T). destruct st as [temp uf]. cbn [fst snd] in *. cbn [giv_step]. destruct (angle temp r c) as [t|] eqn:E; [|exists l; auto].
    destruct (angle_small _ _ _ _ E) as [_ Bt]; [lia|]. exists (l ++ [(r, t)]). cbn [fst snd]. split; [|split].
    - rewrite G. unfold generators. rewrite flat_map_app. f_equal. cbn [flat_map app]. unfold rotation_terms. replace (n + (r - 1))%nat with (r + n - 1)%nat by lia. rewrite (Nat.add_comm n r). reflexivity.
    - intros e He. apply in_app_iff in He. destruct He as [He|[<-|[]]]; [now apply B|]. cbn [fst snd]. split; [exact Hr|exact Bt].
    - intros i j Hi. rewrite givens_dot by assumption. unfold rotated_all. rewrite fold_left_app. cbn [fold_left fst snd]. apply rotated_ext; [exact Hr|exact Hi|exact T].
  Qed.
  Definition below (c i : nat) : R := if Nat.ltb c i then 1 else 0.
  Lemma wsum_step w st r c j k : (1 <= r < n)%nat -> w r = w (r - 1)%nat -> wsum n w (fst (giv_step n st (r, c))) j k = wsum n w (fst st) j k.
  Proof.
    intros Hr W. destruct st as [temp uf]. cbn [giv_step]. destruct (angle temp r c) as [t|]; [|reflexivity]. cbn [fst].
    rewrite <- (wsum_rotated n w r t temp j k Hr W). apply wsum_ext. intros i l Hi. now apply givens_dot.
  Qed.
  (** One column. *)
  Lemma pass c : forall m st, (c + m < n)%nat -> done st -> (forall i, (c + m < i < n)%nat -> Rabs (fst st i c) < cut8) ->
    let st' := fold_left (giv_step n) (map (fun r => (r, c)) (rev (seq (c + 1) m))) st in
    done st' /\ (forall i, (c < i < n)%nat -> Rabs (fst st' i c) < cut8) /\ forall w j k, (forall r, (c < r < n)%nat -> w r = w (r - 1)%nat) -> wsum n w (fst st') j k = wsum n w (fst st) j k.
  Proof.
    induction m as [|m IH]; intros st Hm D Sm.
    - cbn. split; [exact D|]. split; [|reflexivity]. intros i Hi. apply Sm. lia.
    - rewrite seq_S, rev_app_distr. cbn [rev app map fold_left]. set (r := (c + 1 + m)%nat). assert (Hr : (1 <= r < n)%nat) by (unfold r; lia).
      destruct (IH (giv_step n st (r, c))) as (D' & S' & W'); [lia|now apply done_step| |].
      + intros i Hi. destruct st as [temp uf]. cbn [fst giv_step] in *. destruct (Nat.eq_dec i r) as [->|Ni].
        * destruct (angle temp r c) as [t|] eqn:E; cbn [fst].
          -- rewrite givens_dot by lia. now destruct (angle_small _ _ _ _ E); [lia|].
          -- unfold angle in E. destruct (Rlt_dec (Rabs (temp r c)) cut8); [assumption|]. destruct (Rlt_dec (Rabs (temp (r - 1)%nat c)) cut8); discriminate.
        * assert (Hi' : (c + S m < i < n)%nat) by (unfold r in *; lia). destruct (angle temp r c) as [t|]; cbn [fst]; [|now apply Sm].
          rewrite givens_dot by lia. unfold rotated. destruct (Nat.eq_dec i r); [contradiction|]. destruct (Nat.eq_dec i (r - 1)); [unfold r in *; lia|now apply Sm].
      + split; [exact D'|]. split; [exact S'|]. intros w j k Hw. rewrite W' by exact Hw. apply wsum_step; [exact Hr|apply Hw; unfold r in *; lia].
  Qed.
  Lemma columns_done : forall k, (k <= n)%nat ->
    let st := fold_left (giv_step n) (flat_map (fun c => map (fun r => (r, c)) (rev (seq (c + 1) (n - (c + 1))))) (seq 0 k)) (U, []) in
    done st /\ (forall c, (c < k)%nat -> wsum n (below c) (fst st) c c <= INR n * (cut8 * cut8)) /\ forall i j, wsum n (fun _ => 1) (fst st) i j = wsum n (fun _ => 1) U i j.
  Proof.
    induction k as [|k IH]; intros Hk.
    - cbn. split; [exists []; split; [reflexivity|split; [intros e []|reflexivity]]|]. split; [intros c Hc; lia|reflexivity].
    - rewrite seq_S, flat_map_app. cbn [flat_map plus]. rewrite app_nil_r, fold_left_app. specialize (IH ltac:(lia)). cbn zeta in *.
      set (st := fold_left _ (flat_map _ (seq 0 k)) (U, [])) in *. destruct IH as (D & Sm & O).
      destruct (pass k (n - (k + 1)) st) as (D' & S' & W'); [lia|exact D|intros i Hi; lia|].
      split; [exact D'|]. split; [|intros i j; rewrite W' by reflexivity; apply O].
      intros c Hc. destruct (Nat.eq_dec c k) as [->|Nc].
      + clear W' D' Sm D O. revert S'. match goal with |- _ -> wsum _ _ ?X _ _ <= _ => generalize X end. intros A S'. unfold wsum.
        assert (G : forall p, (p <= n)%nat -> rsum p (fun i => below k i * (A i k * A i k)) <= INR p * (cut8 * cut8)).
        { induction p as [|p IHp]; intros Hp; [cbn; lra|]. rewrite S_INR. cbn [rsum]. specialize (IHp ltac:(lia)). enough (below k p * (A p k * A p k) <= cut8 * cut8) by lra.
          unfold below. destruct (Nat.ltb_spec k p) as [L|L].
          - specialize (S' p ltac:(lia)). apply Rabs_def2 in S'. destruct S' as [S1 S2]. rewrite Rmult_1_l. pose proof (Rmult_lt_0_compat (cut8 - A p k) (cut8 + A p k) ltac:(lra) ltac:(lra)) as Q. replace ((cut8 - A p k) * (cut8 + A p k)) with (cut8 * cut8 - A p k * A p k) in Q by ring. lra.
          - rewrite Rmult_0_l. apply Rle_0_sqr. }
        now apply G.
      + rewrite W'; [apply Sm; lia|]. intros r Hr. unfold below. destruct (Nat.ltb_spec c r); [|lia]. destruct (Nat.ltb_spec c (r - 1)); [reflexivity|lia].
  Qed.
  Theorem givens_loop : exists l, snd (giv_loop n U) = generators n l /\ (forall e, In e l -> (1 <= fst e < n)%nat /\ - (PI / 2) <= snd e <= PI / 2) /\
    (forall i j, (i < n)%nat -> fst (giv_loop n U) i j = rotated_all l U i j) /\
    (forall j k, columns n (rotated_all l U) j k = columns n U j k) /\
    forall r c, (c < r < n)%nat -> Rabs (rotated_all l U r c) <= sqrt (INR n) * / 10 ^ 8.
  Proof.
    destruct (columns_done n (le_n n)) as ((l & G & B & T) & S & O). fold (positions n) in *. fold (giv_loop n U) in *. exists l. split; [exact G|]. split; [exact B|]. split; [exact T|].
    assert (O' : forall A j k, wsum n (fun _ => 1) A j k = columns n A j k) by (intros A j k; apply rsum_ext; intros; ring).
    split.
    - intros j k. rewrite <- !O', <- O. apply wsum_ext. intros i m Hi. symmetry. now apply T.
    - intros r c Hrc. rewrite <- T by lia. set (A := fst (giv_loop n U)) in *. specialize (S c ltac:(lia)).
      assert (Q : A r c * A r c <= INR n * (cut8 * cut8)).
      { eapply Rle_trans; [|exact S]. unfold wsum. pose proof (rsum_member n (fun i => below c i * (A i c * A i c)) r) as M. cbn beta in M. unfold below at 2 in M. destruct (Nat.ltb_spec c r); [|lia]. rewrite Rmult_1_l in M. apply M; [|lia].
        intros i _. unfold below. destruct (Nat.ltb c i); [rewrite Rmult_1_l|rewrite Rmult_0_l; lra]. apply Rle_0_sqr. }
      fold cut8. assert (P8 : 0 < cut8) by (unfold cut8; apply Rinv_0_lt_compat, pow_lt; lra). apply Rsqr_incr_0_var; [|apply Rmult_le_pos; [apply sqrt_pos|lra]].
      rewrite <- Rsqr_abs. unfold Rsqr. replace (sqrt (INR n) * cut8 * (sqrt (INR n) * cut8)) with (sqrt (INR n) * sqrt (INR n) * (cut8 * cut8)) by ring. rewrite sqrt_sqrt by apply pos_INR. exact Q.
  Qed.
End Loop.
