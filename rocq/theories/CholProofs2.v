(** Pivoted Cholesky decomposition: the invariant and the result. *)
From Coq Require Import Bool List Arith Permutation Reals Lra Lia.
From Verif Require Import CholSpec CholModel CholProofs.
Import ListNotations.
Local Open Scope R_scope.

Section Loop.
  Variables (N : nat) (V : nat -> nat -> R) (M : nat) (tol : R).
  Hypothesis SV : symmetric N V.
  Hypothesis PV : psd N V.
  Hypothesis T0 : 0 <= tol.
  Record inv (s : chol) : Prop := {
    i_m : (ch_m s <= N)%nat; i_len : length (ch_R s) = ch_m s; i_pi : permutes N (ch_pi s);
    i_sym : symmetric N (left_over V (ch_R s)); i_psd : psd N (left_over V (ch_R s));
    i_zero : forall i j, (i < ch_m s)%nat -> (j < N)%nat -> left_over V (ch_R s) (ch_pi s i) j = 0;
    i_diag : forall i, (ch_m s <= i < N)%nat -> ch_d s (ch_pi s i) = left_over V (ch_R s) (ch_pi s i) (ch_pi s i);
    i_err : ch_err s = trace N (left_over V (ch_R s));
    i_tri : forall k, (k < ch_m s)%nat -> 0 < nth k (ch_R s) (fun _ => 0) (ch_pi s k) /\ forall j, (j < k)%nat -> nth k (ch_R s) (fun _ => 0) (ch_pi s j) = 0
  }.
  Lemma inv_start : inv (chol_start N V).
  Proof.
    assert (E : forall i j, left_over V [] i j = V i j) by (intros; unfold left_over; cbn; ring).
    constructor; cbn [chol_start ch_m ch_pi ch_d ch_R ch_err].
    - lia.
    - reflexivity.
    - split; auto.
    - intros i j Hi Hj. rewrite !E. now apply SV.
    - intro x. rewrite (quad_ext N _ V) by (intros; apply E). apply PV.
    - intros; lia.
    - intros i _. now rewrite E.
    - rewrite rlsum_seq. unfold trace. apply rsum_ext. intros i Hi. rewrite E. apply Rabs_right, Rle_ge, (psd_diag N V i PV Hi).
    - intros; lia.
  Qed.
  Lemma nonneg_sum_zero n f : (forall i, (i < n)%nat -> 0 <= f i) -> (forall i, (i < n)%nat -> f i <= 0) -> rsum n f = 0.
  Proof. intros A B. apply rsum_zero. intros i Hi. specialize (A i Hi). specialize (B i Hi). lra. Qed.
  Lemma step_ok s : inv s -> 0 < ch_err s -> exists s', chol_step N V s = Some s' /\ ch_m s' = (ch_m s + 1)%nat /\ inv s'.
  Proof.
    intros [Im Il Ip Is Ipsd Iz Id Ie It] Pe. set (m := ch_m s) in *. set (A := left_over V (ch_R s)) in *.
    assert (DA : forall j, (j < N)%nat -> 0 <= A j j) by (intros j Hj; apply (psd_diag N A j Ipsd Hj)).
    assert (TR : trace N A = rsum N (fun i => A (ch_pi s i) (ch_pi s i))) by (symmetry; exact (permutes_sum N (ch_pi s) (fun j => A j j) Ip)).
    assert (Lm : (m < N)%nat).
    { destruct (Nat.eq_dec m N) as [E|]; [exfalso|lia]. rewrite Ie, TR, rsum_zero in Pe; [lra|]. intros i Hi. apply Iz; [lia|]. now apply (proj1 Ip). }
    unfold chol_step. fold m. destruct (rargmax_spec (map (fun j => ch_d s (ch_pi s j)) (seq m (N - m)))) as (k & EK & Lk & MX).
    { intro E. apply (f_equal (@length _)) in E. rewrite map_length, seq_length in E. cbn in E. lia. }
    rewrite EK. rewrite map_length, seq_length in Lk, MX.
    assert (NX : forall j, (j < N - m)%nat -> nth j (map (fun j => ch_d s (ch_pi s j)) (seq m (N - m))) 0 = A (ch_pi s (m + j)) (ch_pi s (m + j))).
    { intros j Hj. rewrite (nth_indep _ 0 (ch_d s (ch_pi s 0%nat))) by (now rewrite map_length, seq_length). rewrite (map_nth (fun j => ch_d s (ch_pi s j))), seq_nth by exact Hj. apply Id. lia. }
    set (pi := updn (updn (ch_pi s) m (ch_pi s (m + k))) (m + k) (ch_pi s m)).
    assert (Pp : permutes N pi) by (apply permutes_swap; [exact Ip|exact Lm|lia]).
    assert (Em : pi m = ch_pi s (m + k)%nat).
    { unfold pi, updn. destruct (Nat.eqb_spec m (m + k)); [f_equal; assumption|]. now rewrite Nat.eqb_refl. }
    assert (Elo : forall i, (i < m)%nat -> pi i = ch_pi s i).
    { intros i Hi. unfold pi, updn. rewrite (proj2 (Nat.eqb_neq i (m + k))), (proj2 (Nat.eqb_neq i m)) by lia. reflexivity. }
    assert (Ehi : forall i, (m <= i < N)%nat -> exists i', (m <= i' < N)%nat /\ pi i = ch_pi s i').
    { intros i Hi. unfold pi, updn. destruct (Nat.eqb_spec i (m + k)); [exists m; split; [lia|reflexivity]|]. destruct (Nat.eqb_spec i m); [exists (m + k)%nat; split; [lia|reflexivity]|]. exists i. split; [lia|reflexivity]. }
    assert (Dg : forall i, (m <= i < N)%nat -> ch_d s (pi i) = A (pi i) (pi i)) by (intros i Hi; destruct (Ehi i Hi) as (i' & Hi' & ->); now apply Id).
    assert (Pos : 0 < A (pi m) (pi m)).
    { rewrite Em. destruct (Rlt_le_dec 0 (A (ch_pi s (m + k)%nat) (ch_pi s (m + k)%nat))) as [C|C]; [exact C|exfalso].
      rewrite Ie, TR, nonneg_sum_zero in Pe; [lra| |]; intros i Hi; [apply DA, (proj1 Ip), Hi|].
      destruct (lt_dec i m) as [C'|C']; [rewrite Iz; [lra|exact C'|apply (proj1 Ip), Hi]|].
      pose proof (MX (i - m)%nat ltac:(lia)) as Q. rewrite !NX in Q by lia. replace (m + (i - m))%nat with i in Q by lia. lra. }
    rewrite (Dg m) by lia. destruct (Rle_dec (A (pi m) (pi m)) 0) as [C|_]; [lra|].
    set (a := sqrt (A (pi m) (pi m))). assert (Pa : 0 < a) by (apply sqrt_lt_R0; exact Pos). assert (Qa : a * a = A (pi m) (pi m)) by (apply sqrt_sqrt; lra).
    pose proof (entries N V (ch_R s) pi m (upd (fun _ => 0) (pi m) a) (ch_d s) Pp (N - (m + 1)) ltac:(lia)) as EN.
    destruct (fold_left _ _ _) as [row d] eqn:EF. specialize (EN (fun E => match ch_R s as l return length l = m -> l = [] with [] => fun _ => eq_refl | _ :: _ => fun Q => ltac:(rewrite E in Q; discriminate Q) end Il)).
    rewrite upd_same in EN.
    assert (X : forall i, (i < N)%nat -> (V (pi m) (pi i) - gram (ch_R s) (pi m) (pi i)) / a = A (pi m) (pi i) / a) by reflexivity.
    assert (Row : forall j, (j < N)%nat -> row j = A (pi m) j / a).
    { intros j Hj. destruct (permutes_onto N pi Pp j Hj) as (i & Hi & <-). destruct (EN i Hi) as [E _]. rewrite E. destruct (Nat.ltb_spec m i) as [C|C].
      - rewrite (proj2 (Nat.ltb_lt i (m + 1 + (N - (m + 1))))) by lia. reflexivity.
      - cbn [andb]. destruct (Nat.eq_dec i m) as [->|D]; [rewrite upd_same, <- Qa; field; lra|].
        rewrite upd_other by (intro Q; apply D, (proj2 Pp); auto). assert (Z : A (pi m) (pi i) = 0).
        { rewrite (Is (pi m) (pi i)) by (apply (proj1 Pp); assumption). rewrite (Elo i) by lia. apply Iz; [lia|]. now apply (proj1 Pp). }
        rewrite Z. unfold Rdiv. ring. }
    assert (LO : forall i j, (i < N)%nat -> (j < N)%nat -> left_over V (ch_R s ++ [row]) i j = A i j - (A (pi m) i / a) * (A (pi m) j / a)).
    { intros i j Hi Hj. unfold left_over. rewrite gram_app, (Row i Hi), (Row j Hj). unfold A, left_over. ring. }
    assert (Hpm : (pi m < N)%nat) by (apply (proj1 Pp); exact Lm).
    eexists. split; [reflexivity|]. cbn [ch_m]. split; [reflexivity|].
    assert (S' : symmetric N (left_over V (ch_R s ++ [row]))) by (intros i j Hi Hj; rewrite !LO by assumption; rewrite (Is i j Hi Hj); ring).
    assert (Z' : forall i j, (i < m + 1)%nat -> (j < N)%nat -> left_over V (ch_R s ++ [row]) (pi i) j = 0).
    { intros i j Hi Hj. rewrite LO by (try assumption; apply (proj1 Pp); lia). destruct (Nat.eq_dec i m) as [->|D].
      - rewrite <- Qa. field. lra.
      - rewrite (Is (pi m) (pi i)) by (apply (proj1 Pp); lia). rewrite (Elo i) by lia. rewrite !Iz by (try lia; assumption). unfold Rdiv. ring. }
    assert (D' : forall i, (m + 1 <= i < N)%nat -> d (pi i) = left_over V (ch_R s ++ [row]) (pi i) (pi i)).
    { intros i Hi. destruct (EN i ltac:(lia)) as [_ E]. rewrite (proj2 (Nat.ltb_lt m i)), (proj2 (Nat.ltb_lt i (m + 1 + (N - (m + 1))))) in E by lia. cbn [andb] in E.
      rewrite E, LO by (apply (proj1 Pp); lia). rewrite Dg by lia. reflexivity. }
    constructor; cbn [ch_m ch_pi ch_d ch_R ch_err].
    - lia.
    - rewrite app_length, Il. reflexivity.
    - exact Pp.
    - exact S'.
    - intro x. rewrite (quad_ext N _ (fun i j => A i j - A (pi m) i / a * (A (pi m) j / a))) by (intros; now apply LO). exact (psd_schur N A (pi m) Hpm Is Ipsd Pos x).
    - exact Z'.
    - exact D'.
    - unfold trace. rewrite <- (permutes_sum N pi (fun j => left_over V (ch_R s ++ [row]) j j) Pp), <- rlsum_seq.
      assert (SQ : seq 0 N = seq 0 (m + 1) ++ seq (m + 1) (N - (m + 1))) by (pose proof (seq_app (m + 1) (N - (m + 1)) 0) as Q; replace (m + 1 + (N - (m + 1)))%nat with N in Q by lia; exact Q). rewrite SQ. rewrite map_app, rlsum_app, rlsum_seq, rsum_zero.
      + rewrite Rplus_0_l. f_equal. apply map_ext_in. intros i Hi. apply in_seq in Hi. apply D'. lia.
      + intros i Hi. apply Z'; [lia|apply (proj1 Pp); lia].
    - intros q Hq. destruct (Nat.eq_dec q m) as [->|D].
      + rewrite app_nth2, Il, Nat.sub_diag by lia. cbn [nth]. split; [rewrite Row by exact Hpm; rewrite <- Qa; replace (a * a / a) with a by (field; lra); exact Pa|].
        intros j Hj. rewrite Row by (apply (proj1 Pp); lia). rewrite (Is (pi m) (pi j)) by (apply (proj1 Pp); lia). rewrite (Elo j) by lia. rewrite Iz by (try lia; assumption). unfold Rdiv. ring.
      + rewrite app_nth1 by lia. rewrite (Elo q) by lia. destruct (It q ltac:(lia)) as [I1 I2]. split; [exact I1|]. intros j Hj. rewrite (Elo j) by lia. now apply I2.
  Qed.
  Lemma loop_ok fuel : forall s, inv s -> (ch_m s <= M)%nat -> (M <= ch_m s + fuel)%nat ->
    exists s', chol_loop N V M tol fuel s = Some s' /\ inv s' /\ (ch_m s' <= M)%nat /\ (ch_err s' <= tol \/ ch_m s' = M).
  Proof.
    induction fuel as [|fuel IH]; intros s I LM LF; cbn [chol_loop]; destruct (Nat.ltb_spec (ch_m s) M) as [C|C]; try lia.
    - exists s. split; [reflexivity|]. split; [exact I|]. split; [lia|]. right. lia.
    - destruct (Rlt_dec tol (ch_err s)) as [E|E].
      + destruct (step_ok s I ltac:(lra)) as (s' & Es & Em & I'). rewrite Es. apply IH; [exact I'|lia|lia].
      + exists s. split; [reflexivity|]. split; [exact I|]. split; [lia|]. left. lra.
    - exists s. split; [reflexivity|]. split; [exact I|]. split; [lia|]. right. lia.
  Qed.
  Theorem cholesky : exists s, pivoted_chol N V M tol = Some s /\
    length (ch_R s) = ch_m s /\ (ch_m s <= M)%nat /\ (ch_m s <= N)%nat /\ (ch_err s <= tol \/ ch_m s = M) /\
    symmetric N (left_over V (ch_R s)) /\ psd N (left_over V (ch_R s)) /\ ch_err s = trace N (left_over V (ch_R s)) /\
    (forall i j, (i < N)%nat -> (j < N)%nat -> Rabs (left_over V (ch_R s) i j) <= ch_err s) /\
    ((N <= M)%nat -> forall i j, (i < N)%nat -> (j < N)%nat -> Rabs (left_over V (ch_R s) i j) <= tol) /\
    permutes N (ch_pi s) /\ forall k, (k < ch_m s)%nat -> 0 < nth k (ch_R s) (fun _ => 0) (ch_pi s k) /\ forall j, (j < k)%nat -> nth k (ch_R s) (fun _ => 0) (ch_pi s j) = 0.
  Proof.
    destruct (loop_ok M (chol_start N V) inv_start (Nat.le_0_l _) ltac:(cbn; lia)) as (s & E & [Im Il Ip Is Ipsd Iz Id Ie It] & LM & St).
    exists s. assert (B : forall i j, (i < N)%nat -> (j < N)%nat -> Rabs (left_over V (ch_R s) i j) <= ch_err s) by (intros i j Hi Hj; rewrite Ie; now apply psd_bound).
    repeat (split; [assumption|]). split; [|split; assumption].
    intros LN i j Hi Hj. destruct St as [St|St]; [specialize (B i j Hi Hj); lra|].
    destruct (permutes_onto N (ch_pi s) Ip i Hi) as (k & Hk & <-). rewrite Iz by lia. rewrite Rabs_R0. exact T0.
  Qed.
End Loop.
