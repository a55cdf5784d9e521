(** Pivoted Cholesky decomposition. *)
From Coq Require Import Bool List Arith Permutation Reals Lra Lia.
From Verif Require Import CholSpec CholModel.
Import ListNotations.
Local Open Scope R_scope.

Lemma rsum_ext n f g : (forall i, (i < n)%nat -> f i = g i) -> rsum n f = rsum n g.
Proof. induction n as [|n IH]; intro H; [reflexivity|]. cbn [rsum]. rewrite IH, H by (try lia; intros; apply H; lia). reflexivity. Qed.
Lemma rsum_plus n f g : rsum n (fun i => f i + g i) = rsum n f + rsum n g.
Proof. induction n as [|n IH]; cbn [rsum]; [ring|]. rewrite IH. ring. Qed.
Lemma rsum_scal n c f : rsum n (fun i => c * f i) = c * rsum n f.
Proof. induction n as [|n IH]; cbn [rsum]; [ring|]. rewrite IH. ring. Qed.
Lemma rsum_zero n f : (forall i, (i < n)%nat -> f i = 0) -> rsum n f = 0.
Proof. induction n as [|n IH]; intro H; cbn [rsum]; [reflexivity|]. rewrite IH, H by (try lia; intros; apply H; lia). ring. Qed.
Lemma rsum_le n f : (forall i, (i < n)%nat -> 0 <= f i) -> 0 <= rsum n f.
Proof. induction n as [|n IH]; intro H; cbn [rsum]; [lra|]. pose proof (H n ltac:(lia)). assert (0 <= rsum n f) by (apply IH; intros; apply H; lia). lra. Qed.
Lemma rsum_one n f p : (p < n)%nat -> (forall i, (i < n)%nat -> i <> p -> f i = 0) -> rsum n f = f p.
Proof.
  induction n as [|n IH]; intros L H; [lia|]. cbn [rsum]. destruct (Nat.eq_dec p n) as [->|E].
  - rewrite rsum_zero; [ring|]. intros; apply H; lia.
  - rewrite IH by (try lia; intros; apply H; lia). rewrite (H n) by lia. ring.
Qed.
Lemma rsum_member n f p : (forall i, (i < n)%nat -> 0 <= f i) -> (p < n)%nat -> f p <= rsum n f.
Proof.
  induction n as [|n IH]; intros H L; [lia|]. cbn [rsum]. destruct (Nat.eq_dec p n) as [->|E].
  - assert (0 <= rsum n f) by (apply rsum_le; intros; apply H; lia). lra.
  - pose proof (H n ltac:(lia)). assert (f p <= rsum n f) by (apply IH; [intros; apply H|]; lia). lra.
Qed.
Lemma rsum_two n f p q : (forall i, (i < n)%nat -> 0 <= f i) -> (p < n)%nat -> (q < n)%nat -> p <> q -> f p + f q <= rsum n f.
Proof.
  induction n as [|n IH]; intros H L1 L2 D; [lia|]. cbn [rsum]. assert (H' : forall i, (i < n)%nat -> 0 <= f i) by (intros; apply H; lia).
  destruct (Nat.eq_dec p n) as [->|E].
  - assert (f q <= rsum n f) by (apply rsum_member; [exact H'|lia]). lra.
  - destruct (Nat.eq_dec q n) as [->|E'].
    + assert (f p <= rsum n f) by (apply rsum_member; [exact H'|lia]). lra.
    + pose proof (H n ltac:(lia)). assert (f p + f q <= rsum n f) by (apply IH; auto; lia). lra.
Qed.
(** Sums over lists. *)
Lemma rlsum_app l1 l2 : rlsum (l1 ++ l2) = rlsum l1 + rlsum l2.
Proof. unfold rlsum. induction l1 as [|x l IH]; cbn; [ring|]. rewrite IH. ring. Qed.
Lemma rlsum_seq f n : rlsum (map f (seq 0 n)) = rsum n f.
Proof. induction n as [|n IH]; [reflexivity|]. rewrite seq_S, map_app, rlsum_app, IH. cbn. ring. Qed.
Lemma rlsum_perm (l1 l2 : list R) : Permutation l1 l2 -> rlsum l1 = rlsum l2.
Proof. unfold rlsum. induction 1; cbn; lra. Qed.
Lemma gram_app rows r i j : gram (rows ++ [r]) i j = gram rows i j + r i * r j.
Proof. unfold gram. induction rows as [|x rows IH]; cbn; [ring|]. rewrite IH. ring. Qed.
Lemma column_gram rows p q : column rows p q = gram rows p q.
Proof. unfold column, rlsum, gram. induction rows as [|x rows IH]; cbn; [reflexivity|]. rewrite IH. reflexivity. Qed.

(** ** Quadratic forms *)
Lemma quad_ext n A B x : (forall i j, (i < n)%nat -> (j < n)%nat -> A i j = B i j) -> quad n A x = quad n B x.
Proof. intro H. unfold quad. apply rsum_ext. intros i Hi. apply rsum_ext. intros j Hj. rewrite H by assumption. reflexivity. Qed.
Lemma quad_sub n A v x : quad n (fun i j => A i j - v i * v j) x = quad n A x - rsum n (fun i => v i * x i) * rsum n (fun i => v i * x i).
Proof.
  unfold quad. transitivity (rsum n (fun i => rsum n (fun j => x i * A i j * x j) + - (rsum n (fun j => v j * x j)) * (v i * x i))).
  - apply rsum_ext. intros i _. replace (- rsum n (fun j => v j * x j) * (v i * x i)) with (- (v i * x i) * rsum n (fun j => v j * x j)) by ring.
    rewrite <- rsum_scal, <- rsum_plus. apply rsum_ext. intros j _. ring.
  - rewrite rsum_plus, rsum_scal. ring.
Qed.
(** The form at x - t e_p. *)
Lemma quad_shift n A p t x : (p < n)%nat -> symmetric n A ->
  quad n A (fun i => x i - (if Nat.eqb i p then t else 0)) = quad n A x - 2 * t * rsum n (fun j => A p j * x j) + t * t * A p p.
Proof.
  intros L S. unfold quad. set (e := fun i => if Nat.eqb i p then t else 0).
  assert (X : forall f, rsum n (fun i => e i * f i) = t * f p).
  { intro f. rewrite (rsum_one n _ p L); [unfold e; now rewrite Nat.eqb_refl|]. intros i _ Hi. unfold e. rewrite (proj2 (Nat.eqb_neq i p) Hi). ring. }
  transitivity (rsum n (fun i => (rsum n (fun j => x i * A i j * x j) + - t * (A i p * x i)) + (e i * (- rsum n (fun j => A i j * x j)) + e i * (t * A i p)))).
  - apply rsum_ext. intros i Hi.
    transitivity (rsum n (fun j => x i * A i j * x j + (- x i * (e j * A i j) + (- e i * (A i j * x j) + e i * (e j * A i j))))).
    + apply rsum_ext. intros j _. change (if Nat.eqb i p then t else 0) with (e i). change (if Nat.eqb j p then t else 0) with (e j). ring.
    + rewrite !rsum_plus, !rsum_scal, (X (fun j => A i j)). ring.
  - rewrite !rsum_plus, rsum_scal, (X (fun i => - rsum n (fun j => A i j * x j))), (X (fun i => t * A i p)).
    assert (E : rsum n (fun i => A i p * x i) = rsum n (fun j => A p j * x j)) by (apply rsum_ext; intros i Hi; rewrite (S i p Hi L); reflexivity). rewrite E. ring.
Qed.
Lemma psd_schur n A p : (p < n)%nat -> symmetric n A -> psd n A -> 0 < A p p -> psd n (fun i j => A i j - (A p i / sqrt (A p p)) * (A p j / sqrt (A p p))).
Proof.
  intros L S P Pos x. rewrite quad_sub. set (w := rsum n (fun j => A p j * x j)).
  assert (Q : sqrt (A p p) * sqrt (A p p) = A p p) by (apply sqrt_sqrt; lra). assert (Q0 : 0 < sqrt (A p p)) by (apply sqrt_lt_R0; exact Pos).
  assert (E : rsum n (fun i => A p i / sqrt (A p p) * x i) = / sqrt (A p p) * w) by (unfold w; rewrite <- rsum_scal; apply rsum_ext; intros i _; unfold Rdiv; ring).
  rewrite E. pose proof (P (fun i => x i - (if Nat.eqb i p then w / A p p else 0))) as H. rewrite (quad_shift n A p (w / A p p) x L S) in H. fold w in H.
  replace (/ sqrt (A p p) * w * (/ sqrt (A p p) * w)) with (w * w / A p p) by (rewrite <- Q at 1; field; lra).
  replace (quad n A x - 2 * (w / A p p) * w + w / A p p * (w / A p p) * A p p) with (quad n A x - w * w / A p p) in H by (field; lra). exact H.
Qed.
Lemma psd_diag n A i : psd n A -> (i < n)%nat -> 0 <= A i i.
Proof.
  intros P L. pose proof (P (fun k => if Nat.eqb k i then 1 else 0)) as H. unfold quad in H.
  rewrite (rsum_one n _ i L) in H.
  - rewrite Nat.eqb_refl, (rsum_one n _ i L) in H; [rewrite Nat.eqb_refl in H; lra|]. intros j _ D. rewrite (proj2 (Nat.eqb_neq j i) D). ring.
  - intros k _ D. apply rsum_zero. intros j _. rewrite (proj2 (Nat.eqb_neq k i) D). ring.
Qed.
Lemma psd_off n A i j : psd n A -> symmetric n A -> (i < n)%nat -> (j < n)%nat -> i <> j -> Rabs (A i j) <= (A i i + A j j) / 2.
Proof.
  intros P S Li Lj D.
  assert (H : forall c, c * c = 1 -> 0 <= A i i + A j j + 2 * c * A i j).
  { intros c Hc. pose proof (P (fun k => (if Nat.eqb k i then 1 else 0) - (if Nat.eqb k j then - c else 0))) as H. rewrite (quad_shift n A j (- c) _ Lj S) in H.
    assert (E1 : quad n A (fun k => if Nat.eqb k i then 1 else 0) = A i i).
    { unfold quad. rewrite (rsum_one n _ i Li).
      - rewrite Nat.eqb_refl, (rsum_one n _ i Li); [rewrite Nat.eqb_refl; ring|]. intros k _ E. rewrite (proj2 (Nat.eqb_neq k i) E). ring.
      - intros k _ E. apply rsum_zero. intros l _. rewrite (proj2 (Nat.eqb_neq k i) E). ring. }
    assert (E2 : rsum n (fun k => A j k * (if Nat.eqb k i then 1 else 0)) = A i j).
    { rewrite (rsum_one n _ i Li); [rewrite Nat.eqb_refl, (S j i Lj Li); ring|]. intros k _ E. rewrite (proj2 (Nat.eqb_neq k i) E). ring. }
    rewrite E1, E2 in H. replace (- c * - c) with 1 in H by lra. lra. }
  pose proof (H 1 ltac:(lra)). pose proof (H (-1) ltac:(lra)). unfold Rabs. destruct (Rcase_abs (A i j)); lra.
Qed.
Lemma psd_bound n A i j : psd n A -> symmetric n A -> (i < n)%nat -> (j < n)%nat -> Rabs (A i j) <= trace n A.
Proof.
  intros P S Li Lj. assert (D : forall k, (k < n)%nat -> 0 <= A k k) by (intros; now apply (psd_diag n A)). unfold trace. destruct (Nat.eq_dec i j) as [<-|E].
  - rewrite Rabs_right by (apply Rle_ge, D, Li). now apply (rsum_member n (fun k => A k k)).
  - pose proof (psd_off n A i j P S Li Lj E). pose proof (rsum_two n (fun k => A k k) i j D Li Lj E). pose proof (D i Li). pose proof (D j Lj). cbn beta in *. lra.
Qed.

(** ** The largest entry *)
Lemma largest_spec l : forall best at_ i f, (at_ < i)%nat -> f at_ = best -> (forall k, (k < i)%nat -> f k <= best) -> (forall k, (k < length l)%nat -> f (i + k)%nat = nth k l 0) ->
  (largest best at_ i l < i + length l)%nat /\ forall k, (k < i + length l)%nat -> f k <= f (largest best at_ i l).
Proof.
  induction l as [|x l IH]; intros best at_ i f La Fa B E; cbn [largest length].
  - split; [lia|]. intros k Hk. rewrite Fa. apply B. lia.
  - pose proof (E 0%nat ltac:(cbn; lia)) as E0. rewrite Nat.add_0_r in E0. cbn [nth] in E0.
    assert (E' : forall k, (k < length l)%nat -> f (S i + k)%nat = nth k l 0) by (intros k Hk; specialize (E (S k) ltac:(cbn; lia)); cbn [nth] in E; rewrite <- E; f_equal; lia).
    destruct (Rlt_dec best x) as [C|C].
    + destruct (IH x i (S i) f ltac:(lia) E0) as [I1 I2]; [|exact E'|split; [lia|intros k Hk; apply I2; lia]].
      intros k Hk. destruct (Nat.eq_dec k i) as [->|]; [lra|]. pose proof (B k ltac:(lia)). lra.
    + destruct (IH best at_ (S i) f ltac:(lia) Fa) as [I1 I2]; [|exact E'|split; [lia|intros k Hk; apply I2; lia]].
      intros k Hk. destruct (Nat.eq_dec k i) as [->|]; [lra|]. apply B. lia.
Qed.
Lemma rargmax_spec l : l <> [] -> exists k, rargmax l = Some k /\ (k < length l)%nat /\ forall j, (j < length l)%nat -> nth j l 0 <= nth k l 0.
Proof.
  destruct l as [|x l]; [congruence|]. intros _. cbn [rargmax]. eexists. split; [reflexivity|].
  apply (largest_spec l x 0 1 (fun k => nth k (x :: l) 0)); [lia|reflexivity| |reflexivity].
  intros k Hk. assert (k = 0%nat) by lia. subst k. cbn. lra.
Qed.

(** ** The loop over the columns *)
Lemma upd_same f k x : upd f k x k = x.
Proof. unfold upd. now rewrite Nat.eqb_refl. Qed.
Lemma upd_other f k x j : j <> k -> upd f k x j = f j.
Proof. intro H. unfold upd. now rewrite (proj2 (Nat.eqb_neq j k) H). Qed.
Lemma permutes_swap n pi m i : permutes n pi -> (m < n)%nat -> (i < n)%nat -> permutes n (updn (updn pi m (pi i)) i (pi m)).
Proof.
  intros [B I] Lm Li. unfold updn. split.
  - intros k Hk. destruct (Nat.eqb_spec k i); [now apply B|]. destruct (Nat.eqb_spec k m); now apply B.
  - intros a b Ha Hb. destruct (Nat.eqb_spec a i), (Nat.eqb_spec b i), (Nat.eqb_spec a m), (Nat.eqb_spec b m); subst; intro H; try reflexivity; try congruence;
      apply I in H; try assumption; try congruence.
Qed.
Lemma permutes_onto n pi : permutes n pi -> forall j, (j < n)%nat -> exists i, (i < n)%nat /\ pi i = j.
Proof.
  intros [B I] j Hj. assert (P : Permutation (map pi (seq 0 n)) (seq 0 n)).
  { apply NoDup_Permutation_bis.
    - assert (G : forall l, NoDup l -> (forall x, In x l -> (x < n)%nat) -> NoDup (map pi l)).
      { induction l as [|x l IH]; intros ND H; [constructor|]. inversion ND; subst. cbn [map]. constructor; [|apply IH; [assumption|intros; apply H; now right]].
        intro Hi. apply in_map_iff in Hi. destruct Hi as (y & E & Hy). apply I in E; [subst; contradiction|apply H; now right|apply H; now left]. }
      apply G; [apply seq_NoDup|]. intros x Hx. apply in_seq in Hx. lia.
    - rewrite map_length. lia.
    - intros x Hx. apply in_map_iff in Hx. destruct Hx as (y & <- & Hy). apply in_seq in Hy. apply in_seq. pose proof (B y ltac:(lia)). lia. }
  assert (Hi : In j (map pi (seq 0 n))) by (apply (Permutation_in j (Permutation_sym P)); apply in_seq; lia).
  apply in_map_iff in Hi. destruct Hi as (i & E & Hi). apply in_seq in Hi. exists i. split; [lia|exact E].
Qed.
Lemma permutes_sum n pi f : permutes n pi -> rsum n (fun i => f (pi i)) = rsum n f.
Proof.
  intros [B I]. rewrite <- !rlsum_seq. apply rlsum_perm. rewrite <- (map_map pi f). apply Permutation_map. apply NoDup_Permutation_bis.
  - assert (G : forall l, NoDup l -> (forall x, In x l -> (x < n)%nat) -> NoDup (map pi l)).
    { induction l as [|x l IH]; intros ND H; [constructor|]. inversion ND; subst. cbn [map]. constructor; [|apply IH; [assumption|intros; apply H; now right]].
      intro Hi. apply in_map_iff in Hi. destruct Hi as (y & E & Hy). apply I in E; [subst; contradiction|apply H; now right|apply H; now left]. }
    apply G; [apply seq_NoDup|]. intros x Hx. apply in_seq in Hx. lia.
  - rewrite map_length. lia.
  - intros x Hx. apply in_map_iff in Hx. destruct Hx as (y & <- & Hy). apply in_seq in Hy. apply in_seq. pose proof (B y ltac:(lia)). lia.
Qed.
Lemma entries n V rows pi m (row0 d0 : nat -> R) : permutes n pi -> forall k, (m + 1 + k <= n)%nat ->
  let '(row, d) := fold_left (chol_entry V rows pi m) (seq (m + 1) k) (row0, d0) in
  let x i := (V (pi m) (pi i) - gram rows (pi m) (pi i)) / row0 (pi m) in
  (m = 0%nat -> rows = []) ->
  forall i, (i < n)%nat -> row (pi i) = (if (m <? i)%nat && (i <? m + 1 + k)%nat then x i else row0 (pi i)) /\
                           d (pi i) = (if (m <? i)%nat && (i <? m + 1 + k)%nat then d0 (pi i) - x i * x i else d0 (pi i)).
Proof.
  intros [B I]. induction k as [|k IH]; intro L.
  - cbn [seq fold_left]. intros _ i Hi. replace ((m <? i)%nat && (i <? m + 1 + 0)%nat)%bool with false; [now split|]. symmetry. apply Bool.andb_false_iff.
    destruct (Nat.ltb_spec m i); [right; apply Nat.ltb_ge; lia|now left].
  - rewrite seq_S, fold_left_app. specialize (IH ltac:(lia)). destruct (fold_left (chol_entry V rows pi m) (seq (m + 1) k) (row0, d0)) as [row d].
    cbn [fold_left chol_entry]. intros HR i Hi. specialize (IH HR).
    assert (IP : (if (0 <? m)%nat then column rows (pi m) (pi (m + 1 + k)%nat) else 0) = gram rows (pi m) (pi (m + 1 + k)%nat)).
    { destruct (Nat.ltb_spec 0 m); [apply column_gram|]. rewrite HR by lia. reflexivity. }
    rewrite IP. destruct (IH m ltac:(lia)) as [Rm _]. rewrite Nat.ltb_irrefl in Rm. cbn [andb] in Rm. rewrite Rm.
    destruct (Nat.eq_dec i (m + 1 + k)) as [->|D].
    + rewrite !upd_same. destruct (IH (m + 1 + k)%nat ltac:(lia)) as [_ Dk].
      replace ((m <? m + 1 + k)%nat && (m + 1 + k <? m + 1 + k)%nat)%bool with false in Dk by (rewrite Nat.ltb_irrefl; now rewrite Bool.andb_false_r). rewrite Dk.
      replace ((m <? m + 1 + k)%nat && (m + 1 + k <? m + 1 + S k)%nat)%bool with true; [now split|]. symmetry. apply andb_true_intro. split; apply Nat.ltb_lt; lia.
    + assert (DP : pi i <> pi (m + 1 + k)%nat) by (intro E; apply D, I; auto; lia). rewrite !upd_other by exact DP.
      replace ((i <? m + 1 + S k)%nat) with ((i <? m + 1 + k)%nat); [now apply IH|]. destruct (Nat.ltb_spec i (m + 1 + k)), (Nat.ltb_spec i (m + 1 + S k)); try reflexivity; lia.
Qed.
