From Coq Require Import Bool List Arith Lia.
From Verif Require Import MatSpec PauliModel OptModel OptProofs StabModel StabSpec StabProofs.
Import ListNotations.

Lemma skip_step : forall M c E0 E piv, rref M c E0 E piv -> c < M ->
  (forall r, length piv <= r -> vget (nth r E []) c = false) -> rref M (S c) E0 E piv.
Proof.
  intros M c E0 E piv R Hc H. pose proof (rr_lt _ _ _ _ _ R) as QL. pose proof (rr_below _ _ _ _ _ R) as QB. destruct R. constructor; auto; try lia.
  - intros p Hp. specialize (QL p Hp). lia.
  - intros r j Hr Hj. destruct (Nat.eq_dec j c) as [->|]; [now apply H|]. apply QB; lia.
Qed.
Lemma vget_nil : forall i, vget [] i = false.
Proof. intros [|i]; reflexivity. Qed.

Lemma eliminate_rref : forall M E0 n c E piv, shape M E0 -> rref M c E0 E piv -> c + n = M ->
  let '(E', piv') := eliminate (seq c n) (length piv) E piv in rref M M E0 E' piv'.
Proof.
  intros M E0. induction n as [|n IH]; intros c E piv S0 R Hn; cbn [seq eliminate].
  - replace M with c at 2 by lia. exact R.
  - destruct (Nat.eqb_spec (length piv) (length E)) as [Hl|Hl].
    + pose proof (rr_lt _ _ _ _ _ R) as QL. pose proof (rr_c _ _ _ _ _ R) as QC. destruct R. constructor; auto.
      * intros p Hp. specialize (QL p Hp). lia.
      * intros r j Hr Hj. rewrite nth_overflow by lia. apply vget_nil.
    + assert (Hlt : length piv < length E) by (pose proof (rr_rows _ _ _ _ _ R); lia).
      pose proof (find_row_spec E c (length E - S (length piv)) (S (length piv))) as F.
      set (o := if vget (nth (length piv) E []) c then Some (length piv) else find_row E c (S (length piv)) (length E - S (length piv))).
      assert (Ho : match o with Some r => length piv <= r < length E /\ vget (nth r E []) c = true
                            | None => forall r, length piv <= r -> vget (nth r E []) c = false end).
      { unfold o. destruct (vget (nth (length piv) E []) c) eqn:H0; [split; [lia|exact H0]|].
        destruct (find_row E c (S (length piv)) (length E - S (length piv))) as [r|]; [split; [lia|apply F]|].
        intros r Hr. destruct (Nat.eq_dec r (length piv)) as [->|]; [exact H0|].
        destruct (le_lt_dec (length E) r) as [Hb|Hb]; [rewrite nth_overflow by exact Hb; apply vget_nil|]. apply F. lia. }
      destruct o as [r|].
      * destruct Ho as [[H1 H2] H3].
        pose proof (pivot_step M c E0 E piv r R S0 ltac:(lia) H1 H2 H3) as R'. cbn zeta in R'.
        specialize (IH (S c) _ _ S0 R' ltac:(lia)). rewrite app_length in IH. cbn [length] in IH. rewrite Nat.add_1_r in IH. exact IH.
      * apply IH; [exact S0| |lia]. apply skip_step; [exact R|lia|exact Ho].
Qed.
Lemma gaussian_rref : forall N E0, shape (2 * N) E0 ->
  let '(E, piv) := gaussian_elimination N E0 in rref (2 * N) (2 * N) E0 E piv.
Proof.
  intros N E0 S0. unfold gaussian_elimination. apply eliminate_rref with (c := 0) (piv := []); [exact S0| |lia].
  constructor; try (cbn; lia); try (intros p Hp; contradiction); try (intros p r Hp; contradiction).
  - exact S0.
  - constructor.
  - intros r Hr. now apply span_row.
  - intros r Hr. now apply span_row.
Qed.

(** ** Counting pivots *)
Lemma is_pivot_spec : forall piv n, is_pivot piv n = true <-> In n piv.
Proof.
  intros piv n. unfold is_pivot. rewrite existsb_exists. split.
  - intros [x [Hx E]]. apply Nat.eqb_eq in E. now subst.
  - intro H. exists n. split; [exact H|apply Nat.eqb_refl].
Qed.
Lemma is_pivot_false : forall piv n, is_pivot piv n = false <-> ~ In n piv.
Proof. intros piv n. rewrite <- is_pivot_spec. destruct (is_pivot piv n); split; congruence. Qed.
Lemma cnt_S : forall piv n, NoDup piv -> cnt piv (S n) = cnt piv n + (if is_pivot piv n then 1 else 0).
Proof.
  intros piv n. induction piv as [|p piv IH]; intro H; [reflexivity|]. inversion H as [|? ? Hp Hn]; subst.
  specialize (IH Hn). unfold cnt in *. cbn [filter]. unfold is_pivot in *. cbn [existsb].
  destruct (Nat.eqb_spec n p) as [->|Hne].
  - rewrite (proj2 (Nat.ltb_lt p (S p))), Nat.ltb_irrefl by lia. cbn [length orb].
    destruct (existsb (Nat.eqb p) piv) eqn:Ex; [apply is_pivot_spec in Ex; contradiction|]. lia.
  - cbn [orb]. destruct (Nat.ltb_spec p (S n)); destruct (Nat.ltb_spec p n); try lia; cbn [length]; lia.
Qed.
Lemma cnt_mono : forall piv a b, NoDup piv -> a <= b -> cnt piv a <= cnt piv b.
Proof. intros piv a b H Hab. induction Hab as [|b Hab IH]; [lia|]. rewrite cnt_S by exact H. lia. Qed.
Lemma cnt_lt : forall piv a b, NoDup piv -> In a piv -> a < b -> cnt piv a < cnt piv b.
Proof.
  intros piv a b H Ha Hab. pose proof (cnt_mono piv (S a) b H Hab) as Hm. rewrite cnt_S in Hm by exact H.
  rewrite (proj2 (is_pivot_spec piv a) Ha) in Hm. lia.
Qed.
Lemma cnt_inj : forall piv a b, NoDup piv -> In a piv -> In b piv -> cnt piv a = cnt piv b -> a = b.
Proof.
  intros piv a b H Ha Hb E. destruct (lt_eq_lt_dec a b) as [[L|L]|L]; [|exact L|].
  - pose proof (cnt_lt piv a b H Ha L). lia.
  - pose proof (cnt_lt piv b a H Hb L). lia.
Qed.
Lemma cnt_below : forall M c E0 E piv p, rref M c E0 E piv -> In p piv -> cnt piv p < length piv.
Proof.
  intros M c E0 E piv p R Hp. destruct (le_lt_dec (length piv) (cnt piv p)) as [H|H]; [|exact H].
  pose proof (rr_one _ _ _ _ _ R p Hp) as O. rewrite (rr_below _ _ _ _ _ R) in O; [discriminate|exact H|apply (rr_lt _ _ _ _ _ R p Hp)].
Qed.

(** ** Null vectors *)
Lemma null_entries_length : forall E piv m left n Np, length (null_entries E piv m n left Np) = left.
Proof. intros E piv m. induction left as [|k IH]; intros n Np; cbn; [reflexivity|]. destruct (is_pivot piv n); cbn; now rewrite IH. Qed.
Lemma null_entries_nth : forall E piv m left n i, NoDup piv -> i < left ->
  nth i (null_entries E piv m n left (cnt piv n)) false =
    if is_pivot piv (n + i) then ((n + i <? m) && negb (is_pivot piv m)) && vget (nth (cnt piv (n + i)) E []) m else (n + i =? m).
Proof.
  intros E piv m. induction left as [|k IH]; intros n i Hd Hi; [lia|]. cbn [null_entries].
  assert (HS := cnt_S piv n Hd).
  destruct i as [|i].
  - rewrite Nat.add_0_r. destruct (is_pivot piv n); cbn [nth]; [|reflexivity]. destruct ((n <? m) && negb (is_pivot piv m)); reflexivity.
  - replace (n + S i) with (S n + i) by lia. destruct (is_pivot piv n).
    + cbn [nth]. replace (S (cnt piv n)) with (cnt piv (S n)) by lia. apply IH; [exact Hd|lia].
    + cbn [nth]. replace (cnt piv n) with (cnt piv (S n)) by lia. apply IH; [exact Hd|lia].
Qed.
Definition nullv (M : nat) (E : list vec) (piv : list nat) (m : nat) : vec := null_entries E piv m 0 M 0.
Lemma nullv_nth : forall M E piv m i, NoDup piv -> i < M -> is_pivot piv m = false ->
  nth i (nullv M E piv m) false = if is_pivot piv i then (i <? m) && vget (nth (cnt piv i) E []) m else (i =? m).
Proof.
  intros M E piv m i Hd Hi Hm. unfold nullv. replace 0 with (cnt piv 0) at 2.
  - rewrite null_entries_nth by assumption. cbn [Nat.add]. rewrite Hm. cbn. now rewrite andb_true_r.
  - unfold cnt. clear. induction piv as [|p piv IH]; [reflexivity|]. cbn [filter]. destruct (Nat.ltb_spec p 0); [lia|exact IH].
Qed.

(** A row only meets a null vector in its own pivot and in the free column. *)
Lemma row_null : forall M E0 E piv m r, rref M M E0 E piv -> m < M -> is_pivot piv m = false -> In r E -> dot2 r (nullv M E piv m) = false.
Proof.
  intros M E0 E piv m r R Hm Hp Hr. destruct (In_nth E r [] Hr) as [k [Hk <-]].
  assert (Hd := rr_nodup _ _ _ _ _ R).
  rewrite dot2_xs with (M := M); [|apply (rr_shape _ _ _ _ _ R), nth_In; exact Hk|apply null_entries_length].
  destruct (le_lt_dec (length piv) k) as [Hl|Hl].
  - apply xs_false. intros i Hi. fold (vget (nth k E []) i). now rewrite (rr_below _ _ _ _ _ R).
  - destruct (rr_surj _ _ _ _ _ R k Hl) as [p [Pp Ek]].
    assert (HpM := rr_lt _ _ _ _ _ R p Pp).
    assert (Hpm : p <> m) by (intros ->; apply is_pivot_false in Hp; contradiction).
    rewrite (xs_two _ M p m HpM Hm Hpm).
    + rewrite !nullv_nth by assumption. rewrite (proj2 (is_pivot_spec piv p) Pp), Hp, Nat.eqb_refl, Ek.
      fold (vget (nth k E []) p) (vget (nth k E []) m). rewrite <- Ek. rewrite (rr_one _ _ _ _ _ R p Pp).
      destruct (Nat.ltb_spec p m) as [L|L]; [destruct (vget _ m); reflexivity|].
      rewrite (rr_left _ _ _ _ _ R p m Pp) by lia. reflexivity.
    + intros i Hi H1 H2. rewrite nullv_nth by assumption. fold (vget (nth k E []) i). destruct (is_pivot piv i) eqn:Q.
      * apply is_pivot_spec in Q. rewrite (rr_zero _ _ _ _ _ R i k Q); [reflexivity|]. rewrite <- Ek. intro X. apply H1. symmetry.
        now apply (cnt_inj piv p i Hd Pp Q).
      * rewrite (proj2 (Nat.eqb_neq i m)) by exact H2. apply andb_false_r.
Qed.

(** Two orthogonal vectors that agree on the free columns are equal. *)
Lemma free_determines : forall M E0 E piv x, rref M M E0 E piv -> length x = M -> (forall r, In r E -> dot2 r x = false) ->
  (forall i, i < M -> is_pivot piv i = false -> nth i x false = false) -> x = repeat false M.
Proof.
  intros M E0 E piv x R Hx Ho Hf. apply vec_ext; [now rewrite repeat_length|]. intros i Hi. rewrite nth_repeat_false.
  destruct (is_pivot piv i) eqn:Q; [|apply Hf; [lia|exact Q]]. apply is_pivot_spec in Q.
  assert (Hc := cnt_below _ _ _ _ _ i R Q). assert (Hr := rr_rows _ _ _ _ _ R).
  assert (HI : In (nth (cnt piv i) E []) E) by (apply nth_In; lia).
  specialize (Ho _ HI). rewrite dot2_xs with (M := M) in Ho; [|now apply (rr_shape _ _ _ _ _ R)|exact Hx].
  rewrite (xs_one _ M i) in Ho; [|lia|].
  - fold (vget (nth (cnt piv i) E []) i) in Ho. rewrite (rr_one _ _ _ _ _ R i Q) in Ho. exact Ho.
  - intros j Hj Hne. destruct (is_pivot piv j) eqn:Qj.
    + apply is_pivot_spec in Qj. fold (vget (nth (cnt piv i) E []) j). rewrite (rr_zero _ _ _ _ _ R j (cnt piv i) Qj); [reflexivity|].
      intro X. apply Hne. symmetry. now apply (cnt_inj piv i j (rr_nodup _ _ _ _ _ R)).
    + rewrite (Hf j Hj Qj). apply andb_false_r.
Qed.

Lemma combination_len : forall M bs E, shape M E -> length (combination M bs E) = M.
Proof.
  intros M. induction bs as [|b bs IH]; intros [|r E] H; cbn [combination]; try apply repeat_length.
  assert (HE : shape M E) by (intros x Hx; apply H; now right). destruct b; [apply add2_length; [apply H; now left|]|]; now apply IH.
Qed.
Lemma combination_dual : forall M (X : nat -> vec) L bs i, NoDup L -> length bs = length L -> (forall m, In m L -> length (X m) = M) ->
  (forall m, In m L -> nth i (X m) false = (i =? m)) ->
  nth i (combination M bs (map X L)) false = existsb (fun p => fst p && (i =? snd p)) (combine bs L).
Proof.
  intros M X. induction L as [|m L IH]; intros [|b bs] i Hd Hl Hs Hx; try discriminate; [cbn; apply nth_repeat_false|].
  cbn [map combination combine existsb fst snd]. inversion Hd as [|? ? Hm Hd']; subst.
  assert (IH' := IH bs i Hd' ltac:(cbn in Hl; lia) ltac:(intros; apply Hs; now right) ltac:(intros; apply Hx; now right)).
  destruct b; cbn [andb orb]; [|exact IH'].
  assert (Hsh : shape M (map X L)) by (intros r Hr; apply in_map_iff in Hr; destruct Hr as [q [<- Hq]]; apply Hs; now right).
  rewrite add2_get by (rewrite combination_len by exact Hsh; apply Hs; now left).
  rewrite IH', (Hx m) by now left. destruct (Nat.eqb_spec i m) as [->|]; [|apply xorb_false_l].
  assert (Z : existsb (fun p => fst p && (m =? snd p)) (combine bs L) = false); [|rewrite Z; reflexivity].
  apply Bool.not_true_is_false. intro H. apply existsb_exists in H. destruct H as [[b' q] [Hq H]]. cbn in H.
  apply andb_prop in H. destruct H as [_ H]. apply Nat.eqb_eq in H. subst q. apply in_combine_r in Hq. contradiction.
Qed.
Lemma combination_dual_at : forall M (X : nat -> vec) L bs k, NoDup L -> length bs = length L -> (forall m, In m L -> length (X m) = M) ->
  k < length L -> (forall m, In m L -> nth (nth k L 0) (X m) false = (nth k L 0 =? m)) ->
  nth (nth k L 0) (combination M bs (map X L)) false = nth k bs false.
Proof.
  intros M X L bs k Hd Hl Hs Hk Hx. rewrite combination_dual by assumption. clear Hx Hs X M.
  revert bs k Hl Hk. induction L as [|m L IH]; intros [|b bs] k Hl Hk; try discriminate; [cbn in Hk; lia|].
  inversion Hd as [|? ? Hm Hd']; subst. cbn [combine existsb fst snd]. destruct k as [|k]; cbn [nth].
  - rewrite Nat.eqb_refl, andb_true_r. destruct b; [reflexivity|]. cbn [orb].
    apply Bool.not_true_is_false. intro H. apply existsb_exists in H. destruct H as [[b' q] [Hq H]]. cbn in H.
    apply andb_prop in H. destruct H as [_ H]. apply Nat.eqb_eq in H. subst q. apply in_combine_r in Hq. contradiction.
  - cbn in Hk. rewrite (proj2 (Nat.eqb_neq (nth k L 0) m)).
    + rewrite andb_false_r. cbn [orb]. apply IH; [exact Hd'|cbn in Hl; lia|lia].
    + intro H. apply Hm. rewrite <- H. apply nth_In. lia.
Qed.

Definition free (M : nat) (piv : list nat) : list nat := filter (fun m => negb (is_pivot piv m)) (seq 0 M).
Lemma free_spec : forall M piv m, In m (free M piv) <-> m < M /\ is_pivot piv m = false.
Proof. intros M piv m. unfold free. rewrite filter_In, in_seq, negb_true_iff. split; intros [H1 H2]; split; try exact H2; lia. Qed.
Lemma free_nodup : forall M piv, NoDup (free M piv).
Proof. intros M piv. apply NoDup_filter, seq_NoDup. Qed.
Lemma free_length : forall M piv, NoDup piv -> (forall p, In p piv -> p < M) -> length (free M piv) + length piv = M.
Proof.
  intros M piv Hd Hlt. rewrite <- (cnt_all piv M Hlt). unfold free. clear Hlt. induction M as [|M IH].
  - cbn [seq filter length]. unfold cnt. induction piv as [|p piv IH]; [reflexivity|]. inversion Hd; subst. cbn [filter].
    destruct (Nat.ltb_spec p 0); [lia|now apply IH].
  - rewrite seq_S, filter_app, app_length, cnt_S by exact Hd. cbn [Nat.add filter]. destruct (is_pivot piv M); cbn [negb length]; lia.
Qed.

Lemma span_combination : forall M bs E, shape M E -> span M E (combination M bs E).
Proof.
  intros M bs E HE. assert (G : forall bs F, incl F E -> span M E (combination M bs F)).
  { clear bs. induction bs as [|b bs IH]; intros [|r F] HF; cbn [combination]; try apply span_zero.
    assert (HF' : incl F E) by (intros x Hx; apply HF; now right). destruct b; [|now apply IH].
    apply span_add; [apply HF; now left|now apply IH]. }
  apply G, incl_refl.
Qed.

(** Every orthogonal vector is the sum of the null vectors selected by its own free entries. *)
Lemma null_complete : forall M E0 E piv x, rref M M E0 E piv -> length x = M -> (forall r, In r E -> dot2 r x = false) ->
  x = combination M (map (fun m => nth m x false) (free M piv)) (map (nullv M E piv) (free M piv)).
Proof.
  intros M E0 E piv x R Hx Ho. set (bs := map (fun m => nth m x false) (free M piv)). set (y := combination M bs (map (nullv M E piv) (free M piv))).
  assert (Hd := rr_nodup _ _ _ _ _ R).
  assert (Hsh : shape M (map (nullv M E piv) (free M piv))).
  { intros r Hr. apply in_map_iff in Hr. destruct Hr as [m [<- _]]. apply null_entries_length. }
  assert (Hy : length y = M) by now apply combination_len.
  assert (Hoy : forall r, In r E -> dot2 r y = false).
  { intros r Hr. rewrite dot2_comm. apply (span_orth M (map (nullv M E piv) (free M piv))); [exact Hsh|now apply span_combination|].
    intros v Hv. apply in_map_iff in Hv. destruct Hv as [m [<- Hm]]. apply free_spec in Hm. rewrite dot2_comm.
    apply row_null with E0; try exact R; try apply Hm. exact Hr. }
  assert (Z : add2 x y = repeat false M).
  { apply free_determines with E0 E piv; [exact R|now apply add2_length| |].
    - intros r Hr. rewrite dot2_comm, dot2_add by congruence. rewrite (dot2_comm x), (dot2_comm y), Ho, Hoy by exact Hr. reflexivity.
    - intros i Hi Hf. rewrite add2_get by congruence. assert (HI : In i (free M piv)) by (apply free_spec; auto).
      destruct (In_nth _ _ 0 HI) as [k [Hk Ei]].
      assert (Q : nth i y false = nth k bs false).
      { unfold y. rewrite <- Ei. apply combination_dual_at; [apply free_nodup|unfold bs; apply map_length|intros; apply null_entries_length|exact Hk|].
        intros m Hm. rewrite Ei. apply free_spec in Hm. rewrite nullv_nth by (try assumption; apply Hm). now rewrite Hf. }
      rewrite Q. unfold bs. rewrite (nth_indep (map _ _) false ((fun m => nth m x false) 0)) by (rewrite map_length; exact Hk).
      rewrite (map_nth (fun m => nth m x false)), Ei. apply xorb_nilpotent. }
  apply vec_ext; [congruence|]. intros i Hi. apply (f_equal (fun v => nth i v false)) in Z. rewrite add2_get, nth_repeat_false in Z by congruence.
  destruct (nth i x false), (nth i y false); try reflexivity; discriminate.
Qed.
Lemma null_independent : forall M E0 E piv bs, rref M M E0 E piv -> length bs = length (free M piv) ->
  combination M bs (map (nullv M E piv) (free M piv)) = repeat false M -> bs = repeat false (length bs).
Proof.
  intros M E0 E piv bs R Hb H. apply vec_ext; [now rewrite repeat_length|]. intros k Hk. rewrite nth_repeat_false.
  rewrite <- (combination_dual_at M (nullv M E piv) (free M piv) bs k); [rewrite H; apply nth_repeat_false|apply free_nodup|exact Hb|intros; apply null_entries_length|lia|].
  intros m Hm. assert (Hi : In (nth k (free M piv) 0) (free M piv)) by (apply nth_In; lia). apply free_spec in Hi. apply free_spec in Hm.
  rewrite nullv_nth; [|apply (rr_nodup _ _ _ _ _ R)|apply Hi|apply Hm]. now rewrite (proj2 Hi).
Qed.

(** ** A vector of the row space is determined by its pivot entries. *)
Lemma span_by_pivots : forall M E0 E piv v j, rref M M E0 E piv -> span M E v -> j < M ->
  vget v j = xs (fun p => is_pivot piv p && (vget v p && vget (nth (cnt piv p) E []) j)) M.
Proof.
  intros M E0 E piv v j R Hv Hj. induction Hv as [|r v Hr Hv IH].
  - unfold vget at 1. rewrite nth_repeat_false. symmetry. apply xs_false. intros p _. unfold vget at 1. rewrite nth_repeat_false. apply andb_false_r.
  - assert (L1 : length r = M) by now apply (rr_shape _ _ _ _ _ R).
    assert (L2 : length v = M) by (apply span_len with E; [apply (rr_shape _ _ _ _ _ R)|exact Hv]).
    transitivity (xorb (vget r j) (vget v j)); [unfold vget; apply add2_get; congruence|].
    rewrite IH. clear IH.
    assert (Q : vget r j = xs (fun p => is_pivot piv p && (vget r p && vget (nth (cnt piv p) E []) j)) M).
    { destruct (In_nth E r [] Hr) as [k [Hk Ek]]. destruct (le_lt_dec (length piv) k) as [Hl|Hl].
      - rewrite <- Ek. rewrite (rr_below _ _ _ _ _ R) by assumption. symmetry. apply xs_false. intros p Hp.
        rewrite (rr_below _ _ _ _ _ R k p) by assumption. apply andb_false_r.
      - destruct (rr_surj _ _ _ _ _ R k Hl) as [p [Pp Ec]]. rewrite (xs_one _ M p).
        + rewrite (proj2 (is_pivot_spec piv p) Pp), Ec, Ek. rewrite <- Ek at 2. rewrite <- Ec. rewrite (rr_one _ _ _ _ _ R p Pp). reflexivity.
        + apply (rr_lt _ _ _ _ _ R p Pp).
        + intros q Hq Hne. destruct (is_pivot piv q) eqn:Iq; [|reflexivity]. apply is_pivot_spec in Iq. rewrite <- Ek.
          rewrite (rr_zero _ _ _ _ _ R q k Iq); [reflexivity|]. intro X. apply Hne. symmetry.
          apply (cnt_inj piv p q (rr_nodup _ _ _ _ _ R) Pp Iq). congruence. }
    rewrite Q, <- xs_xor. apply xs_ext. intros p _. replace (vget (add2 r v) p) with (xorb (vget r p) (vget v p)) by (unfold vget; symmetry; apply add2_get; congruence).
    destruct (is_pivot piv p), (vget r p), (vget v p), (vget (nth (cnt piv p) E []) j); reflexivity.
Qed.
Lemma span_zero_prefix : forall M E0 E piv v j, rref M M E0 E piv -> span M E v -> j < M ->
  (forall p, In p piv -> p <= j -> vget v p = false) -> vget v j = false.
Proof.
  intros M E0 E piv v j R Hv Hj H. rewrite (span_by_pivots M E0 E piv v j R Hv Hj). apply xs_false. intros p Hp.
  destruct (is_pivot piv p) eqn:Q; [|reflexivity]. apply is_pivot_spec in Q. destruct (le_lt_dec p j) as [L|L].
  - now rewrite (H p Q L).
  - rewrite (rr_left _ _ _ _ _ R p j Q L). cbn. apply andb_false_r.
Qed.
