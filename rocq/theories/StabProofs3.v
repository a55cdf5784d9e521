From Coq Require Import Bool List Arith ZArith Lia.
From Verif Require Import Coeff MatSpec MatLemmas PauliModel PauliProofs TomoModel TomoProofs OptModel OptProofs StabModel StabSpec StabProofs StabProofs2.
Import ListNotations.

(** ** Exchanging the halves *)
Definition ex (N u : nat) : nat := if u <? N then u + N else u - N.
Lemma exchange_length : forall N v, length v = 2 * N -> length (exchange N v) = 2 * N.
Proof. intros N v H. unfold exchange. rewrite app_length, skipn_length, firstn_length. lia. Qed.
Lemma nth_skipn_b : forall N (v : list bool) u, nth u (skipn N v) false = nth (N + u) v false.
Proof. induction N as [|N IH]; intros [|x v] u; cbn; try reflexivity; [destruct u; reflexivity|apply IH]. Qed.
Lemma nth_firstn_b : forall N (v : list bool) u, u < N -> nth u (firstn N v) false = nth u v false.
Proof. induction N as [|N IH]; intros [|x v] [|u] H; cbn; try reflexivity; try lia. apply IH. lia. Qed.
Lemma exchange_get : forall N v u, length v = 2 * N -> u < 2 * N -> vget (exchange N v) u = vget v (ex N u).
Proof.
  intros N v u H Hu. unfold vget, exchange, ex. destruct (Nat.ltb_spec u N) as [L|L].
  - rewrite app_nth1 by (rewrite skipn_length; lia). rewrite nth_skipn_b. f_equal. lia.
  - rewrite app_nth2 by (rewrite skipn_length; lia). rewrite skipn_length, nth_firstn_b by lia. f_equal. lia.
Qed.
Lemma ex_lt : forall N u, u < 2 * N -> ex N u < 2 * N.
Proof. intros N u H. unfold ex. destruct (Nat.ltb_spec u N); lia. Qed.
Lemma ex_ex : forall N u, u < 2 * N -> ex N (ex N u) = u.
Proof. intros N u H. unfold ex. destruct (Nat.ltb_spec u N); [destruct (Nat.ltb_spec (u + N) N)|destruct (Nat.ltb_spec (u - N) N)]; lia. Qed.
Lemma vget_ext : forall (a b : list bool) M, length a = M -> length b = M -> (forall i, i < M -> vget a i = vget b i) -> a = b.
Proof. intros a b M Ha Hb H. apply vec_ext; [congruence|]. intros i Hi. apply H. lia. Qed.
Lemma exchange_exchange : forall N v, length v = 2 * N -> exchange N (exchange N v) = v.
Proof.
  intros N v H. apply vget_ext with (2 * N); [now apply exchange_length, exchange_length|exact H|]. intros i Hi.
  rewrite !exchange_get by (try apply ex_lt; try apply exchange_length; assumption). now rewrite ex_ex.
Qed.
Lemma exchange_add2 : forall N a b, length a = 2 * N -> length b = 2 * N -> exchange N (add2 a b) = add2 (exchange N a) (exchange N b).
Proof.
  intros N a b Ha Hb. assert (La := exchange_length N a Ha). assert (Lb := exchange_length N b Hb). assert (Lab := add2_length a b _ Ha Hb).
  apply vget_ext with (2 * N); [now apply exchange_length|now apply add2_length|]. intros i Hi.
  rewrite exchange_get by assumption. unfold vget. rewrite !add2_get by congruence. fold (vget (exchange N a) i) (vget (exchange N b) i).
  rewrite !exchange_get by assumption. reflexivity.
Qed.
Lemma exchange_zero : forall N, exchange N (repeat false (2 * N)) = repeat false (2 * N).
Proof.
  intro N. apply vget_ext with (2 * N); [apply exchange_length, repeat_length|apply repeat_length|]. intros i Hi.
  rewrite exchange_get by (try apply repeat_length; exact Hi). unfold vget. now rewrite !nth_repeat_false.
Qed.
Lemma map_ex_seq : forall N, seq 0 (2 * N) = map (ex N) (seq N N) ++ map (ex N) (seq 0 N).
Proof.
  intro N. replace (2 * N) with (N + N) by lia. rewrite seq_app. f_equal.
  - apply nth_ext with 0 0; [now rewrite map_length, !seq_length|]. intros i Hi. rewrite seq_length in Hi.
    rewrite seq_nth by exact Hi. rewrite (nth_indep (map _ _) 0 (ex N 0)) by (now rewrite map_length, seq_length). rewrite map_nth, seq_nth by exact Hi.
    unfold ex. destruct (Nat.ltb_spec (N + i) N); lia.
  - apply nth_ext with 0 0; [now rewrite map_length, !seq_length|]. intros i Hi. rewrite seq_length in Hi.
    rewrite seq_nth by exact Hi. rewrite (nth_indep (map _ _) 0 (ex N 0)) by (now rewrite map_length, seq_length). rewrite map_nth, seq_nth by exact Hi.
    unfold ex. destruct (Nat.ltb_spec (0 + i) N); lia.
Qed.

(** ** The decomposition loop *)
Lemma first_col_spec : forall Gm u w0, match first_col Gm u w0 with
  | Some w => w0 <= w < w0 + length Gm /\ vget (nth (w - w0) Gm []) u = true
  | None => forall k, k < length Gm -> vget (nth k Gm []) u = false end.
Proof.
  induction Gm as [|g Gm IH]; intros u w0; cbn [first_col]; [intros k Hk; cbn in Hk; lia|].
  destruct (vget g u) eqn:Hg; [cbn [length]; split; [lia|]; rewrite Nat.sub_diag; exact Hg|].
  specialize (IH u (S w0)). destruct (first_col Gm u (S w0)) as [w|].
  - destruct IH as [H1 H2]. cbn [length]. split; [lia|]. replace (w - w0) with (S (w - S w0)) by lia. exact H2.
  - intros [|k] Hk; [exact Hg|]. cbn [nth]. apply IH. cbn in Hk. lia.
Qed.
Lemma reduce_pass_app : forall Gm us vs t soln ch,
  reduce_pass Gm (us ++ vs) t soln ch = let '(t', soln', ch') := reduce_pass Gm us t soln ch in reduce_pass Gm vs t' soln' ch'.
Proof.
  intros Gm. induction us as [|u us IH]; intros vs t soln ch; cbn [app reduce_pass]; [reflexivity|].
  destruct (vget t u); [|apply IH]. destruct (first_col Gm u 0); apply IH.
Qed.
Definition sumrows (M : nat) (rows : list vec) : vec := fold_right add2 (repeat false M) rows.
Lemma sumrows_len : forall M rows, shape M rows -> length (sumrows M rows) = M.
Proof.
  intros M. induction rows as [|r rows IH]; intro H; [apply repeat_length|]. cbn. apply add2_length; [apply H; now left|].
  apply IH. intros x Hx. apply H. now right.
Qed.

Section Pass.
  Variables (N : nat) (E0 E : list vec) (piv : list nat).
  Hypothesis R : rref (2 * N) (2 * N) E0 E piv.
  Let M := 2 * N.
  Let n := length piv.
  Let Gm := map (exchange N) (firstn n E).

  Lemma rowlen w : w < n -> length (nth w E []) = 2 * N.
  Proof. intro H. apply (rr_shape _ _ _ _ _ R), nth_In. pose proof (rr_rows _ _ _ _ _ R). unfold n in H. lia. Qed.
  Lemma Gm_length : length Gm = n.
  Proof. unfold Gm. rewrite map_length, firstn_length. pose proof (rr_rows _ _ _ _ _ R). unfold n. lia. Qed.
  Lemma Gm_nth w : w < n -> nth w Gm [] = exchange N (nth w E []).
  Proof.
    intro H. assert (GL : w < length Gm) by (rewrite Gm_length; exact H). transitivity (nth w Gm (exchange N [])); [apply nth_indep; exact GL|]. unfold Gm. rewrite map_nth. f_equal.
    rewrite <- (firstn_skipn n E) at 2. rewrite app_nth1; [reflexivity|]. rewrite firstn_length. pose proof (rr_rows _ _ _ _ _ R). unfold n in *. lia.
  Qed.
  Definition rowsof (ws : list nat) : list vec := map (fun w => nth w E []) ws.
  Lemma rowsof_shape ws : (forall w, In w ws -> w < n) -> shape (2 * N) (rowsof ws).
  Proof. intros H r Hr. apply in_map_iff in Hr. destruct Hr as [w [<- Hw]]. now apply rowlen, H. Qed.

  (** One pass over the columns j0, .., j0+k-1 of E. *)
  Lemma pass_range : forall k j0 v soln ch, j0 + k <= 2 * N -> span (2 * N) E v ->
    exists v' ws ch', reduce_pass Gm (map (ex N) (seq j0 k)) (exchange N v) soln ch = (exchange N v', soln ++ ws, ch') /\
      span (2 * N) E v' /\ v' = add2 v (sumrows (2 * N) (rowsof ws)) /\ (forall w, In w ws -> w < n) /\
      (ch' = false -> ch = false /\ ws = []) /\ (ch = true -> ch' = true) /\
      ((forall p, In p piv -> p < j0 -> vget v p = false) -> forall p, In p piv -> p < j0 + k -> vget v' p = false).
  Proof.
    induction k as [|k IH]; intros j0 v soln ch Hk Hv.
    - exists v, [], ch. cbn [seq map reduce_pass]. rewrite app_nil_r. split; [reflexivity|]. split; [exact Hv|].
      split; [cbn; rewrite add2_zero; [reflexivity|apply span_len with E; [apply (rr_shape _ _ _ _ _ R)|exact Hv]]|].
      split; [intros w []|]. split; [auto|]. split; [auto|]. intros H p Hp Hlt. apply H; [exact Hp|lia].
    - assert (Lv : length v = 2 * N) by (apply span_len with E; [apply (rr_shape _ _ _ _ _ R)|exact Hv]).
      cbn [seq map reduce_pass]. rewrite exchange_get by (try exact Lv; apply ex_lt; lia). rewrite ex_ex by lia.
      assert (Hnext : vget v j0 = false -> (forall p, In p piv -> p < j0 -> vget v p = false) -> forall p, In p piv -> p < S j0 -> vget v p = false).
      { intros H0 H p Hp Hlt. destruct (Nat.eq_dec p j0) as [->|]; [exact H0|]. apply H; [exact Hp|lia]. }
      destruct (vget v j0) eqn:Hj.
      + pose proof (first_col_spec Gm (ex N j0) 0) as F. destruct (first_col Gm (ex N j0) 0) as [w|].
        * rewrite Gm_length, Nat.sub_0_r in F. destruct F as [[_ F1] F2]. cbn in F1. rewrite Gm_nth in F2 by exact F1.
          rewrite exchange_get in F2 by (try (apply rowlen; exact F1); apply ex_lt; lia). rewrite ex_ex in F2 by lia.
          assert (Lw := rowlen w F1).
          assert (Hs : span (2 * N) E (add2 v (nth w E []))).
          { apply span_sum; [apply (rr_shape _ _ _ _ _ R)|exact Hv|]. apply span_row; [apply (rr_shape _ _ _ _ _ R)|]. apply nth_In.
            pose proof (rr_rows _ _ _ _ _ R). unfold n in F1. lia. }
          rewrite Gm_nth, vxor_add2, <- exchange_add2 by assumption.
          destruct (IH (S j0) (add2 v (nth w E [])) (soln ++ [w]) true ltac:(lia) Hs) as [v' [ws [ch' [E1 [E2 [E3 [E4 [E5 [E6 E7]]]]]]]]].
          exists v', (w :: ws), ch'. rewrite E1, <- app_assoc. split; [reflexivity|]. split; [exact E2|].
          split; [rewrite E3; unfold rowsof; cbn [map sumrows fold_right]; symmetry; apply add2_assoc|].
          split; [intros w' [<-|Hw]; [exact F1|now apply E4]|].
          split; [intro H; destruct (E5 H) as [H1 _]; discriminate H1|]. split; [intros _; now apply E6|].
          intros H p Hp Hlt. apply E7; [|exact Hp|lia]. clear p Hp Hlt. intros p Hp Hlt.
          replace (vget (add2 v (nth w E [])) p) with (xorb (vget v p) (vget (nth w E []) p)) by (unfold vget; symmetry; apply add2_get; congruence).
          (* j0 must be a pivot *)
          destruct (is_pivot piv j0) eqn:Ij.
          -- apply is_pivot_spec in Ij. destruct (Nat.eq_dec w (cnt piv j0)) as [->|Hne].
             ++ destruct (Nat.eq_dec p j0) as [->|Hpj]; [rewrite Hj, F2; reflexivity|].
                rewrite (H p Hp) by lia. rewrite (rr_zero _ _ _ _ _ R p _ Hp); [reflexivity|]. intro X. apply Hpj. symmetry.
                now apply (cnt_inj piv j0 p (rr_nodup _ _ _ _ _ R)).
             ++ rewrite (rr_zero _ _ _ _ _ R j0 w Ij Hne) in F2. discriminate.
          -- exfalso. apply is_pivot_false in Ij. rewrite (span_zero_prefix _ _ _ _ v j0 R Hv) in Hj; [discriminate|lia|].
             intros q Hq Hle. apply H; [exact Hq|]. destruct (Nat.eq_dec q j0) as [->|]; [contradiction|lia].
        * destruct (IH (S j0) v soln ch ltac:(lia) Hv) as [v' [ws [ch' [E1 [E2 [E3 [E4 [E5 [E6 E7]]]]]]]]].
          exists v', ws, ch'. repeat (split; [assumption|]). intros H p Hp Hlt. apply E7; [|exact Hp|lia]. clear p Hp Hlt.
          (* no row has a 1 in this column, so the entry of a vector of the row space is 0 *)
          exfalso. rewrite (span_by_pivots _ _ _ _ v j0 R Hv) in Hj by lia. rewrite xs_false in Hj; [discriminate|].
          intros p _. destruct (is_pivot piv p) eqn:Q; [|reflexivity]. apply is_pivot_spec in Q. pose proof (cnt_below _ _ _ _ _ p R Q) as Hc.
          specialize (F (cnt piv p)). rewrite Gm_length in F. specialize (F Hc). rewrite Gm_nth in F by exact Hc.
          rewrite exchange_get in F by (try (apply rowlen; exact Hc); apply ex_lt; lia). rewrite ex_ex in F by lia. rewrite F, andb_false_r. reflexivity.
      + destruct (IH (S j0) v soln ch ltac:(lia) Hv) as [v' [ws [ch' [E1 [E2 [E3 [E4 [E5 [E6 E7]]]]]]]]].
        exists v', ws, ch'. repeat (split; [assumption|]). intros H p Hp Hlt. apply E7; [now apply Hnext|exact Hp|lia].
  Qed.

  Lemma rowsof_app a b : rowsof (a ++ b) = rowsof a ++ rowsof b.
  Proof. apply map_app. Qed.
  Lemma sumrows_app : forall a b, shape (2 * N) a -> shape (2 * N) b -> sumrows (2 * N) (a ++ b) = add2 (sumrows (2 * N) a) (sumrows (2 * N) b).
  Proof.
    induction a as [|r a IH]; intros b Ha Hb; cbn [app sumrows fold_right].
    - rewrite add2_comm, add2_zero; [reflexivity|]. now apply sumrows_len.
    - rewrite <- add2_assoc. f_equal. apply IH; [intros x Hx; apply Ha; now right|exact Hb].
  Qed.

  (** A whole pass. *)
  Lemma whole_pass : forall v soln, span (2 * N) E v ->
    exists v' ws ch', reduce_pass Gm (seq 0 (2 * N)) (exchange N v) soln false = (exchange N v', soln ++ ws, ch') /\
      span (2 * N) E v' /\ v' = add2 v (sumrows (2 * N) (rowsof ws)) /\ (forall w, In w ws -> w < n) /\ (ch' = false -> ws = []) /\
      (forall p, In p piv -> p < N -> vget v' p = false) /\
      ((forall p, In p piv -> p < N -> vget v p = false) -> v' = repeat false (2 * N)).
  Proof.
    intros v soln Hv. rewrite map_ex_seq, reduce_pass_app.
    destruct (pass_range N N v soln false ltac:(lia) Hv) as [v1 [ws1 [ch1 [A1 [A2 [A3 [A4 [A5 [A6 A7]]]]]]]]]. rewrite A1.
    destruct (pass_range N 0 v1 (soln ++ ws1) ch1 ltac:(lia) A2) as [v2 [ws2 [ch2 [B1 [B2 [B3 [B4 [B5 [B6 B7]]]]]]]]]. rewrite B1.
    assert (Lv : length v = 2 * N) by (apply span_len with E; [apply (rr_shape _ _ _ _ _ R)|exact Hv]).
    assert (SUM : v2 = add2 v (sumrows (2 * N) (rowsof (ws1 ++ ws2)))).
    { rewrite rowsof_app, sumrows_app by now apply rowsof_shape. rewrite add2_assoc, <- A3. exact B3. }
    exists v2, (ws1 ++ ws2), ch2. rewrite app_assoc. split; [reflexivity|]. split; [exact B2|]. split; [exact SUM|].
    split; [intros w Hw; apply in_app_or in Hw; destruct Hw; auto|].
    split; [intro H; destruct (B5 H) as [H1 ->]; destruct (A5 H1) as [_ ->]; reflexivity|].
    split; [intros p Hp Hlt; apply B7; [intros q _ Hq; lia|exact Hp|lia]|].
    intro H. assert (Z1 : v1 = repeat false (2 * N)).
    { specialize (A7 H). apply vget_ext with (2 * N); [apply span_len with E; [apply (rr_shape _ _ _ _ _ R)|exact A2]|apply repeat_length|].
      intros i Hi. unfold vget at 2. rewrite nth_repeat_false. apply (span_zero_prefix _ _ _ _ v1 i R A2 Hi). intros p Hp Hle. apply A7; [exact Hp|lia]. }
    assert (Z2 : forall p, In p piv -> vget v2 p = false).
    { intros p Hp. destruct (le_lt_dec N p) as [L|L]; [|apply B7; [intros q _ Hq; lia|exact Hp|lia]].
      assert (Hz : reduce_pass Gm (map (ex N) (seq 0 N)) (exchange N v1) (soln ++ ws1) ch1 = (exchange N v1, soln ++ ws1, ch1)).
      { rewrite Z1, exchange_zero. clear. generalize (map (ex N) (seq 0 N)) as us. induction us as [|u us IH]; [reflexivity|].
        cbn [reduce_pass]. unfold vget at 1. rewrite nth_repeat_false. exact IH. }
      rewrite Hz in B1. injection B1 as Q _ _. apply (f_equal (exchange N)) in Q.
      rewrite !exchange_exchange in Q by (apply span_len with E; [apply (rr_shape _ _ _ _ _ R)|assumption]).
      rewrite <- Q, Z1. unfold vget. apply nth_repeat_false. }
    apply vget_ext with (2 * N); [apply span_len with E; [apply (rr_shape _ _ _ _ _ R)|exact B2]|apply repeat_length|].
    intros i Hi. unfold vget at 2. rewrite nth_repeat_false. apply (span_zero_prefix _ _ _ _ v2 i R B2 Hi). intros p Hp _. now apply Z2.
  Qed.

  Lemma pass_zero : forall us soln ch, reduce_pass Gm us (repeat false (2 * N)) soln ch = (repeat false (2 * N), soln, ch).
  Proof.
    induction us as [|u us IH]; intros soln ch; [reflexivity|]. cbn [reduce_pass]. unfold vget at 1. rewrite nth_repeat_false. apply IH.
  Qed.

  Lemma add2_cancel : forall a b, length a = 2 * N -> length b = 2 * N -> add2 a b = repeat false (2 * N) -> a = b.
  Proof.
    intros a b Ha Hb H. apply vec_ext; [congruence|]. intros i Hi. apply (f_equal (fun v => nth i v false)) in H.
    rewrite add2_get, nth_repeat_false in H by congruence. destruct (nth i a false), (nth i b false); try reflexivity; discriminate.
  Qed.

  (** The loop stops within three passes and the rows found add up to the target. *)
  Lemma decompose_spec : forall v fuel, span (2 * N) E v -> 3 <= fuel ->
    exists ws, decompose fuel (2 * N) Gm (exchange N v) [] = Some ws /\ (forall w, In w ws -> w < n) /\ v = sumrows (2 * N) (rowsof ws).
  Proof.
    intros v fuel Hv Hf. destruct fuel as [|[|[|fuel]]]; try lia.
    assert (LS := fun x (Hx : span (2 * N) E x) => span_len (2 * N) E x (rr_shape _ _ _ _ _ R) Hx).
    destruct (whole_pass v [] Hv) as [v1 [ws1 [ch1 [A1 [A2 [A3 [A4 [A5 [A6 A7]]]]]]]]].
    destruct (whole_pass v1 ([] ++ ws1) A2) as [v2 [ws2 [ch2 [B1 [B2 [B3 [B4 [B5 [B6 B7]]]]]]]]].
    specialize (B7 A6). rewrite B7 in B1, B2, B3. clear B6 B7 v2.
    cbn [decompose]. rewrite A1. cbv beta iota. destruct ch1; cbv beta iota.
    - rewrite B1. cbv beta iota. destruct ch2; cbv beta iota.
      + rewrite exchange_zero, pass_zero. exists ([] ++ (ws1 ++ ws2)). rewrite !app_assoc. split; [reflexivity|].
        cbn [app]. split; [intros w Hw; apply in_app_or in Hw; destruct Hw; auto|].
        rewrite rowsof_app, sumrows_app by now apply rowsof_shape.
        apply add2_cancel; [now apply LS|apply add2_length; apply sumrows_len, rowsof_shape; assumption|].
        rewrite add2_assoc, <- A3. symmetry. exact B3.
      + specialize (B5 eq_refl). subst ws2. rewrite app_nil_r. exists ([] ++ ws1). split; [reflexivity|]. cbn [app]. split; [exact A4|].
        apply add2_cancel; [now apply LS|apply sumrows_len, rowsof_shape; assumption|].
        rewrite <- A3. unfold rowsof in B3; cbn [map sumrows fold_right] in B3. rewrite add2_zero in B3 by now apply LS. congruence.
    - specialize (A5 eq_refl). subst ws1. exists ([] ++ []). split; [reflexivity|]. split; [intros w []|].
      unfold rowsof in A3; cbn [map sumrows fold_right] in A3. rewrite add2_zero in A3 by now apply LS. subst v1. cbn [app] in A1, B1. rewrite A1 in B1. injection B1 as B1 _ _.
      apply (f_equal (exchange N)) in B1. rewrite !exchange_exchange in B1 by now apply LS. cbn. exact B1.
  Qed.
End Pass.
