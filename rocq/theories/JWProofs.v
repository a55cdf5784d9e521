(** Proofs about the Jordan-Wigner and Qubit transforms. *)
From Coq Require Import Bool List Arith ZArith Lia Ring.
From Verif Require Import Coeff MatSpec MatLemmas PauliModel PauliProofs OperatorModel OperatorProofs
  FockSpec FermiModel FermiProofs TransformModel TwoTerm.
Import ListNotations.

Definition count_ops (s : fstr) : nat := length (flat 0 s).

Lemma length_flat i j s : length (flat i s) = length (flat j s).
Proof. revert i j. induction s as [|[o|] s IH]; intros i j; cbn; auto. Qed.

Lemma flat_app i s t : flat i (s ++ t) = flat i s ++ flat (length s + i) t.
Proof.
  revert i. induction s as [|[o|] s IH]; intro i; cbn; [reflexivity| |]; rewrite IH;
    replace (length s + S i) with (S (length s + i)) by lia; reflexivity.
Qed.

Section JW.
  Variable K : CoefRing.
  Add Ring KRing : (c_ring K).
  Local Open Scope coef_scope.
  Notation pop := (opv K (list pauli)).

  Lemma one_minus_half : (1 - chalf : K) = chalf.
  Proof. rewrite <- (chalf_dbl K). ring. Qed.

  Lemma ladder_c2_eq o : exists z, @ladder_c2 K o = ipow z * chalf.
  Proof.
    destruct o; cbn; rewrite ?one_minus_half;
      [exists 3%Z|exists 1%Z|exists 3%Z|exists 3%Z]; unfold ipow; cbn; ring.
  Qed.
  Lemma number_c2_eq o : exists z, @number_c2 K o = ipow z * chalf.
  Proof.
    destruct o; cbn; rewrite ?one_minus_half;
      [exists 2%Z|exists 2%Z|exists 2%Z|exists 0%Z]; unfold ipow; cbn; ring.
  Qed.
  Lemma half_ipow : (chalf : K) = ipow 0 * chalf.
  Proof. unfold ipow. cbn. ring. Qed.

  (** * Matrix of one operator *)
  Lemma fock_mat_0 o a r b c :
    @fock_mat K [(o, 0%nat)] (a :: r) (b :: c) =
    (match local o b with Some b' => if Bool.eqb a b' then 1 else 0 | None => 0 end) * mone r c.
  Proof.
    unfold fock_mat, pmap_mat, mone. rewrite fock_cons. cbn [fock bindo]. rewrite fock1_0.
    destruct (local o b) as [b'|]; [|ring]. cbn. rewrite (bits_eqb_sym c r).
    destruct a, b'; cbn; destruct (bits_eqb r c); ring.
  Qed.

  Lemma fock_mat_S o q a r b c :
    @fock_mat K [(o, S q)] (a :: r) (b :: c) =
    (if Bool.eqb a b then sgn (ladder o && b) else 0) * fock_mat [(o, q)] r c.
  Proof.
    unfold fock_mat, pmap_mat. rewrite !fock_cons. cbn [fock bindo]. rewrite fock1_S.
    destruct (fock1 o q c) as [[s m]|]; cbn; [|ring].
    destruct a, b; cbn; destruct (bits_eqb m r); rewrite ?andb_false_r, ?andb_true_r;
      destruct (ladder o), s; cbn; ring.
  Qed.

  Lemma nth_prefix {A} (w : list A) x t d : nth (length w) (w ++ x :: t) d = x.
  Proof. rewrite app_nth2 by lia. rewrite Nat.sub_diag. reflexivity. Qed.

  Lemma prefix_ne (w w' : list pauli) x y t t' : length w = length w' -> x <> y ->
    w ++ x :: t <> w' ++ y :: t'.
  Proof.
    intros L H E. apply (f_equal (fun l => nth (length w) l PI)) in E.
    rewrite nth_prefix in E. rewrite L, nth_prefix in E. contradiction.
  Qed.

  Lemma jw_ladder_mat o q m r c : ladder o = true ->
    length r = (q + S m)%nat -> length c = (q + S m)%nat ->
    chalf * pmat (repeat PZ q ++ PX :: repeat PI m) r c
    + ladder_c2 o * pmat (repeat PZ q ++ PY :: repeat PI m) r c = @fock_mat K [(o, q)] r c.
  Proof.
    intro Ho. assert (Ci : (ci * ci : K) = - (1)) by apply ci_sq.
    assert (Hh : (chalf + chalf : K) = 1) by apply chalf_dbl.
    revert r c. induction q as [|q IH]; intros [|a r] [|b c] Hr Hc; try discriminate.
    - cbn in Hr, Hc. cbn [repeat app pmat]. rewrite fock_mat_0, !pmat_identity by lia.
      assert (H1 : (1 - chalf : K) = chalf) by apply one_minus_half.
      destruct o; try discriminate; cbn [ladder_c2]; rewrite ?H1; destruct a, b; cbn;
        first [ring | ring [Ci] | transitivity ((chalf + chalf) * @mone K r c); [ring [Ci]|rewrite Hh; ring]].
    - cbn in Hr, Hc. cbn [repeat app pmat]. rewrite fock_mat_S, Ho, <- IH by lia.
      destruct a, b; cbn; ring.
  Qed.

  Lemma number_mat o q m r c : ladder o = false ->
    length r = (q + S m)%nat -> length c = (q + S m)%nat ->
    chalf * pmat (repeat PI q ++ PI :: repeat PI m) r c
    + number_c2 o * pmat (repeat PI q ++ PZ :: repeat PI m) r c = @fock_mat K [(o, q)] r c.
  Proof.
    intro Ho. assert (Hh : (chalf + chalf : K) = 1) by apply chalf_dbl.
    revert r c. induction q as [|q IH]; intros [|a r] [|b c] Hr Hc; try discriminate.
    - cbn in Hr, Hc. cbn [repeat app pmat]. rewrite fock_mat_0, !pmat_identity by lia.
      assert (H1 : (1 - chalf : K) = chalf) by apply one_minus_half.
      destruct o; try discriminate; cbn [number_c2]; rewrite ?H1; destruct a, b; cbn; try ring;
        (transitivity ((chalf + chalf) * @mone K r c); [ring|rewrite Hh; ring]).
    - cbn in Hr, Hc. cbn [repeat app pmat]. rewrite fock_mat_S, Ho, <- IH by lia.
      destruct a, b; cbn; ring.
  Qed.

  Lemma jw_term_mat N q o : q < N -> meq N (omat (jw_term N q o)) (@fock_mat K [(o, q)]).
  Proof.
    intros Hq r c Hr Hc. unfold jw_term. destruct (ladder o) eqn:Ho.
    - rewrite two_term_eq by (apply prefix_ne; [reflexivity|discriminate]).
      rewrite !omat_cons. cbn [omat]. unfold mzero. rewrite <- (jw_ladder_mat o q (N - q - 1)) by (auto; lia).
      ring.
    - rewrite two_term_eq by (apply prefix_ne; [reflexivity|discriminate]).
      rewrite !omat_cons. cbn [omat]. unfold mzero. rewrite <- (number_mat o q (N - q - 1)) by (auto; lia).
      ring.
  Qed.

  Lemma okterm_prefix N q (P : nat -> Prop) w x y t (a1 a2 : K) z1 z2 :
    x <> y -> length w = q -> (length t = N - q - 1)%nat -> q < N -> (forall j, j <= q -> P j) ->
    a1 = ipow z1 * chalf -> a2 = ipow z2 * chalf ->
    okterm N P (fun j => j < q) (two_term (w ++ x :: t) a1 (w ++ y :: t) a2).
  Proof.
    intros Hxy Lw Lt Hq HP E1 E2. exists (w ++ x :: t), (w ++ y :: t), z1, z2, q.
    rewrite two_term_eq by (apply prefix_ne; [reflexivity|exact Hxy]). subst a1 a2.
    split; [reflexivity|]. split; [rewrite app_length; cbn; lia|].
    split; [rewrite app_length; cbn; lia|]. split; [apply HP; lia|]. split.
    - rewrite <- Lw, !nth_prefix. exact Hxy.
    - intros j Hj. split; [apply HP; lia|]. rewrite !app_nth1 by lia. reflexivity.
  Qed.

  Lemma jw_term_ok N q o : q < N -> okterm N (fun j => j < S q) (fun j => j < q) (@jw_term K N q o).
  Proof.
    intro Hq. unfold jw_term.
    destruct (ladder_c2_eq o) as [z Ez]. destruct (number_c2_eq o) as [z' Ez'].
    destruct (ladder o); eapply okterm_prefix; try apply half_ipow; try eassumption; try discriminate;
      rewrite ?repeat_length; try reflexivity; intros; lia.
  Qed.

  Lemma jw_loop_spec N (c : K) rs k new :
    length rs <= N -> Inv N c k (fun j => j < length rs) new ->
    small (cpow chalf (length (flat 0 rs) + k) * c) = false ->
    meq N (omat (jw_loop N rs new)) (mmul N (fock_mat (flat 0 (rev rs))) (omat new))
    /\ Inv N c (length (flat 0 rs) + k) (fun _ => False) (jw_loop N rs new)
    /\ length (jw_loop N rs new) = (2 ^ length (flat 0 rs) * length new)%nat.
  Proof.
    revert k new. induction rs as [|[o|] rs IH]; intros k new HN HI HS.
    - cbn. split; [|split].
      + intros r q Hr Hq. rewrite (mmul_meq K N _ _ _ _ (fock_mat_nil K N) (meq_refl K N _)) by assumption.
        rewrite mmul_one_l by assumption. reflexivity.
      + destruct HI as [H1 [H2 [H3 H4]]]. split; [|split; [|split]]; auto. intros e e' j He He' [].
      + lia.
    - cbn [jw_loop]. cbn [length] in HN. cbn [flat length] in HS.
      rewrite (length_flat 1 0) in HS.
      assert (HS' : small (cpow chalf (S k) * c) = false).
      { clear - HS. revert HS. replace (S (length (flat 0 rs)) + k)%nat with (length (flat 0 rs) + S k)%nat by lia.
        generalize (length (flat 0 rs)). intro a. induction a as [|a IH]; [auto|].
        intro H. apply IH. apply small_cpow. exact H. }
      destruct (pop_mul_step K N c k _ (fun j => j < length rs) (jw_term N (length rs) o) new HI
                  (jw_term_ok N (length rs) o ltac:(lia)) HS') as [HI' [HM HL]].
      destruct (IH (S k) (pop_mul (jw_term N (length rs) o) new) ltac:(lia) HI') as [M [I' L']].
      { replace (length (flat 0 rs) + S k)%nat with (S (length (flat 0 rs)) + k)%nat by lia. exact HS. }
      split; [|split].
      + intros r q Hr Hq. rewrite M by assumption. cbn [rev].
        rewrite flat_app. cbn [flat]. rewrite rev_length, Nat.add_0_r.
        rewrite (mmul_meq K N _ _ _ _ (meq_refl K N _) HM) by assumption.
        rewrite (mmul_meq K N _ _ _ _ (meq_refl K N _)
          (mmul_meq K N _ _ _ _ (jw_term_mat N (length rs) o ltac:(lia)) (meq_refl K N _))) by assumption.
        rewrite mmul_assoc by assumption.
        apply mmul_meq; [|apply meq_refl|assumption|assumption].
        apply meq_sym, fock_mat_app.
      + cbn [flat length]. rewrite (length_flat 1 0).
        replace (S (length (flat 0 rs)) + k)%nat with (length (flat 0 rs) + S k)%nat by lia. exact I'.
      + cbn [flat length]. rewrite (length_flat 1 0). rewrite L', HL. cbn [Nat.pow]. lia.
    - cbn [jw_loop]. cbn [length] in HN. cbn [flat length] in *. rewrite (length_flat 1 0) in *.
      assert (HI' : Inv N c k (fun j => j < length rs) new).
      { destruct HI as [H1 [H2 [H3 H4]]]. split; [|split; [|split]]; auto. }
      destruct (IH k new ltac:(lia) HI' HS) as [M [I' L']]. split; [|split]; [|assumption|assumption].
      intros r q Hr Hq. rewrite M by assumption. cbn [rev]. rewrite flat_app. cbn [flat].
      rewrite app_nil_r. reflexivity.
  Qed.

  Lemma length_flat_rev s : length (flat 0 (rev s)) = length (flat 0 s).
  Proof.
    induction s as [|[o|] s IH]; cbn [rev]; [reflexivity| |]; rewrite flat_app, app_length, IH; cbn [flat length];
      rewrite (length_flat 1 0 s); lia.
  Qed.

  Lemma jw_string_spec s (c : K) : small (cpow chalf (count_ops s) * c) = false ->
    meq (length s) (omat (jw_string (s, c))) (mscal c (fstr_mat s))
    /\ Inv (length s) c (count_ops s) (fun _ => False) (jw_string (s, c))
    /\ length (jw_string (s, c)) = (2 ^ count_ops s)%nat.
  Proof.
    intro HS. unfold jw_string, count_ops in *. cbn [fst snd].
    destruct (jw_loop_spec (length s) c (rev s) 0 (pop_add_string [] (repeat PI (length s), c)))
      as [M [I' L]].
    - rewrite rev_length. lia.
    - apply Inv_init.
    - rewrite length_flat_rev, Nat.add_0_r. exact HS.
    - rewrite length_flat_rev, Nat.add_0_r in *. rewrite rev_involutive in M. split; [|split].
      + intros r q Hr Hq. rewrite M by assumption. cbn [pop_add_string op_add_string op_get op_set fst snd].
        unfold fstr_mat.
        rewrite (mmul_meq K _ _ _ _ (mscal c mone) (meq_refl K _ _)); [|
          intros r' q' Hr' Hq'; cbn; unfold madd, mscal, mzero; rewrite pmat_identity by assumption; ring
          |assumption|assumption].
        rewrite mmul_scal_r by assumption. unfold mscal. rewrite mmul_one_r by assumption. reflexivity.
      + exact I'.
      + rewrite L. cbn. lia.
  Qed.
End JW.
