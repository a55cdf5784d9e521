(** The first and the last pass, and the whole construction. *)
From Coq Require Import Bool List Arith ZArith Lia.
From Verif Require Import Coeff MatSpec MatLemmas PauliModel OptModel CircuitSpec TomoModel TomoProofs StabModel StabSpec StabProofs StabProofs2 StabProofs3 StabProofs4
  ScModel ScProofs1 ScProofs2 ScProofs3.
Import ListNotations.

Section Passes.
  Variable K : CoefRing.
  Variable rt : K.
  Hypothesis rt_sq : cmul rt rt = chalf.

  Lemma tracked_upto N rowf trig gate T0 gs m0 : 
    (forall q r, q < N -> In r m0 -> existsb (trig q) m0 = true ->
      carries N (cmat rt N (written rt (gate q))) (check_to_pauli N (upto rowf trig m0 q r)) (check_to_pauli N (rowf q (upto rowf trig m0 q r)))) ->
    tracked N rt T0 gs m0 -> forall q, q <= N ->
    tracked N rt T0 (gs ++ map gate (filter (fun i => existsb (trig i) m0) (seq 0 q))) (map (upto rowf trig m0 q) m0).
  Proof.
    intros H T q. induction q as [|q IH]; intro Hq.
    - cbn [seq filter map]. rewrite app_nil_r. unfold upto. cbn [seq fold_left]. now rewrite map_id.
    - rewrite seq_S, filter_app. cbn [Nat.add filter]. specialize (IH ltac:(lia)). destruct (existsb (trig q) m0) eqn:Q.
      + rewrite map_app, app_assoc. cbn [map].
        replace (map (upto rowf trig m0 (S q)) m0) with (map (rowf q) (map (upto rowf trig m0 q) m0)).
        * apply tracked_map; [|exact IH]. intros r Hr. apply in_map_iff in Hr. destruct Hr as (r0 & <- & Hr). apply H; auto; lia.
        * rewrite map_map. apply map_ext. intro r. now rewrite upto_S, Q.
      + rewrite app_nil_r. replace (map (upto rowf trig m0 (S q)) m0) with (map (upto rowf trig m0 q) m0); [exact IH|].
        apply map_ext. intro r. now rewrite upto_S, Q.
  Qed.

  Lemma y_upto_get N m0 : forall q r c, q <= N -> length r = 2 * N ->
    vget (upto (y_row N) (is_y N) m0 q r) c = if (c <? q) && existsb (is_y N c) m0 then xorb (vget r c) (vget r (c + N)) else vget r c.
  Proof.
    induction q as [|q IH]; intros r c Hq Hr; [reflexivity|]. rewrite upto_S. 
    assert (Hl : length (upto (y_row N) (is_y N) m0 q r) = 2 * N) by (rewrite upto_len; [exact Hr|apply y_row_len]).
    destruct (existsb (is_y N q) m0) eqn:Q.
    - rewrite y_row_get by (auto; lia). destruct (Nat.eqb_spec c q) as [->|Hd].
      + rewrite !IH by (auto; lia). rewrite Nat.ltb_irrefl. cbn [andb]. rewrite (proj2 (Nat.ltb_ge (q + N) q)) by lia. cbn [andb].
        rewrite (proj2 (Nat.ltb_lt q (S q))) by lia. now rewrite Q.
      + rewrite IH by (auto; lia). destruct (Nat.ltb_spec c q), (Nat.ltb_spec c (S q)); try lia; reflexivity.
    - rewrite IH by (auto; lia). destruct (Nat.eq_dec c q) as [->|Hd]; [rewrite Q, !andb_false_r; reflexivity|].
      destruct (Nat.ltb_spec c q), (Nat.ltb_spec c (S q)); try lia; reflexivity.
  Qed.
  Lemma y_upto_getX N m0 q r c : q <= N -> length r = 2 * N -> vget (upto (y_row N) (is_y N) m0 q r) (c + N) = vget r (c + N).
  Proof. intros Hq Hr. rewrite y_upto_get by assumption. now rewrite (proj2 (Nat.ltb_ge (c + N) q)) by lia. Qed.

  Lemma h_upto_get N m0 : forall q r c, q <= N -> c < N -> length r = 2 * N ->
    vget (upto (h_row N) (is_x N) m0 q r) c = (if (c <? q) && existsb (is_x N c) m0 then vget r (c + N) else vget r c) /\
    vget (upto (h_row N) (is_x N) m0 q r) (c + N) = (if (c <? q) && existsb (is_x N c) m0 then vget r c else vget r (c + N)).
  Proof.
    induction q as [|q IH]; intros r c Hq Hc Hr; [split; reflexivity|]. rewrite upto_S. 
    assert (Hl : length (upto (h_row N) (is_x N) m0 q r) = 2 * N) by (rewrite upto_len; [exact Hr|apply h_row_len]).
    destruct (IH r c ltac:(lia) Hc Hr) as (I1 & I2).
    destruct (existsb (is_x N q) m0) eqn:Q.
    - rewrite !h_row_get by (auto; lia). rewrite (proj2 (Nat.eqb_neq (c + N) q)) by lia. rewrite (proj2 (Nat.eqb_neq c (q + N))) by lia.
      destruct (Nat.eqb_spec c q) as [->|Hd].
      + rewrite Nat.eqb_refl. rewrite I1, I2. rewrite Nat.ltb_irrefl. cbn [andb]. 
        rewrite (proj2 (Nat.ltb_lt q (S q))) by lia. rewrite Q. split; reflexivity.
      + rewrite (proj2 (Nat.eqb_neq (c + N) (q + N))) by lia. rewrite I1, I2.
        destruct (Nat.ltb_spec c q), (Nat.ltb_spec c (S q)); try lia; split; reflexivity.
    - rewrite I1, I2. destruct (Nat.eq_dec c q) as [->|Hd]; [rewrite Q, !andb_false_r; split; reflexivity|].
      destruct (Nat.ltb_spec c q), (Nat.ltb_spec c (S q)); try lia; split; reflexivity.
  Qed.

  Lemma simplify_y_eq N m0 gs : shape (2 * N) m0 ->
    simplify_y N m0 gs = (map (upto (y_row N) (is_y N) m0 N) m0, gs ++ map SSi (filter (fun i => existsb (is_y N i) m0) (seq 0 N))).
  Proof.
    intro S. apply (fold_upto N (y_row N) (is_y N) SSi); auto; [apply y_row_len|].
    intros i j r Hi Hj Hd Hr. unfold is_y. rewrite !y_row_get by auto.
    now rewrite (proj2 (Nat.eqb_neq i j)), (proj2 (Nat.eqb_neq (i + N) j)) by lia.
  Qed.
  Lemma simplify_h_eq N m0 gs : shape (2 * N) m0 ->
    simplify_h N m0 gs = (map (upto (h_row N) (is_x N) m0 N) m0, gs ++ map SH (filter (fun i => existsb (is_x N i) m0) (seq 0 N))).
  Proof.
    intro S. apply (fold_upto N (h_row N) (is_x N) SH); auto; [apply h_row_len|].
    intros i j r Hi Hj Hd Hr. unfold is_x. rewrite !h_row_get by auto.
    now rewrite (proj2 (Nat.eqb_neq i j)), (proj2 (Nat.eqb_neq i (j + N))), (proj2 (Nat.eqb_neq (i + N) j)), (proj2 (Nat.eqb_neq (i + N) (j + N))) by lia.
  Qed.

  (** The last pass. *)
  Lemma h_pass N T0 gs m : shape (2 * N) m -> tracked N rt T0 gs m -> (forall g, In g gs -> sgate_ok N g) ->
    (forall q, q < N -> (forall r, In r m -> vget r q = false) \/ (forall r, In r m -> vget r (q + N) = false)) ->
    exists m' gs', simplify_h N m gs = (m', gs') /\ tracked N rt T0 gs' m' /\ (forall g, In g gs' -> sgate_ok N g) /\
      (forall r q, In r m' -> q < N -> vget r (q + N) = false).
  Proof.
    intros S T O L. rewrite (simplify_h_eq N m gs S). eexists _, _. split; [reflexivity|]. split; [|split].
    - apply (tracked_upto N); auto. intros q r Hq Hr _. apply h_row_carries; auto.
      + rewrite upto_len; [now apply S|apply h_row_len].
      + unfold is_y. destruct (h_upto_get N m q r q ltac:(lia) Hq (S r Hr)) as (-> & ->). rewrite Nat.ltb_irrefl. cbn [andb].
        destruct (L q Hq) as [A|A]; rewrite (A r Hr); [reflexivity|apply andb_false_r].
    - intros g Hg. apply in_app_iff in Hg. destruct Hg as [Hg|Hg]; [now apply O|]. apply in_map_iff in Hg.
      destruct Hg as (i & <- & Hi). apply filter_In in Hi. destruct Hi as (Hi & _). apply in_seq in Hi. cbn. lia.
    - intros r q Hr Hq. apply in_map_iff in Hr. destruct Hr as (r0 & <- & Hr).
      destruct (h_upto_get N m N r0 q ltac:(lia) Hq (S r0 Hr)) as (_ & ->). rewrite (proj2 (Nat.ltb_lt q N) Hq). cbn [andb].
      destruct (existsb (is_x N q) m) eqn:Q.
      + destruct (L q Hq) as [A|A]; [now apply A|]. exfalso. apply existsb_exists in Q. destruct Q as (r1 & Hr1 & Q). unfold is_x in Q.
        rewrite (A r1 Hr1), andb_false_r in Q. discriminate.
      + destruct (L q Hq) as [A|A]; [|now apply A]. destruct (vget r0 (q + N)) eqn:V; [|reflexivity]. exfalso.
        assert (existsb (is_x N q) m = true); [|congruence]. apply existsb_exists. exists r0. split; [exact Hr|]. unfold is_x. rewrite V, (A r0 Hr). reflexivity.
  Qed.
End Passes.

(** ** Rows that agree with a basis *)
Section Basis.
  Variables (N : nat) (b : list pauli).
  Definition xb (i : nat) : bool := pauli_eqb (nth i b PI) PX || pauli_eqb (nth i b PI) PY.
  Definition zb (i : nat) : bool := pauli_eqb (nth i b PI) PZ || pauli_eqb (nth i b PI) PY.
  (** For a row of E: X part first. *)
  Definition okrow (v : vec) : Prop := forall i, i < N ->
    (xb i = false -> vget v i = false) /\ (zb i = false -> vget v (i + N) = false) /\ (xb i = true -> zb i = true -> vget v i = vget v (i + N)).
  Lemma ok_zero : okrow (repeat false (2 * N)).
  Proof. intros i Hi. unfold vget. rewrite !nth_repeat_false. auto. Qed.
  Lemma ok_add u v : length u = 2 * N -> length v = 2 * N -> okrow u -> okrow v -> okrow (add2 u v).
  Proof.
    intros Lu Lv U V i Hi. destruct (U i Hi) as (U1 & U2 & U3). destruct (V i Hi) as (V1 & V2 & V3). unfold vget in *. rewrite !add2_get by congruence.
    split; [|split].
    - intro H. now rewrite U1, V1.
    - intro H. now rewrite U2, V2.
    - intros H1 H2. now rewrite U3, V3.
  Qed.
  Lemma ok_span E v : shape (2 * N) E -> (forall r, In r E -> okrow r) -> span (2 * N) E v -> okrow v.
  Proof.
    intros S H Sp. induction Sp as [|r v Hr Sp IH]; [apply ok_zero|]. apply ok_add; auto. eapply span_len; eauto.
  Qed.
  Lemma ok_string p : length b = N -> agrees p b -> okrow (exchange N (pauli_to_check p)).
  Proof.
    intros Lb A. assert (Lp : length p = N) by (rewrite <- Lb; now apply CircuitProofs2.agrees_length).
    assert (Hn : forall i, nth i p PI = PI \/ nth i p PI = nth i b PI).
    { clear -A. induction A as [|x p m A IH|x p m A IH]; intros [|i]; cbn [nth]; auto. }
    intros i Hi. rewrite !exchange_get by (try lia; now apply ptc_length). unfold ex.
    rewrite (proj2 (Nat.ltb_lt i N) Hi). rewrite (proj2 (Nat.ltb_ge (i + N) N)) by lia. replace (i + N - N) with i by lia.
    rewrite (vget_ptc_x p i N Lp Hi), (vget_ptc_z p i) by lia. cbn zeta. unfold xb, zb.
    destruct (Hn i) as [E|E]; rewrite E; [cbn; auto|]. split; [|split]; auto. intros -> ->. reflexivity.
  Qed.
End Basis.

Lemma filter_map_comm : forall A B (f : A -> B) p l, filter p (map f l) = map f (filter (fun x => p (f x)) l).
Proof. intros A B f p l. induction l as [|x l IH]; [reflexivity|]. cbn [map filter]. rewrite IH. now destruct (p (f x)). Qed.
Lemma count_zero : forall l, count l = 0 -> forall i, nth i l false = false.
Proof.
  induction l as [|x l IH]; intros H i; [now destruct i|]. unfold count in H. cbn [filter] in H. destruct x; [discriminate|]. destruct i; [reflexivity|]. now apply IH.
Qed.

Section Whole.
  Variables (N : nat) (b : list pauli) (ps : list (list pauli)) (E : list vec) (piv : list nat).
  Hypothesis Lb : length b = N.
  Hypothesis A : forall p, In p ps -> agrees p b.
  Hypothesis GE : gaussian_elimination N (parity_matrix N ps) = (E, piv).

  Lemma lens p : In p ps -> length p = N.
  Proof. intro H. rewrite <- Lb. apply CircuitProofs2.agrees_length. now apply A. Qed.
  Lemma RR : rref (2 * N) (2 * N) (parity_matrix N ps) E piv.
  Proof. pose proof (gaussian_rref N (parity_matrix N ps) (parity_shape N ps lens)) as H. now rewrite GE in H. Qed.
  Lemma ok_rows r : In r E -> okrow N b r.
  Proof.
    intro Hr. apply (ok_span N b (parity_matrix N ps)); [apply parity_shape, lens| |now apply (rr_span1 _ _ _ _ _ RR)].
    clear r Hr. intros r Hr. unfold parity_matrix in Hr. apply in_map_iff in Hr. destruct Hr as (g & <- & Hg).
    apply (proj2 (columns_spec N ps)) in Hg. destruct Hg as [->|(p & Hp & _ & ->)].
    - rewrite exchange_zero. apply ok_zero.
    - apply ok_string; auto.
  Qed.
  Let G0 := map (exchange N) (firstn (length piv) E).
  Let L := filter (fun m => z_type N (nullv (2 * N) E piv m)) (free (2 * N) piv).
  Let Z0 := map (nullv (2 * N) E piv) L.

  Lemma G0_len : length G0 = length piv.
  Proof. unfold G0. rewrite map_length, firstn_length. pose proof (rr_rows _ _ _ _ _ RR). lia. Qed.
  Lemma G0_nth k : k < length piv -> nth k G0 [] = exchange N (nth k E []).
  Proof. intro Hk. apply (Gm_nth N (parity_matrix N ps) E piv RR k Hk). Qed.
  Lemma E_len k : k < length piv -> length (nth k E []) = 2 * N.
  Proof. intro Hk. apply (rr_shape _ _ _ _ _ RR), nth_In. pose proof (rr_rows _ _ _ _ _ RR). lia. Qed.
  Lemma in_G0 r : In r G0 -> exists k, k < length piv /\ r = nth k G0 [].
  Proof. intro Hr. destruct (In_nth _ _ [] Hr) as (k & Hk & Ek). exists k. split; [rewrite <- G0_len; exact Hk|symmetry; exact Ek]. Qed.
  Lemma G0_shape : shape (2 * N) G0.
  Proof.
    intros r Hr. destruct (in_G0 r Hr) as (k & Hk & ->). rewrite (G0_nth k Hk). apply exchange_length. now apply E_len.
  Qed.
  Lemma G0_Z k i : k < length piv -> i < N -> vget (nth k G0 []) i = vget (nth k E []) (i + N).
  Proof. intros Hk Hi. rewrite G0_nth, exchange_get by (auto; try lia; now apply E_len). unfold ex. now rewrite (proj2 (Nat.ltb_lt i N) Hi). Qed.
  Lemma G0_X k i : k < length piv -> i < N -> vget (nth k G0 []) (i + N) = vget (nth k E []) i.
  Proof.
    intros Hk Hi. rewrite G0_nth, exchange_get by (auto; try lia; now apply E_len). unfold ex. rewrite (proj2 (Nat.ltb_ge (i + N) N)) by lia.
    f_equal. lia.
  Qed.
  Lemma G0_ok k : k < length piv -> okrow N b (nth k E []).
  Proof. intro Hk. apply ok_rows, nth_In. pose proof (rr_rows _ _ _ _ _ RR). lia. Qed.
  Lemma Z0_shape : shape (2 * N) Z0.
  Proof. apply nullv_shape. Qed.
  Lemma L_spec m : In m L -> m < N /\ ~ In m piv /\ forall i, i < N -> vget (nullv (2 * N) E piv m) (i + N) = false.
  Proof.
    unfold L. intro H. apply filter_In in H. destruct H as (Hf & Hz). apply free_spec in Hf. destruct Hf as (Hm & Hp).
    unfold z_type in Hz. apply andb_true_iff in Hz. destruct Hz as (Hz & _). apply Nat.eqb_eq in Hz.
    assert (X : forall i, i < N -> vget (nullv (2 * N) E piv m) (i + N) = false).
    { intros i Hi. unfold vget. rewrite Nat.add_comm. rewrite <- nth_skipn_b. now apply count_zero. }
    split; [|split; [now apply is_pivot_false|exact X]].
    destruct (lt_dec m N) as [C|C]; [exact C|exfalso]. specialize (X (m - N) ltac:(lia)). replace (m - N + N) with m in X by lia.
    unfold vget in X. rewrite nullv_nth in X; [|apply (rr_nodup _ _ _ _ _ RR)|exact Hm|exact Hp]. rewrite Hp, Nat.eqb_refl in X. discriminate.
  Qed.
  Lemma L_nodup : NoDup L.
  Proof. unfold L. apply NoDup_filter, free_nodup. Qed.
  Lemma construct_eq : construct_circuit N ps = Some (G0 ++ Z0, map (check_to_pauli N) Z0).
  Proof.
    unfold construct_circuit. rewrite GE, (reduced_eq N _ E piv RR). fold G0.
    assert (NV : null_vectors N E piv = map (nullv (2 * N) E piv) (free (2 * N) piv)) by reflexivity.
    rewrite NV, map_length, G0_len.
    pose proof (free_length (2 * N) piv (rr_nodup _ _ _ _ _ RR) (rr_lt _ _ _ _ _ RR)) as H.
    rewrite (proj2 (Nat.eqb_eq _ _)) by lia. rewrite filter_map_comm. reflexivity.
  Qed.

  (** ** After the first pass *)
  Let m0 := G0 ++ Z0.
  Lemma m0_shape : shape (2 * N) m0.
  Proof. intros r Hr. unfold m0 in Hr. apply in_app_iff in Hr. destruct Hr; [now apply G0_shape|now apply Z0_shape]. Qed.
  Lemma Z0_X r i : In r Z0 -> i < N -> vget r (i + N) = false.
  Proof. intros Hr Hi. unfold Z0 in Hr. apply in_map_iff in Hr. destruct Hr as (m & <- & Hm). now apply L_spec. Qed.
  (** A qubit with a Y is a Y qubit of the basis. *)
  Lemma y_basis q : q < N -> existsb (is_y N q) m0 = true -> nth q b PI = PY.
  Proof.
    intros Hq H. apply existsb_exists in H. destruct H as (r & Hr & Y). unfold is_y in Y. apply andb_true_iff in Y. destruct Y as (Yz & Yx).
    unfold m0 in Hr. apply in_app_iff in Hr. destruct Hr as [Hr|Hr]; [|rewrite (Z0_X r q Hr Hq) in Yx; discriminate].
    destruct (in_G0 r Hr) as (k & Hk & ->). rewrite G0_Z in Yz by assumption. rewrite G0_X in Yx by assumption.
    destruct (G0_ok k Hk q Hq) as (O1 & O2 & O3). unfold xb, zb in *.
    destruct (nth q b PI); cbn in O1, O2; try reflexivity; [rewrite O1 in Yx by reflexivity|rewrite O2 in Yz by reflexivity|rewrite O1 in Yx by reflexivity]; discriminate.
  Qed.
  Lemma is_x_no q r : q < N -> In r m0 -> existsb (is_y N q) m0 = true -> is_x N q r = false.
  Proof.
    intros Hq Hr Hy. apply y_basis in Hy; [|exact Hq]. unfold is_x. unfold m0 in Hr. apply in_app_iff in Hr. destruct Hr as [Hr|Hr].
    - destruct (in_G0 r Hr) as (k & Hk & ->). rewrite G0_Z, G0_X by assumption. destruct (G0_ok k Hk q Hq) as (_ & _ & O3).
      unfold xb, zb in O3. rewrite Hy in O3. rewrite (O3 eq_refl eq_refl). destruct (vget (nth k E []) (q + N)); reflexivity.
    - rewrite (Z0_X r q Hr Hq). apply andb_false_r.
  Qed.
  Let G1 := map (upto (y_row N) (is_y N) m0 N) G0.
  Let Z1 := map (upto (y_row N) (is_y N) m0 N) Z0.
  Lemma up_nil : upto (y_row N) (is_y N) m0 N [] = [].
  Proof. apply length_zero_iff_nil. rewrite upto_len; [reflexivity|apply y_row_len]. Qed.
  Lemma G1_nth k : nth k G1 [] = upto (y_row N) (is_y N) m0 N (nth k G0 []).
  Proof. unfold G1. rewrite <- up_nil at 1. apply map_nth. Qed.
  Lemma Z1_nth k : nth k Z1 [] = upto (y_row N) (is_y N) m0 N (nth k Z0 []).
  Proof. unfold Z1. rewrite <- up_nil at 1. apply map_nth. Qed.
  Lemma G0_nth_len k : k < length piv -> length (nth k G0 []) = 2 * N.
  Proof. intro Hk. rewrite G0_nth by exact Hk. apply exchange_length. now apply E_len. Qed.
  Lemma G1_X k i : k < length piv -> i < N -> vget (nth k G1 []) (i + N) = vget (nth k E []) i.
  Proof. intros Hk Hi. rewrite G1_nth, y_upto_getX by (auto; now apply G0_nth_len). now apply G0_X. Qed.

  Lemma first_inv : inv N piv L (xb b) G1 Z1.
  Proof.
    pose proof (rr_nodup _ _ _ _ _ RR) as ND.
    assert (CL : forall p, In p piv -> cnt piv p < length piv) by (intros p Hp; now apply (cnt_below _ _ _ _ _ p RR)).
    assert (inG : forall r, In r G1 -> exists k, k < length piv /\ r = nth k G1 []).
    { intros r Hr. destruct (In_nth _ _ [] Hr) as (k & Hk & Ek). exists k. split; [|symmetry; exact Ek].
      rewrite <- G0_len. unfold G1 in Hk. rewrite map_length in Hk. exact Hk. }
    constructor.
    - unfold G1. rewrite map_length. apply G0_len.
    - unfold Z1, Z0. now rewrite !map_length.
    - intros r Hr. apply in_map_iff in Hr. destruct Hr as (r0 & <- & Hr). rewrite upto_len; [now apply G0_shape|apply y_row_len].
    - intros r Hr. apply in_map_iff in Hr. destruct Hr as (r0 & <- & Hr). rewrite upto_len; [now apply Z0_shape|apply y_row_len].
    - intros r i Hr Hi Hx. destruct (inG r Hr) as (k & Hk & ->). rewrite G1_X by assumption. now apply (G0_ok k Hk i Hi).
    - intros r i Hr Hi Hx. destruct (inG r Hr) as (k & Hk & ->). rewrite G1_nth, y_upto_get by (auto; now apply G0_nth_len).
      rewrite (proj2 (Nat.ltb_lt i N) Hi). cbn [andb]. rewrite G0_Z, G0_X by assumption.
      destruct (G0_ok k Hk i Hi) as (O1 & O2 & O3). destruct (existsb (is_y N i) m0) eqn:Y.
      + apply y_basis in Y; [|exact Hi]. unfold xb, zb in O3. rewrite Y in O3. rewrite O3 by reflexivity. apply xorb_nilpotent.
      + destruct (zb b i) eqn:Zb; [|now apply O2]. destruct (vget (nth k E []) (i + N)) eqn:V; [|reflexivity]. exfalso.
        assert (existsb (is_y N i) m0 = true); [|congruence]. apply existsb_exists. exists (nth k G0 []). split.
        * unfold m0. apply in_app_iff. left. apply nth_In. rewrite G0_len. exact Hk.
        * unfold is_y. rewrite G0_Z, G0_X by assumption. rewrite (O3 Hx eq_refl), V. reflexivity.
    - intros p Hp Hn. rewrite G1_X by auto. now apply (rr_one _ _ _ _ _ RR).
    - intros p k Hp Hn Hk Hd. rewrite G1_X by auto. now apply (rr_zero _ _ _ _ _ RR).
    - intros p j Hp Hn Hj. rewrite G1_X by (auto; lia). now apply (rr_left _ _ _ _ _ RR).
    - intros p j Hp Hn Hj. rewrite G1_X by auto. apply (rr_left _ _ _ _ _ RR); auto. lia.
    - intros r i Hr Hi. apply in_map_iff in Hr. destruct Hr as (r0 & <- & Hr). rewrite y_upto_getX by (auto; now apply Z0_shape). now apply Z0_X.
    - intros t i Ht Hi. assert (Ht' : t < length Z0) by (unfold Z0; now rewrite map_length).
      assert (Lt : In (nth t L 0) L) by now apply nth_In. destruct (L_spec _ Lt) as (Lm & Lp & LX).
      assert (Zt : nth t Z0 [] = nullv (2 * N) E piv (nth t L 0)).
      { unfold Z0. rewrite (nth_indep _ [] (nullv (2 * N) E piv 0)) by exact Ht'. apply map_nth. }
      rewrite Z1_nth, y_upto_get by (auto; apply Z0_shape, nth_In; exact Ht'). rewrite (proj2 (Nat.ltb_lt i N) Hi). cbn [andb].
      rewrite Zt, (LX i Hi), xorb_false_r. replace (if existsb (is_y N i) m0 then _ else _) with (vget (nullv (2 * N) E piv (nth t L 0)) i) by (now destruct (existsb (is_y N i) m0)).
      unfold vget at 1. rewrite nullv_nth by (auto; try lia; now apply is_pivot_false). destruct (is_pivot piv i) eqn:Pi; [|reflexivity].
      apply is_pivot_spec in Pi. rewrite G1_X by auto. destruct (Nat.ltb_spec i (nth t L 0)); [reflexivity|]. cbn [andb].
      symmetry. apply (rr_left _ _ _ _ _ RR); auto. destruct (Nat.eq_dec i (nth t L 0)); [congruence|lia].
  Qed.

  Section Gates.
    Variable K : CoefRing.
    Variable rt : K.
    Hypothesis rt_sq : cmul rt rt = chalf.

    Lemma xcount_bound G : xcount N G <= length G * N.
    Proof.
      unfold xcount. induction G as [|r G IH]; [cbn; lia|]. unfold list_sum in *. cbn [map fold_right length].
      enough (rowx N r <= N) by lia. unfold rowx. rewrite <- (seq_length N 0) at 2.
      clear. induction (seq 0 N) as [|x l IH]; [cbn; lia|]. cbn [filter]. destruct (vget r (x + N)); cbn [length]; lia.
    Qed.

    Lemma whole fuel : 2 * N * N + 6 < fuel ->
      exists gs m3, stabilized_circuit fuel N ps =
          Some (MkStabilized gs (fold_left (fun d e => pset (fst e) (snd e) d) (combine (map (check_to_pauli N) m0) (map (check_to_pauli N) m3)) []) (map (check_to_pauli N) Z0)) /\
        (forall g, In g gs -> sgate_ok N g) /\ tracked N rt (map (check_to_pauli N) m0) gs m3 /\
        (forall r q, In r m3 -> q < N -> vget r (q + N) = false) /\
        (forall p, In p piv -> p < N -> In (SH p) gs).
    Proof.
      intro Fu. unfold stabilized_circuit. rewrite construct_eq. fold m0. rewrite (simplify_y_eq N m0 [] m0_shape).
      rewrite app_nil_l. set (g1 := map SSi (filter (fun i => existsb (is_y N i) m0) (seq 0 N))).
      assert (T1 : tracked N rt (map (check_to_pauli N) m0) g1 (map (upto (y_row N) (is_y N) m0 N) m0)).
      { unfold g1. rewrite <- (app_nil_l (map SSi _)). apply tracked_upto; [| |lia].
        - intros q r Hq Hr Hy. apply y_row_carries; auto.
          + rewrite upto_len; [now apply m0_shape|apply y_row_len].
          + unfold is_x. rewrite y_upto_getX, y_upto_get by (try lia; now apply m0_shape). rewrite Nat.ltb_irrefl. cbn [andb].
            now apply is_x_no.
        - split; [now rewrite map_length|]. intros t Ht. rewrite (nth_indep _ [] (check_to_pauli N [])) by (now rewrite map_length).
          rewrite map_nth. apply carries_one. }
      unfold m0 at 2. rewrite map_app. fold G1. fold Z1. unfold m0 in T1 at 3. rewrite map_app in T1. fold G1 in T1. fold Z1 in T1.
      pose proof RR as R. pose proof (rr_nodup _ _ _ _ _ R) as ND.
      assert (CL : forall p, In p piv -> cnt piv p < length piv) by (intros p Hp; now apply (cnt_below _ _ _ _ _ p RR)).
      assert (PL : length piv <= 2 * N).
      { pose proof (free_length (2 * N) piv ND (rr_lt _ _ _ _ _ R)). lia. }
      destruct (loop_spec N piv L (xb b) ND CL (rr_surj _ _ _ _ _ R) L_nodup (fun m H => proj1 (L_spec m H)) K rt (map (check_to_pauli N) m0)
                  fuel G1 Z1 g1 false 0 first_inv T1) as (G2 & Z2 & g2 & E2 & I2 & T2 & O2 & F2).
      - intros g Hg. unfold g1 in Hg. apply in_map_iff in Hg. destruct Hg as (i & <- & Hi). apply filter_In in Hi. destruct Hi as (Hi & _). apply in_seq in Hi. cbn. lia.
      - discriminate.
      - pose proof (xcount_bound G1) as X. rewrite (i_G _ _ _ _ _ _ first_inv) in X.
        assert (length piv * N <= 2 * N * N) by (apply Nat.mul_le_mono_r; exact PL). lia.
      - rewrite E2.
        assert (S2 : shape (2 * N) (G2 ++ Z2)).
        { intros r Hr. apply in_app_iff in Hr. destruct Hr as [Hr|Hr]; [now apply (i_sG _ _ _ _ _ _ I2)|now apply (i_sZ _ _ _ _ _ _ I2)]. }
        destruct (h_pass K rt rt_sq N _ g2 (G2 ++ Z2) S2 T2 O2) as (m3 & g3 & E3 & T3 & O3 & X3).
        + apply (end_letters N piv L (xb b) CL (rr_surj _ _ _ _ _ R) (fun m H => proj1 (L_spec m H)) (fun m H => proj1 (proj2 (L_spec m H))) _ _ I2 F2).
        + rewrite E3. exists g3, m3. split; [reflexivity|]. split; [exact O3|]. split; [exact T3|]. split; [exact X3|].
          intros p Hp Hn. rewrite (simplify_h_eq N (G2 ++ Z2) g2 S2) in E3. injection E3 as _ <-. apply in_app_iff. right.
          apply in_map, filter_In. split; [apply in_seq; lia|]. apply existsb_exists. exists (nth (cnt piv p) G2 []).
          assert (Hi : In (nth (cnt piv p) G2 []) G2) by (apply nth_In; rewrite (i_G _ _ _ _ _ _ I2); now apply CL).
          split; [apply in_app_iff; now left|]. unfold is_x. rewrite (i_one _ _ _ _ _ _ I2 p Hp Hn), andb_true_r. apply negb_true_iff.
          apply (i_gz _ _ _ _ _ _ I2); auto. apply (xt_of N piv L (xb b) G2 Z2 _ p I2 Hi Hn). now apply (i_one _ _ _ _ _ _ I2).
    Qed.
  End Gates.
End Whole.
