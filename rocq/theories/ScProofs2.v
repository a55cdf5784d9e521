(** The row operations of the circuit construction. *)
From Coq Require Import Bool List Arith ZArith Lia.
From Verif Require Import Coeff MatSpec MatLemmas PauliModel OptModel OptProofs CircuitSpec StabModel StabSpec StabProofs StabProofs2 StabProofs3 StabProofs4
  ScModel ScProofs1.
Import ListNotations.

(** ** Qubit by qubit *)
Section FoldQ.
  Variables (N : nat) (rowf : nat -> vec -> vec) (trig : nat -> vec -> bool) (gate : nat -> sgate).
  Definition qstep (st : list vec * list sgate) (i : nat) : list vec * list sgate :=
    let '(m, gs) := st in if existsb (trig i) m then (map (rowf i) m, gs ++ [gate i]) else (m, gs).
  Hypothesis rowf_len : forall i r, length (rowf i r) = length r.
  Hypothesis trig_other : forall i j r, i < N -> j < N -> i <> j -> length r = 2 * N -> trig i (rowf j r) = trig i r.
  Definition upto (m0 : list vec) (q : nat) (r : vec) : vec :=
    fold_left (fun r i => if existsb (trig i) m0 then rowf i r else r) (seq 0 q) r.
  Lemma upto_S m0 q r : upto m0 (S q) r = if existsb (trig q) m0 then rowf q (upto m0 q r) else upto m0 q r.
  Proof. unfold upto. rewrite seq_S, fold_left_app. reflexivity. Qed.
  Lemma upto_len m0 q r : length (upto m0 q r) = length r.
  Proof. induction q as [|q IH]; [reflexivity|]. rewrite upto_S. destruct (existsb (trig q) m0); [rewrite rowf_len|]; exact IH. Qed.
  Lemma upto_trig m0 q i r : q <= i -> i < N -> length r = 2 * N -> trig i (upto m0 q r) = trig i r.
  Proof.
    induction q as [|q IH]; intros Hq Hi Hr; [reflexivity|]. rewrite upto_S. destruct (existsb (trig q) m0); [|apply IH; lia].
    rewrite trig_other by (rewrite ?upto_len; lia). apply IH; lia.
  Qed.
  Lemma fold_upto m0 gs q : shape (2 * N) m0 -> q <= N ->
    fold_left qstep (seq 0 q) (m0, gs) = (map (upto m0 q) m0, gs ++ map gate (filter (fun i => existsb (trig i) m0) (seq 0 q))).
  Proof.
    intro S0. induction q as [|q IH]; intro Hq.
    - cbn. rewrite app_nil_r. f_equal. symmetry. apply map_id.
    - rewrite seq_S, fold_left_app, IH by lia. cbn [fold_left qstep Nat.add].
      assert (T : existsb (trig q) (map (upto m0 q) m0) = existsb (trig q) m0).
      { clear IH. assert (G : forall l, (forall r, In r l -> length r = 2 * N) -> existsb (trig q) (map (upto m0 q) l) = existsb (trig q) l).
        { induction l as [|r l IH]; intro H; [reflexivity|]. cbn [map existsb]. rewrite upto_trig by (try lia; apply H; now left).
          rewrite IH; [reflexivity|]. intros; apply H; now right. }
        apply G, S0. }
      rewrite T. rewrite filter_app. cbn [filter]. destruct (existsb (trig q) m0) eqn:Q.
      + rewrite map_map, map_app, app_assoc. f_equal. apply map_ext. intro r. now rewrite upto_S, Q.
      + rewrite app_nil_r. f_equal. apply map_ext. intro r. now rewrite upto_S, Q.
  Qed.
End FoldQ.

(** ** Single rows *)
Lemma vget_put : forall i x r c, i < length r -> vget (put_at i x r) c = if c =? i then x else vget r c.
Proof. intros i x r c H. unfold vget. now apply nth_put_at. Qed.
Lemma y_row_len : forall N i r, length (y_row N i r) = length r.
Proof. intros N i r. unfold y_row. destruct (is_y N i r); [apply put_at_length|]. destruct (is_x N i r); [apply put_at_length|reflexivity]. Qed.
Lemma y_row_get : forall N i r c, length r = 2 * N -> i < N ->
  vget (y_row N i r) c = if c =? i then xorb (vget r i) (vget r (i + N)) else vget r c.
Proof.
  intros N i r c Hr Hi. unfold y_row, is_y, is_x.
  destruct (vget r i) eqn:A, (vget r (i + N)) eqn:B; cbn [andb negb]; rewrite ?vget_put by lia; destruct (Nat.eqb_spec c i) as [->|]; try reflexivity; now rewrite A.
Qed.
Lemma h_row_len : forall N i r, length (h_row N i r) = length r.
Proof. intros N i r. unfold h_row. destruct (is_x N i r); [now rewrite !put_at_length|]. destruct (is_z N i r); [now rewrite !put_at_length|reflexivity]. Qed.
Lemma h_row_get : forall N i r c, length r = 2 * N -> i < N ->
  vget (h_row N i r) c = if c =? i then vget r (i + N) else if c =? i + N then vget r i else vget r c.
Proof.
  intros N i r c Hr Hi. unfold h_row, is_x, is_z.
  destruct (vget r i) eqn:A, (vget r (i + N)) eqn:B; cbn [andb negb]; rewrite ?vget_put by (rewrite ?put_at_length; lia);
    destruct (Nat.eqb_spec c i) as [->|]; try (rewrite (proj2 (Nat.eqb_neq i (i + N))) by lia); try reflexivity; try (now rewrite A);
    destruct (Nat.eqb_spec c (i + N)) as [->|]; try reflexivity; now rewrite B.
Qed.
Lemma cx_row_len : forall N a b r, length (cx_row N a b r) = length r.
Proof. intros. unfold cx_row. now rewrite !put_at_length. Qed.
Lemma cx_row_get : forall N a b r c, length r = 2 * N -> a < N -> b < N -> a <> b ->
  vget (cx_row N a b r) c = if c =? b + N then xorb (vget r (b + N)) (vget r (a + N)) else if c =? a then xorb (vget r a) (vget r b) else vget r c.
Proof. intros N a b r c Hr Ha Hb Hab. unfold cx_row. rewrite !vget_put by (rewrite ?put_at_length; lia). reflexivity. Qed.

(** ** The pair of a row *)
Lemma find_seq : forall (f : nat -> bool) n a, match find f (seq a n) with
  | Some j => f j = true /\ a <= j < a + n /\ (forall j', a <= j' < j -> f j' = false)
  | None => forall j, a <= j < a + n -> f j = false end.
Proof.
  intros f n. induction n as [|n IH]; intro a; cbn [seq find]; [intros; lia|].
  destruct (f a) eqn:H; [split; [exact H|split; [lia|intros; lia]]|].
  specialize (IH (S a)). destruct (find f (seq (S a) n)) as [j|].
  - destruct IH as [H1 [H2 H3]]. split; [exact H1|]. split; [lia|]. intros j' Hj. destruct (Nat.eq_dec j' a) as [->|]; [exact H|]. apply H3. lia.
  - intros j Hj. destruct (Nat.eq_dec j a) as [->|]; [exact H|]. apply IH. lia.
Qed.
Lemma pair_in_row_spec : forall N r l, match pair_in_row N r l with
  | Some (i, j) => In i l /\ j < i /\ vget r (i + N) = true /\ vget r (j + N) = true /\ (forall j', j' < j -> vget r (j' + N) = false)
  | None => forall i j, In i l -> j < i -> vget r (i + N) = true -> vget r (j + N) = false end.
Proof.
  intros N r. induction l as [|i l IH]; cbn [pair_in_row]; [intros i j []|].
  pose proof (find_seq (fun j => vget r (i + N) && vget r (j + N)) i 0) as F. destruct (find _ (seq 0 i)) as [j|].
  - destruct F as [F1 [F2 F3]]. apply andb_true_iff in F1. destruct F1 as [F0 F1]. split; [now left|]. split; [lia|]. split; [exact F0|]. split; [exact F1|].
    intros j' Hj. specialize (F3 j' ltac:(lia)). rewrite F0 in F3. exact F3.
  - destruct (pair_in_row N r l) as [[i' j']|].
    + destruct IH as [H1 H2]. split; [now right|exact H2].
    + intros i' j' [<-|Hi] Hj Hx; [|now apply (IH i' j')]. specialize (F j' ltac:(lia)). rewrite Hx in F. exact F.
Qed.
Lemma find_pair_spec : forall N m, match find_pair N m with
  | Some (i, j) => exists r, In r m /\ i < N /\ j < i /\ vget r (i + N) = true /\ vget r (j + N) = true /\ (forall j', j' < j -> vget r (j' + N) = false)
  | None => forall r i j, In r m -> i < N -> j < i -> vget r (i + N) = true -> vget r (j + N) = false end.
Proof.
  intros N. induction m as [|r m IH]; cbn [find_pair]; [intros r i j []|].
  pose proof (pair_in_row_spec N r (seq 0 N)) as P. destruct (pair_in_row N r (seq 0 N)) as [[i j]|].
  - destruct P as [P1 P2]. apply in_seq in P1. exists r. split; [now left|]. split; [lia|exact P2].
  - destruct (find_pair N m) as [[i j]|].
    + destruct IH as [r' [H1 H2]]. exists r'. split; [now right|exact H2].
    + intros r' i j [<-|Hr] Hi Hj Hx; [|now apply (IH r' i j)]. apply (P i j); [apply in_seq; lia|exact Hj|exact Hx].
Qed.

(** ** Strings of rows *)
Lemma ctp_other : forall N r r', (forall c, vget r c = vget r' c) -> check_to_pauli N r = check_to_pauli N r'.
Proof. intros N r r' H. unfold check_to_pauli. apply map_ext. intro i. now rewrite !H. Qed.
Definition letter (N : nat) (r : vec) (i : nat) : pauli := if vget r i then if vget r (i + N) then PY else PZ else if vget r (i + N) then PX else PI.
Lemma ctp_letter : forall N r i, i < N -> nth i (check_to_pauli N r) PI = letter N r i.
Proof. intros. now apply ctp_nth. Qed.
Lemma ctp_same : forall N r r' i, (i < N -> letter N r i = letter N r' i) -> nth i (check_to_pauli N r) PI = nth i (check_to_pauli N r') PI.
Proof.
  intros N r r' i H. destruct (le_lt_dec N i) as [L|L]; [rewrite !nth_overflow by (rewrite ctp_length; exact L); reflexivity|].
  rewrite !ctp_letter by exact L. now apply H.
Qed.

Section Rows.
  Variable K : CoefRing.
  Variable rt : K.
  Hypothesis rt_sq : cmul rt rt = chalf.

  Lemma y_row_carries N i r : length r = 2 * N -> i < N -> is_x N i r = false ->
    carries N (cmat rt N (written rt (SSi i))) (check_to_pauli N r) (check_to_pauli N (y_row N i r)).
  Proof.
    intros Hr Hi Hx. apply si_carries; try assumption; try apply ctp_length.
    - intros j Hj. apply ctp_same. intro Hjn. unfold letter. rewrite !y_row_get by assumption.
      rewrite (proj2 (Nat.eqb_neq j i)) by exact Hj. rewrite (proj2 (Nat.eqb_neq (j + N) i)) by lia. reflexivity.
    - rewrite !ctp_letter by exact Hi. unfold letter. rewrite !y_row_get by assumption. rewrite Nat.eqb_refl.
      rewrite (proj2 (Nat.eqb_neq (i + N) i)) by lia. unfold is_x in Hx. destruct (vget r i), (vget r (i + N)); cbn; try exact I; discriminate.
  Qed.
  Lemma h_row_carries N i r : length r = 2 * N -> i < N -> is_y N i r = false ->
    carries N (cmat rt N (written rt (SH i))) (check_to_pauli N r) (check_to_pauli N (h_row N i r)).
  Proof.
    intros Hr Hi Hx. apply h_carries; try assumption; try apply ctp_length.
    - intros j Hj. apply ctp_same. intro Hjn. unfold letter. rewrite !h_row_get by assumption.
      rewrite (proj2 (Nat.eqb_neq j i)) by exact Hj. rewrite (proj2 (Nat.eqb_neq (j + N) i)) by lia. rewrite (proj2 (Nat.eqb_neq j (i + N))) by lia.
      rewrite (proj2 (Nat.eqb_neq (j + N) (i + N))) by lia. reflexivity.
    - rewrite !ctp_letter by exact Hi. unfold letter. rewrite !h_row_get by assumption. rewrite !Nat.eqb_refl.
      rewrite (proj2 (Nat.eqb_neq (i + N) i)) by lia. unfold is_y in Hx. destruct (vget r i), (vget r (i + N)); cbn; try exact I; discriminate.
  Qed.
  (** Only X and I, or only Z and I, on both qubits. *)
  Lemma cx_row_carries N a b r : length r = 2 * N -> a < N -> b < N -> a <> b ->
    (vget r a = false /\ vget r b = false \/ vget r (a + N) = false /\ vget r (b + N) = false) ->
    carries N (cmat rt N (written rt (SCx a b))) (check_to_pauli N r) (check_to_pauli N (cx_row N a b r)).
  Proof.
    intros Hr Ha Hb Hab H. apply cx_gate_carries; try assumption; try apply ctp_length.
    - intros j Hja Hjb. apply ctp_same. intro Hjn. unfold letter. rewrite !cx_row_get by assumption.
      rewrite (proj2 (Nat.eqb_neq j (b + N))) by lia. rewrite (proj2 (Nat.eqb_neq j a)) by exact Hja.
      rewrite (proj2 (Nat.eqb_neq (j + N) (b + N))) by lia. rewrite (proj2 (Nat.eqb_neq (j + N) a)) by lia. reflexivity.
    - rewrite !ctp_letter by assumption. unfold letter. rewrite !cx_row_get by assumption. rewrite !Nat.eqb_refl.
      rewrite (proj2 (Nat.eqb_neq a (b + N))), (proj2 (Nat.eqb_neq (a + N) (b + N))), (proj2 (Nat.eqb_neq (a + N) a)),
        (proj2 (Nat.eqb_neq b (b + N))), (proj2 (Nat.eqb_neq b a)) by lia.
      apply cx_table. destruct H as [[H1 H2]|[H1 H2]]; rewrite H1, H2.
      + destruct (vget r (a + N)), (vget r (b + N)); exact I.
      + destruct (vget r a), (vget r b); exact I.
  Qed.
End Rows.
