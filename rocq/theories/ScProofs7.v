(** The symmetry strings of a stabilized circuit, and the rule by which its filter keeps outcomes. *)
From Coq Require Import Bool List Arith ZArith QArith Lia.
From Verif Require Import Coeff Sqrt2 MatSpec PauliModel CircuitModel TomoModel CircuitSpec CountsProofs StabModel StabSpec StabProofs StabProofs2 StabProofs3 StabProofs4 SfModel ScModel ScSpec
  RdmSpec PlanSpec ScProofs2 ScProofs4 ScProofs5.
Import ListNotations.
Local Open Scope nat_scope.

Lemma zcount_seq (f : nat -> pauli) l : zcount (map f l) = length (filter (fun i => match f i with PZ => true | _ => false end) l).
Proof. unfold zcount. induction l as [|i l IH]; [reflexivity|]. cbn [map filter]. destruct (f i); cbn [length]; now rewrite IH. Qed.
Lemma count_seq (v : vec) : count v = length (filter (fun i => nth i v false) (seq 0 (length v))).
Proof.
  unfold count. induction v as [|x v IH]; [reflexivity|]. cbn [length seq]. rewrite <- seq_shift.
  assert (E : forall l, filter (fun i => nth i (x :: v) false) (map S l) = map S (filter (fun i => nth i v false) l)).
  { induction l as [|i l IHl]; [reflexivity|]. change (map S (i :: l)) with (S i :: map S l). cbn [filter]. rewrite IHl. change (nth (S i) (x :: v) false) with (nth i v false). now destruct (nth i v false). }
  cbn [filter]. rewrite E. change (nth 0 (x :: v) false) with x. destruct x; cbn [length]; now rewrite map_length, IH.
Qed.
Lemma ctp_zcount N r : length r = 2 * N -> (forall q, q < N -> vget r (q + N) = false) -> zcount (check_to_pauli N r) = count (firstn N r).
Proof.
  intros L H. unfold check_to_pauli. rewrite zcount_seq, count_seq, firstn_length. replace (Nat.min N (length r)) with N by lia.
  f_equal. apply filter_ext_in. intros i Hi. apply in_seq in Hi. rewrite H by lia. unfold vget.
  rewrite <- (firstn_skipn N r) at 1. rewrite app_nth1 by (rewrite firstn_length; lia). now destruct (nth i (firstn N r) false).
Qed.
Lemma count_none l : (forall i, i < length l -> nth i l false = false) -> count l = 0.
Proof.
  induction l as [|x l IH]; intro H; [reflexivity|]. pose proof (H 0 ltac:(cbn; lia)) as E. cbn in E. subst x. unfold count. cbn [filter]. apply IH. intros i Hi. apply (H (S i)). cbn. lia.
Qed.
Theorem symmetries : forall N b ps fuel, length b = N -> (forall p, In p ps -> agrees p b) -> 2 * N * N + 6 < fuel ->
  exists sc, stabilized_circuit fuel N ps = Some sc /\ forall z, In z (sc_zz sc) <-> In z (null_basis N ps) /\ diagonal z /\ 1 < zcount z.
Proof.
  intros N b ps fuel Lb A Fu. destruct (gaussian_elimination N (parity_matrix N ps)) as [E piv] eqn:GE.
  destruct (whole N b ps E piv Lb A GE Sqrt2.GaussR Sqrt2.rrt Sqrt2.rrt_sq fuel Fu) as (gs & m3 & ES & _).
  eexists. split; [exact ES|]. cbn [sc_zz]. intro z. rewrite (null_basis_eq N ps E piv GE).
  assert (Z : forall c, z_type N (nullv (2 * N) E piv c) = true <-> diagonal (check_to_pauli N (nullv (2 * N) E piv c)) /\ 1 < zcount (check_to_pauli N (nullv (2 * N) E piv c))).
  { intro c. set (r := nullv (2 * N) E piv c). assert (Lr : length r = 2 * N) by apply null_entries_length. unfold z_type. rewrite andb_true_iff, Nat.eqb_eq, Nat.ltb_lt. split.
    - intros [X C]. assert (H : forall q, q < N -> vget r (q + N) = false).
      { intros q Hq. unfold vget. rewrite Nat.add_comm, <- nth_skipn_b. now apply count_zero. }
      split; [now apply ctp_diagonal|]. now rewrite ctp_zcount.
    - intros [D C]. assert (H : forall q, q < N -> vget r (q + N) = false).
      { intros q Hq. pose proof (ctp_letter N r q Hq) as Q. assert (I : In (nth q (check_to_pauli N r) PI) (check_to_pauli N r)) by (apply nth_In; rewrite ctp_length; exact Hq).
        apply D in I. rewrite Q in I. unfold letter in I. destruct (vget r q), (vget r (q + N)); destruct I; congruence. }
      rewrite ctp_zcount in C by assumption. split; [|exact C]. apply count_none. intros i Hi. rewrite skipn_length in Hi. rewrite nth_skipn_b. specialize (H i ltac:(lia)). unfold vget in H. now rewrite Nat.add_comm. }
  rewrite !map_map, !in_map_iff. split.
  - intros (c & <- & Hc). apply filter_In in Hc. destruct Hc as [Hf Hz]. split; [now exists c|]. now apply Z.
  - intros [(c & <- & Hc) H]. exists c. split; [reflexivity|]. apply filter_In. split; [exact Hc|]. now apply Z.
Qed.

Lemma signs_spec Nq TM zz ms k v : length k = Nq -> v <> 0%Z -> map (fun z => pget z TM) zz = map Some ms -> (forall m, In m ms -> length m = Nq) ->
  symmetry_signs Nq TM zz k v = Some (map (fun m => if outcome_parity m (rev k) then -1 else 1)%Z ms).
Proof.
  intros Lk Hv. revert ms. induction zz as [|z zz IH]; intros [|m ms] E L; try discriminate; [reflexivity|]. cbn [map] in E. injection E as E1 E2. cbn [symmetry_signs map]. rewrite E1.
  rewrite (IH ms E2 (fun x Hx => L x (or_intror Hx))). unfold measure_one. pose proof (det_phase_spec m 0 k 1%Z) as P. cbn [Z.of_nat skipn] in P. rewrite <- Lk at 1.
  rewrite P by (cbn; rewrite Lk; specialize (L m (or_introl eq_refl)); lia). destruct (Z.eqb_spec v 0) as [Q|_]; [contradiction|]. reflexivity.
Qed.
Theorem encoded_rule : forall Nq sc ms l, 1 <= length (sc_zz sc) <= 3 -> map (fun z => pget z (sc_TM sc)) (sc_zz sc) = map Some ms -> (forall m, In m ms -> length m = Nq) ->
  (forall k v, In (k, v) l -> length k = Nq /\ v <> 0%Z) ->
  filter_encoded Nq sc l = Some (filter (fun kv => kept (map (fun m => outcome_parity m (rev (fst kv))) ms)) l).
Proof.
  intros Nq sc ms l Hn E L Hl. unfold filter_encoded. destruct (sc_zz sc) as [|z0 zz0] eqn:EZ; [cbn in Hn; lia|]. rewrite <- EZ in *. clear EZ z0 zz0. set (zz := sc_zz sc) in *. clearbody zz.
  assert (LM : length ms = length zz) by (rewrite <- (map_length Some ms), <- E, map_length; reflexivity).
  induction l as [|[k v] l IH]; [reflexivity|]. cbn [keep_encoded filter fst]. destruct (Hl k v (or_introl eq_refl)) as [Lk Hv].
  rewrite (signs_spec Nq (sc_TM sc) zz ms k v Lk Hv E L), (IH (fun k v H => Hl k v (or_intror H))). rewrite <- LM in *. clear -Hn.
  destruct ms as [|m1 [|m2 [|m3 [|m4 ms]]]]; cbn [length] in Hn; try lia; cbn [length map wanted kept];
    repeat match goal with |- context [outcome_parity ?m ?x] => destruct (outcome_parity m x) end; reflexivity.
Qed.

Lemma id_spec s : forallb (fun x => pauli_eqb x PI) s = true <-> s = repeat PI (length s).
Proof.
  induction s as [|x s IH]; [now split|]. cbn [forallb length repeat]. rewrite andb_true_iff, IH. split.
  - intros [E H]. rewrite <- H. destruct x; try discriminate. reflexivity.
  - intro H. injection H as H1 H2. rewrite H1. now split.
Qed.
Theorem group_members : forall k mapping s, In s (group_of k mapping) <-> In (s, k) mapping /\ s <> repeat PI (length s).
Proof.
  intros k mapping s. unfold group_of. rewrite in_map_iff. split.
  - intros ((s', m) & <- & H). apply filter_In in H. cbn [fst snd] in *. destruct H as [H1 H2]. apply andb_true_iff in H2. destruct H2 as [H2 H3]. apply TomoProofs.pstr_eqb_spec in H2. subst m.
    split; [exact H1|]. intro E. apply id_spec in E. rewrite E in H3. discriminate.
  - intros [H N]. exists (s, k). split; [reflexivity|]. apply filter_In. cbn [fst snd]. split; [exact H|]. apply andb_true_iff. split; [now apply TomoProofs.pstr_eqb_spec|].
    destruct (forallb _ s) eqn:E; [|reflexivity]. apply id_spec in E. contradiction.
Qed.
