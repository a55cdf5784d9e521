(** Fitness of a choice of qubits. *)
From Coq Require Import Bool List Arith QArith Lia Lqa Qfield Permutation.
From Verif Require Import UtilModel UtilSpec UtilSpec2 UtilProofs.
Import ListNotations.
Local Open Scope Q_scope.

Lemma unit_mul x y : unit_rate x -> unit_rate y -> unit_rate (x * y).
Proof. unfold unit_rate. intros [A B] [E F]. split; [apply Qmult_le_0_compat; assumption|]. nra. Qed.
Lemma unit_compl x : unit_rate x -> unit_rate (1 - x).
Proof. unfold unit_rate. lra. Qed.
Lemma unit_34 x : unit_rate x -> unit_rate (1 - (3 # 4) * x).
Proof. unfold unit_rate. lra. Qed.
Lemma unit_eq x y : x == y -> unit_rate x -> unit_rate y.
Proof. unfold unit_rate. intros E [A B]. rewrite E in A, B. split; assumption. Qed.
Lemma injZ_pos n : (0 < n)%nat -> 0 < inject_Z (Z.of_nat n).
Proof. intro H. change 0 with (inject_Z 0). rewrite <- Zlt_Qlt. lia. Qed.
Lemma injZ_S n : inject_Z (Z.of_nat (S n)) == 1 + inject_Z (Z.of_nat n).
Proof. rewrite Nat2Z.inj_succ, <- Z.add_1_r, inject_Z_plus. ring. Qed.
Lemma qsum_bounds l : (forall x, In x l -> unit_rate x) -> 0 <= qsum l <= inject_Z (Z.of_nat (length l)).
Proof.
  induction l as [|a l IH]; intro H; cbn [qsum fold_right length]; [split; apply Qle_refl|].
  fold (qsum l). destruct (H a (or_introl eq_refl)). destruct (IH (fun x I => H x (or_intror I))). rewrite injZ_S. lra.
Qed.
Lemma average_unit l : l <> [] -> (forall x, In x l -> unit_rate x) -> unit_rate (qsum l / inject_Z (Z.of_nat (length l))).
Proof.
  intros Hl H. destruct (qsum_bounds l H) as [A B].
  assert (P : 0 < inject_Z (Z.of_nat (length l))) by (apply injZ_pos; destruct l; [contradiction|cbn; lia]).
  split; [apply Qle_shift_div_l; lra|apply Qle_shift_div_r; lra].
Qed.

(** ** fitness_qubits *)
Lemma fit_cx_unit cx qubits c : (forall a b e, cx a b = Some e -> unit_rate e) -> fit_cx cx qubits = Some c -> unit_rate c.
Proof.
  intro H. revert c. induction qubits as [|a [|b r] IH]; intros c.
  - intro E. injection E as <-. unfold unit_rate. lra.
  - intro E. injection E as <-. unfold unit_rate. lra.
  - change (fit_cx cx (a :: b :: r)) with (match cx a b, fit_cx cx (b :: r) with Some e, Some f => Some ((1 - e) * f) | _, _ => None end).
    destruct (cx a b) as [e|] eqn:Ee; [|discriminate]. destruct (fit_cx cx (b :: r)) as [f|]; [|discriminate].
    intro E. injection E as <-. apply unit_mul; [exact (unit_compl _ (H a b e Ee))|apply IH; reflexivity].
Qed.
Lemma fit_ro_sum ro qubits r : fit_ro ro qubits = Some r ->
  exists es, length es = length qubits /\ r == qsum (map (fun e => 1 - e) es) /\ Forall2 (fun q e => ro q = Some e) qubits es.
Proof.
  revert r. induction qubits as [|a l IH]; intros r; cbn [fit_ro].
  - intro E. injection E as <-. exists []. repeat split; constructor.
  - destruct (ro a) as [e|] eqn:Ee; [|discriminate]. destruct (fit_ro ro l) as [f|]; [|discriminate]. intro E. injection E as <-.
    destruct (IH f eq_refl) as [es [L [S F]]]. exists (e :: es). cbn [length map qsum fold_right]. fold (qsum (map (fun e => 1 - e) es)).
    split; [now rewrite L|]. split; [rewrite S; reflexivity|constructor; assumption].
Qed.
Theorem fitness_qubits_unit cx ro qubits v : (forall a b e, cx a b = Some e -> unit_rate e) -> (forall a e, ro a = Some e -> unit_rate e) ->
  fitness_qubits cx ro qubits = Some v -> unit_rate v.
Proof.
  intros H1 H2. unfold fitness_qubits. destruct (fit_cx cx qubits) as [c|] eqn:Ec; [|discriminate].
  destruct (fit_ro ro qubits) as [r|] eqn:Er; [|discriminate]. destruct (length qubits) as [|n] eqn:L; [discriminate|]. intro E. injection E as <-.
  destruct (fit_ro_sum ro qubits r Er) as [es [Le [S F]]]. apply unit_compl, unit_mul; [exact (fit_cx_unit cx qubits c H1 Ec)|].
  assert (X : r * (1 / inject_Z (Z.of_nat (Datatypes.S n))) == qsum (map (fun e => 1 - e) es) / inject_Z (Z.of_nat (length (map (fun e => 1 - e) es)))).
  { rewrite S, map_length, Le, L. unfold Qdiv. ring. }
  apply (unit_eq _ _ (Qeq_sym _ _ X)), average_unit.
  - intro Z. apply map_eq_nil in Z. subst es. cbn in Le. congruence.
  - intros x I. apply in_map_iff in I. destruct I as [e [<- I]]. apply unit_compl. clear - F I H2. revert I. induction F as [|q e' ? ? P F IH]; [intros []|]. intros [<-|I]; [apply (H2 q), P|apply IH, I].
Qed.

(** ** fitness_qasm *)
Lemma scale_at_spec i x l m : scale_at i x l = Some m -> length m = length l /\ (i < length l)%nat /\ forall n, nth n m 0 == nth n l 0 * (if (i =? n)%nat then x else 1).
Proof.
  revert i m. induction l as [|y l IH]; intros i m; [destruct i; discriminate|].
  destruct i as [|i]; cbn [scale_at].
  - intro E. injection E as <-. split; [reflexivity|]. split; [cbn; lia|]. intros [|n]; cbn; ring.
  - destruct (scale_at i x l) as [m'|] eqn:E'; [|discriminate]. intro E. injection E as <-. destruct (IH i m' E') as [A [B C]].
    cbn [length]. split; [now rewrite A|]. split; [lia|]. intros [|n]; cbn [nth Nat.eqb]; [ring|apply C].
Qed.
Lemma fit_step_spec D qubits f ins g : fit_step D qubits (Some f) ins = Some g ->
  length g = length f /\ forall n, nth n g 0 == nth n f 0 * factor D qubits ins n.
Proof.
  destruct ins as [m|a b|u m]; cbn [fit_step factor bind]; unfold at_qubit, fit_step; cbn [bind].
  - destruct (nth_error qubits m) as [q|]; cbn [bind]; [|discriminate]. destruct (d_ro D q) as [e|]; cbn [bind rate]; [|discriminate].
    intro E. destruct (scale_at_spec _ _ _ _ E) as [A [_ B]]. split; [exact A|]. intro n. rewrite B. destruct (m =? n)%nat; reflexivity.
  - destruct (nth_error qubits a) as [qa|]; cbn [bind]; [|discriminate]. destruct (nth_error qubits b) as [qb|]; cbn [bind]; [|discriminate].
    destruct (d_cx D qa qb) as [e|]; cbn [bind rate]; [|discriminate].
    destruct (scale_at a _ f) as [f'|] eqn:E1; cbn [bind]; [|discriminate]. intro E2.
    destruct (scale_at_spec _ _ _ _ E1) as [A1 [_ B1]]. destruct (scale_at_spec _ _ _ _ E2) as [A2 [_ B2]].
    split; [now rewrite A2|]. intro n. rewrite B2, B1. destruct (a =? n)%nat, (b =? n)%nat; ring.
  - destruct (nth_error qubits m) as [q|]; cbn [bind]; [|discriminate]. destruct (d_u D u q) as [e|]; cbn [bind rate]; [|discriminate].
    intro E. destruct (scale_at_spec _ _ _ _ E) as [A [_ B]]. split; [exact A|]. intro n. rewrite B. destruct (m =? n)%nat; reflexivity.
Qed.
Lemma fit_none D qubits prog : fold_left (fit_step D qubits) prog None = None.
Proof. induction prog; [reflexivity|exact IHprog]. Qed.
Lemma fit_fold D qubits prog : forall f g, fold_left (fit_step D qubits) prog (Some f) = Some g ->
  length g = length f /\ forall n, nth n g 0 == nth n f 0 * qprod (map (fun ins => factor D qubits ins n) prog).
Proof.
  induction prog as [|ins prog IH]; intros f g; cbn [fold_left map qprod fold_right].
  - intro E. injection E as <-. split; [reflexivity|]. intro n. ring.
  - destruct (fit_step D qubits (Some f) ins) as [h|] eqn:E1; [|rewrite fit_none; discriminate]. intro E2.
    destruct (fit_step_spec D qubits f ins h E1) as [A1 B1]. destruct (IH h g E2) as [A2 B2]. split; [congruence|]. intro n. rewrite B2, B1.
    fold (qprod (map (fun ins => factor D qubits ins n) prog)). ring.
Qed.
Lemma qsum_nth (f : nat -> Q) (l : list Q) : (forall n, (n < length l)%nat -> nth n l 0 == f n) -> qsum l == qsum (map f (seq 0 (length l))).
Proof.
  revert f. induction l as [|a l IH]; intros f H; [reflexivity|]. cbn [length seq map qsum fold_right]. fold (qsum l). fold (qsum (map f (seq 1 (length l)))).
  rewrite (H 0%nat ltac:(cbn; lia)). rewrite (IH (fun n => f (S n))) by (intros n Hn; apply (H (S n)); cbn; lia). rewrite <- seq_shift, map_map. reflexivity.
Qed.
Lemma nth_repeat_lt n i (x : Q) : (i < n)%nat -> nth i (repeat x n) 0 = x.
Proof. revert i. induction n as [|n IH]; intros [|i] H; cbn; try lia; [reflexivity|apply IH; lia]. Qed.
Theorem fitness_qasm_value D prog qubits v : fitness_qasm D prog false qubits = Some v ->
  v == 1 - qsum (map (fun n => qprod (map (fun ins => factor D qubits ins n) prog)) (seq 0 (length qubits))) / inject_Z (Z.of_nat (length qubits)).
Proof.
  unfold fitness_qasm, bind at 1. destruct (fold_left _ _ _) as [f|] eqn:E; [|discriminate].
  destruct (fit_fold D qubits prog _ _ E) as [L B]. rewrite repeat_length in L.
  destruct (length qubits) as [|n] eqn:Lq; [discriminate|]. intro E'. injection E' as <-.
  assert (S : qsum f == qsum (map (fun n => qprod (map (fun ins => factor D qubits ins n) prog)) (seq 0 (length f)))).
  { apply qsum_nth. intros i Hi. rewrite B, L in *. rewrite nth_repeat_lt; [ring|exact Hi]. }
  rewrite S, L. reflexivity.
Qed.
Lemma rate_unit o : (forall e, o = Some e -> unit_rate e) -> unit_rate (rate o).
Proof. destruct o as [e|]; intro H; cbn [rate]; [apply H; reflexivity|unfold unit_rate; lra]. Qed.
Lemma factor_unit D qubits ins n : unit_device D -> unit_rate (factor D qubits ins n).
Proof.
  intros [H1 [H2 H3]]. assert (U : unit_rate 1) by (unfold unit_rate; lra).
  destruct ins as [m|a b|u m]; cbn [factor]; unfold at_qubit.
  - destruct (m =? n)%nat; [|exact U]. apply unit_compl, rate_unit. intros e. destruct (nth_error qubits m); [apply H2|discriminate].
  - assert (V : unit_rate (rate (bind (nth_error qubits a) (fun qa => bind (nth_error qubits b) (d_cx D qa))))).
    { apply rate_unit. intros e. destruct (nth_error qubits a); [|discriminate]. destruct (nth_error qubits b); [apply H1|discriminate]. }
    apply unit_mul; [destruct (a =? n)%nat|destruct (b =? n)%nat]; try exact U; apply unit_34, V.
  - destruct (m =? n)%nat; [|exact U]. apply unit_compl, rate_unit. intros e. destruct (nth_error qubits m); [apply H3|discriminate].
Qed.
Lemma qprod_unit l : (forall x, In x l -> unit_rate x) -> unit_rate (qprod l).
Proof.
  induction l as [|a l IH]; intro H; cbn [qprod fold_right]; [unfold unit_rate; lra|].
  apply unit_mul; [apply H; now left|apply IH; intros x I; apply H; now right].
Qed.
Theorem fitness_qasm_unit D prog qubits v : unit_device D -> fitness_qasm D prog false qubits = Some v -> unit_rate v.
Proof.
  intros HD E. assert (NE : qubits <> []).
  { intros ->. unfold fitness_qasm in E. destruct (fold_left _ _ _); discriminate. }
  apply fitness_qasm_value in E. apply (unit_eq _ _ (Qeq_sym _ _ E)), unit_compl.
  set (l := map _ (seq 0 (length qubits))). assert (Ll : length l = length qubits) by (unfold l; now rewrite map_length, seq_length).
  rewrite <- Ll. apply average_unit.
  - intro Z. rewrite Z in Ll. destruct qubits; [contradiction|discriminate].
  - unfold l. intros x I. apply in_map_iff in I. destruct I as [n [<- _]]. apply qprod_unit. intros y J. apply in_map_iff in J.
    destruct J as [ins [<- _]]. apply factor_unit, HD.
Qed.

(** ** fitness_random_qasm *)
Lemma unique_NoDup l : unique l = true <-> NoDup l.
Proof.
  induction l as [|a l IH]; cbn [unique]; [split; [constructor|reflexivity]|]. rewrite andb_true_iff, IH, negb_true_iff, mem_not. split.
  - intros [A B]. constructor; assumption.
  - intro H. inversion H; subst. split; assumption.
Qed.
Lemma dist1 cm a b : a <> b -> adj cm a b -> dist cm a b 1.
Proof. intros H A. split; [apply steps1; exact A|]. intros m L. replace m with 0%nat by lia. exact H. Qed.
Lemma fit_link_spec cm qubits : NoDup qubits -> forall f y, fit_link (neighbor cm) f qubits = Some y -> exists x, closeness cm qubits x /\ y == f * x.
Proof.
  induction qubits as [|q1 [|q2 rest] IH]; intros ND f y.
  - intro E. injection E as <-. exists 1. split; [constructor|ring].
  - intro E. injection E as <-. exists 1. split; [constructor|ring].
  - change (fit_link (neighbor cm) f (q1 :: q2 :: rest)) with (if (16 <=? q1)%nat then None
    else fit_link (neighbor cm) (if mem q2 (neighbor cm q1) then f else if mem q2 (two_steps (neighbor cm) q1) then f * (1 / 2)
                      else if mem q2 (three_steps (neighbor cm) q1) then f * (1 / 3) else 0) (q2 :: rest)).
    destruct (16 <=? q1)%nat; [discriminate|]. inversion ND as [|? ? Hn ND']; subst. intro E.
    destruct (IH ND' _ y E) as [x [C V]]. clear IH E.
    assert (Hq : q1 <> q2) by (intros ->; apply Hn; now left).
    destruct (mem q2 (neighbor cm q1)) eqn:M1; [|destruct (mem q2 (two_steps (neighbor cm) q1)) eqn:M2; [|destruct (mem q2 (three_steps (neighbor cm) q1)) eqn:M3]].
    + apply mem_In, neighbor_adj in M1. exists (1 / inject_Z (Z.of_nat 1) * x). split; [apply Cl_near; [apply dist1; assumption|lia|exact C]|]. rewrite V. cbn. field.
    + apply mem_In, two_steps_spec in M2. exists (1 / inject_Z (Z.of_nat 2) * x). split; [apply Cl_near; [exact M2|lia|exact C]|]. rewrite V. cbn. field.
    + apply mem_In, three_steps_sound in M3. apply mem_not in M2. rewrite two_steps_spec in M2. destruct M3 as [M3|M3]; [contradiction|].
      exists (1 / inject_Z (Z.of_nat 3) * x). split; [apply Cl_near; [exact M3|lia|exact C]|]. rewrite V. cbn. field.
    + exists 0. split; [|rewrite V; ring]. apply (Cl_far cm q1 q2 rest x); [|exact C]. apply mem_not in M1, M2, M3.
      rewrite two_steps_spec in M2. intros d Hd Dd. assert (d = 0 \/ d = 1 \/ d = 2 \/ d = 3)%nat as [->|[->|[->| ->]]] by lia.
      * exact (Hq (proj1 Dd)).
      * apply M1, neighbor_adj, steps1, (proj1 Dd).
      * exact (M2 Dd).
      * apply M3, three_steps_complete, Dd.
Qed.
Lemma closeness_unit cm l x : closeness cm l x -> unit_rate x.
Proof.
  induction 1 as [|q|a b l d x D L C IH|a b l x F C IH]; unfold unit_rate in *; try lra.
  apply unit_mul; [|exact IH]. unfold unit_rate. assert (d = 1 \/ d = 2 \/ d = 3)%nat as [->|[->| ->]] by lia; split; vm_compute; discriminate.
Qed.
Lemma dist_unique cm a b d e : dist cm a b d -> dist cm a b e -> d = e.
Proof. intros [A B] [A' B']. destruct (Nat.lt_trichotomy d e) as [L|[->|L]]; [exfalso; exact (B' d L A)|reflexivity|exfalso; exact (B e L A')]. Qed.
Lemma closeness_unique cm l x y : closeness cm l x -> closeness cm l y -> x == y.
Proof.
  intro H. revert y. induction H as [|q|a b l d x D L C IH|a b l x F C IH]; intros y H'; inversion H'; subst; try reflexivity.
  - rewrite (dist_unique cm a b d d0 D) by assumption. rewrite (IH x0) by assumption. reflexivity.
  - exfalso. exact (H3 d ltac:(lia) D).
  - exfalso. exact (F d ltac:(lia) H2).
Qed.
Theorem random_qasm_value cm D prog qubits v : NoDup qubits -> fitness_random_qasm (neighbor cm) D prog false qubits = Some v ->
  exists x f, closeness cm qubits x /\ fitness_qasm D prog false qubits = Some f /\ v == (1 # 2) * (1 - x) + (1 # 2) * f.
Proof.
  intros ND. unfold fitness_random_qasm. rewrite (proj2 (unique_NoDup qubits) ND). cbn [negb].
  destruct (fit_link (neighbor cm) 1 qubits) as [y|] eqn:E1; cbn [bind]; [|discriminate]. destruct (fitness_qasm D prog false qubits) as [f|]; cbn [bind]; [|discriminate].
  intro E. injection E as <-. destruct (fit_link_spec cm qubits ND 1 y E1) as [x [C V]]. exists x, f. split; [exact C|]. split; [reflexivity|]. rewrite V. ring.
Qed.
Theorem random_qasm_repeated nb D prog verbose qubits : ~ NoDup qubits -> fitness_random_qasm nb D prog verbose qubits = Some 1.
Proof. intro H. unfold fitness_random_qasm. destruct (unique qubits) eqn:E; [apply unique_NoDup in E; contradiction|reflexivity]. Qed.
Theorem random_qasm_unit cm D prog qubits v : unit_device D -> fitness_random_qasm (neighbor cm) D prog false qubits = Some v -> unit_rate v.
Proof.
  intros HD E. destruct (unique qubits) eqn:U.
  - apply unique_NoDup in U. destruct (random_qasm_value cm D prog qubits v U E) as [x [f [C [F V]]]].
    apply closeness_unit in C. apply fitness_qasm_unit in F; [|exact HD]. unfold unit_rate in *. rewrite V. lra.
  - rewrite random_qasm_repeated in E by (rewrite <- unique_NoDup; congruence). injection E as <-. unfold unit_rate. lra.
Qed.

(** ** Mutations *)
Lemma transfer_spec i cur sw r : parameter_transfer i cur sw = Some r ->
  length r = length cur /\ nth_error r i = nth_error sw i /\ forall j, j <> i -> nth_error r j = nth_error cur j.
Proof.
  unfold parameter_transfer. destruct (nth_error sw i) as [x|]; [|discriminate]. destruct (Nat.ltb_spec i (length cur)) as [L|]; [|discriminate].
  intro E. injection E as <-. revert i L. induction cur as [|a cur IH]; intros i L; [cbn in L; lia|]. destruct i as [|i].
  - cbn. split; [reflexivity|]. split; [reflexivity|]. intros [|j] H; [contradiction|reflexivity].
  - cbn [length] in L. destruct (IH i ltac:(lia)) as [A [B C]]. cbn [firstn skipn app length nth_error] in *. split; [now rewrite A|]. split; [exact B|].
    intros [|j] H; [reflexivity|]. apply C. lia.
Qed.
Lemma full_mutate_spec r d a b c Nq : (forall i, r i <= c) -> (forall i, (d i < Nq)%nat) -> forall cur i leader l, full_mutate r d a b c i cur leader = Some l ->
  length l = length cur /\ forall j x, nth_error l j = Some x -> nth_error cur j = Some x \/ nth_error leader (i + j)%nat = Some x \/ (x < Nq)%nat.
Proof.
  intros Hr Hd. induction cur as [|y cur IH]; intros i leader l; cbn [full_mutate].
  - intro E. injection E as <-. split; [reflexivity|]. intros [|j] x; discriminate.
  - destruct (full_mutate r d a b c (S i) cur leader) as [v|] eqn:E; [|destruct (if Qle_bool (r i) a then _ else _); discriminate].
    destruct (IH (S i) leader v E) as [A B].
    assert (X : forall u, (u = y \/ nth_error leader i = Some u \/ (u < Nq)%nat) -> length (u :: v) = length (y :: cur) /\
      forall j x, nth_error (u :: v) j = Some x -> nth_error (y :: cur) j = Some x \/ nth_error leader (i + j)%nat = Some x \/ (x < Nq)%nat).
    { intros u U. split; [cbn; now rewrite A|]. intros [|j] x; cbn [nth_error].
      - intro Z. injection Z as <-. rewrite Nat.add_0_r. destruct U as [->|U]; [now left|now right].
      - intro Z. replace (i + S j)%nat with (S i + j)%nat by lia. apply B, Z. }
    destruct (Qle_bool (r i) a); [intro Z; injection Z as <-; apply (X y); now left|].
    destruct (Qle_bool (r i) b).
    + destruct (nth_error leader i) as [u|] eqn:U; [|discriminate]. intro Z. injection Z as <-. apply (X u). right. now left.
    + rewrite (proj2 (Qle_bool_iff (r i) c) (Hr i)). intro Z. injection Z as <-. apply (X (d i)). right. right. apply Hd.
Qed.
(** The CNOT errors do not depend on the direction. *)
Lemma cx_sym gates a b : cx_errors gates a b = cx_errors gates b a.
Proof.
  unfold cx_errors. generalize (None : option Q). induction gates as [|[[x y] v] g IH]; intro acc; [reflexivity|]. cbn [fold_left].
  replace (((x =? b) && (y =? a)) || ((y =? b) && (x =? a)))%nat with (((x =? a) && (y =? b)) || ((y =? a) && (x =? b)))%nat; [apply IH|].
  destruct (x =? a)%nat, (x =? b)%nat, (y =? a)%nat, (y =? b)%nat; reflexivity.
Qed.
