(** Properties C130 to C134: choosing qubits of a device. *)
From Coq Require Import Bool List Arith QArith Lia Lqa Permutation.
From Verif Require Import UtilModel UtilSpec UtilSpec2 UtilProofs UtilProofs2 UtilProofs3.
Import ListNotations.
Local Open Scope nat_scope.

(** * C130 *)
(** neighbor[k] are the coupled qubits, two_steps[k] exactly those at distance 2, each once; three_steps[k] holds every
    qubit at distance 3 and otherwise only qubits at distance 2; devices with a qubit number above 15 raise. *)
Theorem C130_tables : forall (cm : list (nat * nat)) (nb : nat -> list nat), neighbors cm = Some nb -> forall k x,
  (In x (nb k) <-> adj cm k x) /\
  (In x (two_steps nb k) <-> dist cm k x 2) /\ NoDup (two_steps nb k) /\ NoDup (three_steps nb k) /\
  (dist cm k x 3 -> In x (three_steps nb k)) /\
  (In x (three_steps nb k) -> dist cm k x 2 \/ dist cm k x 3).
Proof.
  intros cm nb H k x. unfold neighbors in H. destruct (forallb _ cm); [|discriminate]. injection H as <-.
  split; [apply neighbor_adj|]. split; [apply two_steps_spec|]. split; [apply two_steps_nodup|]. split; [apply three_steps_nodup|].
  split; [apply three_steps_complete|apply three_steps_sound].
Qed.
Print Assumptions C130_tables.
Theorem C130_large_device : forall (cm : list (nat * nat)) a b, In (a, b) cm -> 16 <= a \/ 16 <= b -> neighbors cm = None.
Proof.
  intros cm a b I H. unfold neighbors. destruct (forallb _ cm) eqn:E; [|reflexivity]. rewrite forallb_forall in E. specialize (E (a, b) I).
  cbn [fst snd] in E. apply andb_prop in E. destruct E as [E1 E2]. apply Nat.ltb_lt in E1, E2. lia.
Qed.
Print Assumptions C130_large_device.
Example C130_case : match neighbors [(0, 1); (1, 2); (2, 3); (3, 4)] with
  | Some nb => (nb 1, two_steps nb 0, three_steps nb 0, two_steps nb 1, three_steps nb 1) = ([0; 2], [2], [3], [3], [4]) | None => False end
  /\ neighbors [(0, 1); (15, 16)] = None.
Proof. split; reflexivity. Qed.

(** "three_steps[k] are the qubits at distance 3" is false: on a ring of five it lists a qubit at distance 2. *)
Theorem C131_three_steps_refuted : exists (cm : list (nat * nat)) nb k x, neighbors cm = Some nb /\
  In x (three_steps nb k) /\ dist cm k x 2 /\ ~ dist cm k x 3.
Proof.
  exists [(0, 1); (1, 2); (2, 3); (3, 4); (4, 0)], (neighbor [(0, 1); (1, 2); (2, 3); (3, 4); (4, 0)]), 0, 3.
  assert (D : dist [(0, 1); (1, 2); (2, 3); (3, 4); (4, 0)] 0 3 2) by (apply two_steps_spec; vm_compute; auto).
  split; [reflexivity|]. split; [vm_compute; auto|]. split; [exact D|]. intro D'. pose proof (dist_unique _ _ _ _ _ D D'). discriminate.
Qed.
Print Assumptions C131_three_steps_refuted.

(** * C132 *)
(** Whatever the random numbers, a sequence that is returned consists of N different qubits, neighbours in it are coupled. *)
Theorem C132_simple_path : forall (cm : list (nat * nat)) (Nq N : nat) (choice : nat -> nat) (shuffle : nat -> list nat -> list nat) (fuel : nat)
    (strand l : list nat),
  (forall i x, Permutation (shuffle i x) x) ->
  generate_random_sequence (neighbor cm) Nq N choice shuffle fuel strand = Done l ->
  NoDup l /\ chain cm l /\ length l = N.
Proof. intros cm Nq N choice shuffle fuel strand l H E. destruct (generate_path cm Nq N choice shuffle H fuel strand l E) as [[A B] C]. auto. Qed.
Print Assumptions C132_simple_path.
(** Other ways to make a sequence: one position is taken from the other parent, or every position is kept, taken from the
    leader or drawn anew. *)
Theorem C132_parameter_transfer : forall i (current switch r : list nat), parameter_transfer i current switch = Some r ->
  length r = length current /\ nth_error r i = nth_error switch i /\ forall j, j <> i -> nth_error r j = nth_error current j.
Proof. exact transfer_spec. Qed.
Print Assumptions C132_parameter_transfer.
Theorem C132_full_mutation : forall (r : nat -> Q) (d : nat -> nat) (m0 m1 m2 : Q) Nq (current leader l : list nat),
  (forall i, r i <= m0 + m1 + m2)%Q -> (forall i, d i < Nq) -> full_mutate_sequence r d m0 m1 m2 current leader = Some l ->
  length l = length current /\ forall j x, nth_error l j = Some x -> nth_error current j = Some x \/ nth_error leader j = Some x \/ x < Nq.
Proof. intros r d m0 m1 m2 Nq current leader l Hr Hd. exact (full_mutate_spec r d _ _ _ Nq Hr Hd current 0 leader l). Qed.
Print Assumptions C132_full_mutation.
(** A path of five qubits; the walk starts in the middle, is stuck at both ends, and is retried. *)
Example C132_case : generate_random_sequence (neighbor [(0, 1); (1, 2); (2, 3); (3, 4)]) 5 4 (fun _ => 2) (fun _ l => l) 10 [] = Done [0; 1; 2; 3]
  /\ generate_random_sequence (neighbor [(0, 1); (1, 2); (2, 3); (3, 4)]) 5 4 (fun _ => 2) (fun _ l => rev l) 10 [] = Done [4; 3; 2; 1]
  /\ parameter_transfer 1 [4; 5; 6] [7; 8; 9] = Some [4; 8; 6]
  /\ full_mutate_sequence (fun i => nth i [1 # 2; 17 # 20; 19 # 20] 0%Q) (fun _ => 3) (8 # 10) (1 # 10) (1 # 10) [4; 5; 6] [7; 8; 9] = Some [4; 8; 3].
Proof. repeat split; reflexivity. Qed.

(** * C133 *)
(** "mutate_sequence keeps the chosen part of the sequence" is false: the part is always thrown away. *)
Theorem C133_strand_ignored : forall (nb : nat -> list nat) (Nq N : nat) choice shuffle (fuel r s : nat) (sq : list nat),
  mutate_sequence nb Nq N choice shuffle (S fuel) r s sq = generate_random_sequence nb Nq N choice shuffle (S fuel) [].
Proof. reflexivity. Qed.
Print Assumptions C133_strand_ignored.
Theorem C133_mutation_refuted : exists (cm : list (nat * nat)) choice shuffle (sq l : list nat),
  (forall i x, Permutation (shuffle i x) x) /\ simple_path cm sq /\
  mutate_sequence (neighbor cm) 4 2 choice shuffle 5 0 2 sq = Done l /\ forall x, In x sq -> ~ In x l.
Proof.
  exists [(0, 1); (2, 3)], (fun _ => 2), (fun _ l => l), [0; 1], [3; 2]. split; [intros; apply Permutation_refl|].
  split; [split; [repeat constructor; cbn; lia|cbn; split; [left; left; reflexivity|exact I]]|]. split; [reflexivity|].
  intros x [<-|[<-|[]]] H; cbn in H; lia.
Qed.
Print Assumptions C133_mutation_refuted.
(** "A sequence of any length that the device admits is found" is false: on a triangle the search for one qubit goes on for
    ever, for all random numbers. *)
Theorem C133_one_qubit_refuted : exists cm : list (nat * nat), forall choice shuffle, (forall i, choice i < 3) -> (forall i x, Permutation (shuffle i x) x) ->
  forall fuel strand, exists w, generate_random_sequence (neighbor cm) 3 1 choice shuffle fuel strand = Going w.
Proof. exists triangle. intros choice shuffle Hc Hs. exact (never choice shuffle Hc Hs). Qed.
Print Assumptions C133_one_qubit_refuted.
Example C133_case : (generate_random_sequence (neighbor triangle) 3 1 (fun _ => 0) (fun _ l => l) 0 [] = Going (MkWalk 0 true [])
  /\ generate_random_sequence (neighbor triangle) 3 2 (fun _ => 0) (fun _ l => l) 1 [] = Done [1; 0]).
Proof. split; reflexivity. Qed.

(** * C134 *)
Local Open Scope Q_scope.
(** fitness_qasm is 1 minus the average, over the program's qubits, of the product of the success rates of the instructions
    that touch the qubit. *)
Theorem C134_fitness_qasm : forall (D : device) (prog : list instr) (qubits : list nat) v, fitness_qasm D prog false qubits = Some v ->
  v == 1 - qsum (map (fun n => qprod (map (fun ins => factor D qubits ins n) prog)) (seq 0 (length qubits))) / inject_Z (Z.of_nat (length qubits)).
Proof. exact fitness_qasm_value. Qed.
Print Assumptions C134_fitness_qasm.
(** fitness_random_qasm is the mean of that and of 1 minus the product of the inverse distances of consecutive qubits; it is
    1 for a list with a repetition. *)
Theorem C134_fitness_random_qasm : forall (cm : list (nat * nat)) (D : device) (prog : list instr) (qubits : list nat) v,
  fitness_random_qasm (neighbor cm) D prog false qubits = Some v ->
  (NoDup qubits /\ exists x f, closeness cm qubits x /\ fitness_qasm D prog false qubits = Some f /\ v == (1 # 2) * (1 - x) + (1 # 2) * f)
  \/ (~ NoDup qubits /\ v = 1).
Proof.
  intros cm D prog qubits v E. destruct (unique qubits) eqn:U.
  - apply unique_NoDup in U. left. split; [exact U|]. apply random_qasm_value; assumption.
  - right. assert (N : ~ NoDup qubits) by (rewrite <- unique_NoDup; congruence). split; [exact N|]. rewrite random_qasm_repeated in E by exact N. congruence.
Qed.
Print Assumptions C134_fitness_random_qasm.
(** The inverse distances determine one number. *)
Theorem C134_closeness : forall cm l x y, closeness cm l x -> closeness cm l y -> x == y.
Proof. exact closeness_unique. Qed.
Print Assumptions C134_closeness.
(** With error rates between 0 and 1 all three fitness values lie between 0 and 1. *)
Theorem C134_range : forall (cm : list (nat * nat)) (D : device) (prog : list instr) (qubits : list nat) v, unit_device D ->
  fitness_qubits (d_cx D) (d_ro D) qubits = Some v \/ fitness_qasm D prog false qubits = Some v \/
  fitness_random_qasm (neighbor cm) D prog false qubits = Some v -> 0 <= v <= 1.
Proof.
  intros cm D prog qubits v HD [H|[H|H]].
  - destruct HD as [H1 [H2 _]]. exact (fitness_qubits_unit _ _ _ _ H1 H2 H).
  - exact (fitness_qasm_unit D prog qubits v HD H).
  - exact (random_qasm_unit cm D prog qubits v HD H).
Qed.
Print Assumptions C134_range.
(** The CNOT error is the same in both directions. *)
Theorem C134_direction : forall gates a b, cx_errors gates a b = cx_errors gates b a.
Proof. exact cx_sym. Qed.
Print Assumptions C134_direction.

Definition dev_ex : device := MkDev (cx_errors [(0, 1, 1 # 5); (1, 2, 1 # 10)]%nat) (fun q => if (q <? 3)%nat then Some (1 # 10) else None) (fun _ q => Some (1 # 100)).
Example C134_case : unit_device dev_ex
  /\ match fitness_qasm dev_ex [ICx 0 1; IRo 0; IRo 1] false [2; 1]%nat with Some v => Qeq_bool v (1 - (37 # 40) * (9 # 10)) | None => false end = true
  /\ match fitness_random_qasm (neighbor [(0, 1); (1, 2)]%nat) dev_ex [IRo 0; IRo 1] false [0; 2]%nat with Some v => Qeq_bool v ((1 # 2) * (1 # 2) + (1 # 2) * (1 # 10)) | None => false end = true
  /\ fitness_random_qasm (neighbor [(0, 1); (1, 2)]%nat) dev_ex [ICx 0 1] false [0; 2]%nat = None
  /\ closeness [(0, 1); (1, 2)]%nat [0; 2]%nat (1 / inject_Z (Z.of_nat 2) * 1)
  /\ fitness_random_qasm (neighbor [(0, 1); (1, 2)]%nat) dev_ex [IRo 0; IRo 1] false [0; 0]%nat = Some 1.
Proof.
  split; [split; [|split]|].
  - intros a b e. unfold dev_ex, cx_errors. cbn [d_cx fold_left].
    destruct (_ || _)%bool; [|destruct (_ || _)%bool; [|discriminate]]; intro E; injection E as <-; split; vm_compute; discriminate.
  - intros a e. unfold dev_ex. cbn [d_ro]. destruct (a <? 3)%nat; [|discriminate]. intro E. injection E as <-. split; vm_compute; discriminate.
  - intros u a e. cbn. intro E. injection E as <-. split; vm_compute; discriminate.
  - split; [reflexivity|]. split; [reflexivity|]. split; [reflexivity|]. split; [|reflexivity].
    apply Cl_near; [apply two_steps_spec; vm_compute; auto|lia|constructor].
Qed.

(** * C135 *)
(** "verbose only prints": with verbose=True fitness_qasm always raises. *)
Theorem C135_verbose : forall D prog qubits, fitness_qasm D prog true qubits = None.
Proof. intros. unfold fitness_qasm. destruct (fold_left _ _ _); reflexivity. Qed.
Print Assumptions C135_verbose.
Theorem C135_verbose_refuted : exists D prog qubits v, fitness_qasm D prog false qubits = Some v /\ fitness_qasm D prog true qubits <> Some v.
Proof. exists dev_ex, [IRo 0], [0%nat]. eexists. split; [reflexivity|]. rewrite C135_verbose. discriminate. Qed.
Print Assumptions C135_verbose_refuted.
