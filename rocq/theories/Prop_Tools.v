(** C51 (filt and get_trace), C52 (map_wf and extend_wf), C53 (swap bookkeeping). *)
From Coq Require Import Bool List Arith ZArith Permutation Lia.
From Verif Require Import ToolsModel ToolsSpec ToolsProofs ToolsProofs2.
Import ListNotations.
Local Open Scope nat_scope.

(** ** C51 *)
(** Missing: traced qubits not in ascending order, and all qubits traced (both false, below). *)
Theorem C51_filt_partial : forall (counts : list (list bool * Z)) (N : nat) (trace : list nat),
  counts <> [] -> (forall e, In e counts -> length (fst e) = N) ->
  ascending trace -> (forall t, In t trace -> t < N) -> length trace < N ->
  exists d, filt counts trace = Some d /\ NoDup (map fst d) /\
    (forall b, In b (map fst d) <-> exists e, In e counts /\ marginal trace (fst e) = b) /\
    (forall b, shots_at b d = shots_onto trace b counts) /\ total_shots d = total_shots counts.
Proof. exact filt_spec. Qed.
Print Assumptions C51_filt_partial.
Theorem C51_get_trace : forall (Nq : nat) (active : list nat),
  ascending (get_trace Nq active) /\ (forall t, In t (get_trace Nq active) <-> t < Nq /\ ~ In t active).
Proof. exact get_trace_spec. Qed.
Print Assumptions C51_get_trace.
Example C51_case : get_trace 3 [1] = [0; 2] /\ ascending [0; 2] /\
  filt [([true; false; true], 5%Z); ([false; false; true], 2%Z); ([true; true; false], 4%Z)] [0; 2] = Some [([false], 7%Z); ([true], 4%Z)].
Proof. split; [reflexivity|]. split; [cbn; intuition lia|]. vm_compute. reflexivity. Qed.

(** Traced qubits in descending order: shots are lost. *)
Theorem C51_order_refuted : exists (counts : list (list bool * Z)) (trace : list nat) d,
  NoDup trace /\ (forall e, In e counts -> length (fst e) = 3) /\ (forall t, In t trace -> t < 3) /\ length trace < 3 /\
  filt counts trace = Some d /\ total_shots d <> total_shots counts.
Proof.
  exists [([true; false; true], 5%Z)], [2; 0], []. split; [repeat constructor; cbn; intuition lia|].
  split; [intros e [<-|[]]; reflexivity|]. split; [intros t [<-|[<-|[]]]; lia|]. split; [cbn; lia|]. split; [vm_compute; reflexivity|]. vm_compute. discriminate.
Qed.
Print Assumptions C51_order_refuted.
(** All qubits traced out: the shots are lost instead of adding up at the empty string. *)
Theorem C51_all_traced_refuted : exists (counts : list (list bool * Z)) (trace : list nat) d,
  ascending trace /\ (forall e, In e counts -> length (fst e) = 2) /\ (forall t, In t trace -> t < 2) /\
  filt counts trace = Some d /\ total_shots d <> total_shots counts.
Proof.
  exists [([true; false], 5%Z)], [0; 1], []. split; [cbn; intuition lia|]. split; [intros e [<-|[]]; reflexivity|].
  split; [intros t [<-|[<-|[]]]; lia|]. split; [vm_compute; reflexivity|]. vm_compute. discriminate.
Qed.
Print Assumptions C51_all_traced_refuted.

(** ** C52 *)
Theorem C52_map_wf : forall (V : Type) (wf : list (list bool * V)) (n : nat) (m : nat -> option nat),
  NoDup (map fst wf) -> (forall e, In e wf -> length (fst e) = n) -> permutes n m ->
  exists new, map_wf wf m = Some new /\ length new = length wf /\ NoDup (map fst new) /\
    (forall k v, In (k, v) wf -> exists k', In (k', v) new /\ Permutation k k' /\ forall i j, i < n -> m i = Some j -> nth j k' false = nth i k false) /\
    (forall k' v, In (k', v) new -> exists k, In (k, v) wf /\ length k' = n /\ forall i j, i < n -> m i = Some j -> nth j k' false = nth i k false).
Proof. exact map_wf_spec. Qed.
Print Assumptions C52_map_wf.
(** map_lambda of the code. *)
Definition ex_lambda (i : nat) : option nat := nth_error [0; 1; 3; 2; 5; 4] i.
Example C52_case : permutes 6 ex_lambda /\
  map_wf [([true; true; true; false; true; false], 3%Z); ([false; true; false; true; true; true], 4%Z)] ex_lambda =
    Some [([true; true; false; true; false; true], 3%Z); ([false; true; true; false; true; true], 4%Z)].
Proof.
  split; [|vm_compute; reflexivity]. split.
  - intros i Hi. do 6 (destruct i as [|i]; [eexists; split; [reflexivity|lia]|]). lia.
  - intros i i' j Hi Hi' E E'. assert (ND : NoDup [0; 1; 3; 2; 5; 4]) by (repeat constructor; cbn; intuition lia).
    apply (proj1 (NoDup_nth_error _) ND); [exact Hi|]. unfold ex_lambda in *. congruence.
Qed.

(** Missing: different numbers of active alpha and beta orbitals (false, below). *)
Theorem C52_extend_wf_partial : forall (V : Type) (wf : list (list bool * V)) (Norb : nat) (a_in a_act b_in b_act : list nat),
  NoDup (map fst wf) -> length a_act = length b_act -> (forall e, In e wf -> length (fst e) = length a_act + length b_act) ->
  (forall i, In i (a_in ++ b_in ++ a_act ++ b_act) -> i < Norb * 2) -> NoDup (a_in ++ b_in ++ a_act ++ b_act) ->
  exists new, extend_wf wf Norb a_in a_act b_in b_act = Some new /\ length new = length wf /\ NoDup (map fst new) /\
    (forall k v, In (k, v) wf -> exists k', In (k', v) new /\ length k' = Norb * 2 /\
       forall p, nth p k' false = true <-> In p (a_in ++ b_in) \/ exists j, nth j k false = true /\ nth_error (a_act ++ b_act) j = Some p).
Proof. intros V. exact extend_wf_spec. Qed.
Print Assumptions C52_extend_wf_partial.
Example C52_extend_case : (forall i, In i ([0] ++ [4] ++ [1; 2] ++ [5; 6]) -> i < 4 * 2) /\ NoDup ([0] ++ [4] ++ [1; 2] ++ [5; 6]) /\
  extend_wf [([true; false; false; true], 3%Z)] 4 [0] [1; 2] [4] [5; 6] = Some [([true; true; false; false; true; false; true; false], 3%Z)].
Proof. split; [cbn; intuition lia|]. split; [repeat constructor; cbn; intuition lia|]. vm_compute. reflexivity. Qed.
(** One active alpha orbital and two active beta orbitals: the wrong beta orbital is occupied. *)
Theorem C52_extend_wf_refuted : exists (wf new : list (list bool * Z)) (Norb : nat) (a_in a_act b_in b_act : list nat) k v,
  (forall e, In e wf -> length (fst e) = length a_act + length b_act) /\
  (forall i, In i (a_in ++ b_in ++ a_act ++ b_act) -> i < Norb * 2) /\ NoDup (a_in ++ b_in ++ a_act ++ b_act) /\
  extend_wf wf Norb a_in a_act b_in b_act = Some new /\ In (k, v) wf /\
  ~ exists k', In (k', v) new /\ forall p, nth p k' false = true <-> In p (a_in ++ b_in) \/ exists j, nth j k false = true /\ nth_error (a_act ++ b_act) j = Some p.
Proof.
  exists [([false; true; false], 1%Z)], [([false; false; false; true], 1%Z)], 2, [], [0], [], [2; 3], [false; true; false], 1%Z.
  split; [intros e [<-|[]]; reflexivity|]. split; [cbn; intuition lia|]. split; [repeat constructor; cbn; intuition lia|]. split; [vm_compute; reflexivity|]. split; [now left|].
  intros [k' [[E|[]] H]]. injection E as <-. assert (A := proj1 (H 3) eq_refl). destruct A as [[]|[j [Hj E]]].
  destruct j as [|[|[|[|j]]]]; cbn in Hj, E; discriminate.
Qed.
Print Assumptions C52_extend_wf_refuted.

(** ** C53 *)
(** Missing: swaps sharing a qubit (false, below), and the use of the table by later gates (false, below). *)
Theorem C53_table_partial : forall (sw : list (nat * nat)), NoDup (map fst sw ++ map snd sw) ->
  forall i, g_swap (gcirc_run (map (fun qp => CSw (fst qp) (snd qp)) sw)) i = location sw i.
Proof. exact swap_dict_spec. Qed.
Print Assumptions C53_table_partial.
Example C53_case : NoDup (map fst [(0, 2); (3, 1)] ++ map snd [(0, 2); (3, 1)]) /\ map (location [(0, 2); (3, 1)]) [0; 1; 2; 3] = [2; 3; 0; 1].
Proof. split; [repeat constructor; cbn; intuition lia|reflexivity]. Qed.
(** Two swaps sharing a qubit: the recorded table is not even a permutation. *)
Theorem C53_table_refuted : exists (sw : list (nat * nat)) i j, (forall qp, In qp sw -> fst qp <> snd qp) /\ i <> j /\
  g_swap (gcirc_run (map (fun qp => CSw (fst qp) (snd qp)) sw)) i = g_swap (gcirc_run (map (fun qp => CSw (fst qp) (snd qp)) sw)) j /\
  g_swap (gcirc_run (map (fun qp => CSw (fst qp) (snd qp)) sw)) i <> location sw i.
Proof. exists [(0, 1); (1, 2)], 0, 2. split; [intros qp [<-|[<-|[]]]; cbn; lia|]. split; [lia|]. split; [reflexivity|]. vm_compute. lia. Qed.
Print Assumptions C53_table_refuted.
(** Gates are sent to the register as if no swap had been recorded... *)
Theorem C53_gates_ignore_swaps : forall cs, g_gates (gcirc_run cs) = flat_map (fun c => match c with CX q => [q] | CSw _ _ => [] end) cs.
Proof. exact gates_ignore_swaps. Qed.
Print Assumptions C53_gates_ignore_swaps.
(** ... so a gate after a swap does not address where its qubit lives. *)
Theorem C53_gates_refuted : exists q p t, q <> p /\ g_gates (gcirc_run [CSw q p; CX t]) <> [location [(q, p)] t].
Proof. exists 0, 1, 0. split; [lia|]. vm_compute. discriminate. Qed.
Print Assumptions C53_gates_refuted.
