(** Several tomographies run as one job (C164). *)
From Coq Require Import Bool List Arith Lia.
From Verif Require Import BatchModel BatchProofs.
Import ListNotations.
Local Open Scope nat_scope.
(** For at most one hundred tomographies with any number of circuits, names distinct within each, every tomography gets exactly the results of
    its own circuits, under the names it gave them. *)
Theorem C164_batch : forall (C V : Type) (run : C -> V) tomos, length tomos <= 100 -> (forall t, In t tomos -> NoDup (map fst t)) ->
  exists left_, run_multiple run false tomos = Some (map (fun t => map (fun c => (fst c, run (snd c))) t) tomos, left_).
Proof. intros C V run tomos. exact (batch run tomos). Qed.
Print Assumptions C164_batch.
(** A case: two tomographies with a common name (Z is 90, X is 88). *)
Example C164_case : option_map fst (run_multiple (fun c => c + 1) false [[([90], 5); ([88], 6)]; [([90], 7)]]) = Some [[([90], 6); ([88], 7)]; [([90], 8)]].
Proof. vm_compute. reflexivity. Qed.
(** With one hundred and one, the results of the last go to the first, under a name nobody asked for. *)
Theorem C164_many_refuted : exists tomos : list (list (name * nat)), (forall t, In t tomos -> NoDup (map fst t)) /\ length tomos = 101 /\ (forall t, In t tomos -> t = [([90], 0)]) /\
  exists counts left_, run_multiple (fun c => c) false tomos = Some (counts, left_) /\ nth_error counts 0 = Some [([90], 0); ([90; 49], 0)] /\ nth_error counts 100 = Some [].
Proof.
  exists (repeat [([90], 0)] 101). assert (R : forall t, In t (repeat [([90], 0)] 101) -> t = [([90], 0)]) by (intros t H; now apply repeat_spec in H).
  split; [intros t H; rewrite (R t H); constructor; [intros []|constructor]|]. split; [reflexivity|]. split; [exact R|]. eexists. eexists. split; [vm_compute; reflexivity|]. split; reflexivity.
Qed.
Print Assumptions C164_many_refuted.
(** The circuits keep the longer names, so a second run of the same tomographies returns the results under names that are not theirs. *)
Theorem C164_twice_refuted : exists (tomos left_ left2 : list (list (name * nat))) counts, run_multiple (fun c => c) false tomos = Some (map (fun t => map (fun c => (fst c, snd c)) t) tomos, left_) /\
  run_multiple (fun c => c) false left_ = Some (counts, left2) /\ tomos = [[([90], 0)]] /\ counts = [[([90; 48; 48], 0)]].
Proof. exists [[([90], 0)]]. eexists. eexists. eexists. split; [vm_compute; reflexivity|]. split; [vm_compute; reflexivity|]. split; reflexivity. Qed.
Print Assumptions C164_twice_refuted.
(** With a measurement filter every batch with a circuit raises. *)
Theorem C164_filter_raises : forall (C V : Type) (run : C -> V) tomos, (exists t, In t tomos /\ t <> []) -> run_multiple run true tomos = None.
Proof.
  intros C V run tomos (t & Ht & N). unfold run_multiple. cbn [andb]. destruct (map fst (concat (renamed_from 0 tomos))) as [|k l] eqn:E; [|reflexivity]. exfalso. apply map_eq_nil in E.
  apply In_nth_error in Ht. destruct Ht as [n Hn]. pose proof (nth_renamed tomos 0 n) as R. rewrite Hn in R. apply nth_error_In in R. destruct t as [|c t]; [now apply N|].
  assert (I : In (fst c ++ format02 (0 + n), snd c) (concat (renamed_from 0 tomos))) by (apply in_concat; eexists; split; [exact R|now left]). rewrite E in I. destruct I.
Qed.
Print Assumptions C164_filter_raises.
