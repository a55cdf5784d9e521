(** Error estimates from subsamples of the counts (C165). *)
From Coq Require Import Bool List Arith Lia.
From Verif Require Import ErrSpec ErrModel ErrProofs.
Import ListNotations.
Local Open Scope nat_scope.
(** For all counts, sample sizes, numbers of samples and draws without repetition, every estimate comes from a subsample: the same circuits, the
    sample size as number of shots, no outcome more often than measured.  The subsamples are drawn from the measured counts, not from each other.
    Afterwards the tomography holds the counts and the rdm of the last subsample. *)
Theorem C165_samples : forall (P K R X : Type) (keq : forall a b : K, {a = b} + {a <> b}) (construct : list (P * list (K * nat)) -> option R) (f : R -> option X) Ns size draws (t : tomo P K R),
  let n := if Nat.leb (Ns * 8) size then Ns / 8 else size in
  (forall d e, In d draws -> In e (t_counts t) -> valid_draw (shots (snd e)) n (d (fst e))) -> t_rdm t <> None -> (forall c, subsample keq n (t_counts t) c -> construct c <> None) ->
  exists (l : list (list (P * list (K * nat)) * R)) t', Forall (fun x => subsample keq n (t_counts t) (fst x) /\ construct (fst x) = Some (snd x)) l /\ length l = length draws /\
    evaluate_error keq construct f Ns size draws t = Some (flat_map (fun x => match f (snd x) with Some v => [v] | None => [] end) l, t') /\
    (forall x, last (map Some l) None = Some x -> t_counts t' = fst x /\ t_rdm t' = Some (snd x)) /\ (draws = [] -> t' = t).
Proof. intros P K R X keq construct f Ns size draws t. exact (samples keq construct f Ns size draws t). Qed.
Print Assumptions C165_samples.
(** A case: eight shots on one circuit, two samples of three. *)
Definition c165_tomo : tomo nat bool nat := MkTomo [(0, [(true, 5); (false, 3)])] (Some 0).
Definition c165_construct (c : list (nat * list (bool * nat))) : option nat := match c with (_, o) :: _ => Some (counted Bool.bool_dec o true) | [] => None end.
Example C165_case : evaluate_error Bool.bool_dec c165_construct (fun r => Some r) 8 3 [(fun _ => [0; 6; 4]); (fun _ => [7; 5; 1])] c165_tomo = Some ([2; 1], MkTomo [(0, [(false, 2); (true, 1)])] (Some 1)).
Proof. vm_compute. reflexivity. Qed.
(** A sample larger than the number of shots of some circuit raises. *)
Theorem C165_raises : forall (P K R X : Type) (keq : forall a b : K, {a = b} + {a <> b}) (construct : list (P * list (K * nat)) -> option R) (f : R -> option X) Ns size d draws (t : tomo P K R) e,
  In e (t_counts t) -> shots (snd e) < (if Nat.leb (Ns * 8) size then Ns / 8 else size) -> evaluate_error keq construct f Ns size (d :: draws) t = None.
Proof. intros P K R X keq construct f Ns size d draws t e. exact (raises keq construct f Ns size d draws t e). Qed.
Print Assumptions C165_raises.
(** The limit on the sample size does not prevent this: with 1000 shots the default size of 1024 raises. *)
Theorem C165_default_refuted : exists (t : tomo nat bool nat), (forall e, In e (t_counts t) -> shots (snd e) = 1000) /\ t_rdm t <> None /\
  forall d draws, evaluate_error Bool.bool_dec c165_construct (fun r => Some r) 1000 1024 (d :: draws) t = None.
Proof.
  exists (MkTomo [(0, [(true, 1000)])] (Some 0)). split; [intros e [<-|[]]; reflexivity|]. split; [discriminate|]. intros d draws.
  apply (C165_raises nat bool nat nat Bool.bool_dec c165_construct (fun r => Some r) 1000 1024 d draws _ (0, [(true, 1000)])); [now left|]. apply Nat.ltb_lt. vm_compute. reflexivity.
Qed.
Print Assumptions C165_default_refuted.
(** Estimating the error replaces the measured counts and the rdm. *)
Theorem C165_keeps_refuted : exists (t t' : tomo nat bool nat) draws xs, evaluate_error Bool.bool_dec c165_construct (fun r => Some r) 8 3 draws t = Some (xs, t') /\
  c165_construct (t_counts t) = t_rdm t /\ t_counts t' <> t_counts t /\ t_rdm t' <> t_rdm t.
Proof.
  exists (MkTomo [(0, [(true, 5); (false, 3)])] (Some 5)), (MkTomo [(0, [(true, 2); (false, 1)])] (Some 2)), [fun _ => [0; 6; 4]], [2].
  split; [vm_compute; reflexivity|]. split; [reflexivity|]. split; discriminate.
Qed.
Print Assumptions C165_keeps_refuted.
