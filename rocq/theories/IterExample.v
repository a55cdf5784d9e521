(** A run on two orbitals, one electron of each spin and the coupling of the pairs (0,2) and (1,3): data of examples. *)
From Coq Require Import Bool List Arith ZArith QArith Qcanon Reals Qreals Lra Lia.
From Verif Require Import Coeff ComplexR MatSpec MatLemmas OpSpec FockSpec CircuitSpec CircuitModel OperatorModel FermiModel InvSpec HamModel HamSpec TransformModel PauliModel TomoModel PlanModel StoreModel StoreProofs PlanSpec RdmSpec RdmFock ResSpec ResModel ResProofs
  EulerSpec AcseModel EulerModel EulerProofs2 EulerProofs3 EulerProofs4 EulerExample LayerSpec LayerProofs4 EmbProofs LayerExample IterModel IterSpec IterProofs2 IterProofs3.
Import ListNotations.
Local Open Scope R_scope.

(** The cutoff 1e-10, the relative threshold 1/10, the step 2^-16, at most one turn, the norm criterion 1/1000. *)
Definition run_y : run_cfg := MkRun 2 1 1 c0 Ky c0 Plain true Plain false 2 (fun x => ceqb x c0) keep_ex (/ 10) eps_ex 1 (/ 1000) CNorm.
Lemma run_y_usable : usable run_y.
Proof.
  constructor; cbn [run_y rc_N rc_a rc_b rc_w rc_K2 rc_simp rc_simpA rc_p rc_tiny rc_keep rc_eps rc_conv proper]; try lia; try exact I.
  - exact Ky_sym.
  - exact Ky_spin.
  - intros x H. now apply (ceqb_spec Cx).
  - intro x. unfold keep_ex. replace (cabs (copp x)) with (cabs x); [reflexivity|]. unfold cabs. f_equal. destruct x as [u v]. cbn [Cx copp Copp fst snd]. ring.
  - unfold eps_ex. lra.
  - reflexivity.
Qed.
Lemma run_y_start s0 : run_build run_y = Some s0 -> rs_A s0 = map em oq.
Proof.
  intro E. destruct (hf_energy run_y run_y_usable) as [gs [G _]]. destruct (get_A_spec run_y run_y_usable [] gs G) as [o [EO EA]]. unfold run_build in E. change (s2_known run_y) with true in E. cbn [run_y rc_conv] in E. fold run_y in E. rewrite EA in E. cbn [option_map fst snd] in E. injection E as <-. cbn [rs_A].
  destruct G as [EC _]. unfold run_circuit in EC. cbn [run_y rc_N rc_a rc_b] in EC. change (qs_initial Default 2 1 1) with (Some [0%nat; 2%nat]) in EC. cbv iota in EC.
  destruct (acse_initial 4 [0%nat; 2%nat]) as [gs' [z [E' F]]]; [repeat constructor; cbn; intuition lia|intros k [<-|[<-|[]]]; lia|]. change (map (fun j => existsb (Nat.eqb j) [0%nat; 2%nat]) (seq 0 4)) with dy in F.
  change (2 * 2)%nat with 4%nat in EC. rewrite EC in E'. injection E' as <-.
  pose proof (operator_y _ z F) as EO'. cbn [run_y rc_N rc_K2 rc_keep rc_rel] in *. change (2 * 2)%nat with 4%nat in EO. rewrite EO in EO'. injection EO' as ->. apply truncate_y. lra.
Qed.
(** The loop leaves the first state for one that is done. *)
Lemma run_y_visited s : visited run_y s -> rs_done s = false -> rs_A s = map em oq.
Proof.
  intros [s0 [k [E0 E]]] D. pose proof (run_y_start s0 E0) as HA. destruct (rs_done s0) eqn:D0; [rewrite (run_loop_done run_y k s0 D0) in E; injection E as <-; exact HA|].
  destruct k as [|k]; cbn [run_loop] in E; rewrite D0 in E; [injection E as <-; exact HA|]. destruct (run_step run_y s0) as [s1|] eqn:E1; [|discriminate].
  assert (D1 : rs_done s1 = true).
  { unfold run_step in E1. destruct (measured _ _ _ _ _) as [t|]; [|discriminate]. destruct (get_A _ _) as [a|]; [|discriminate]. injection E1 as <-. unfold run_check. cbn [rs_done].
    assert (It : rs_iter s0 = 0%nat) by (unfold run_build in E0; destruct (get_A run_y []); [|discriminate]; injection E0 as <-; reflexivity). rewrite It. cbn [run_y rc_max Nat.eqb]. rewrite orb_true_r. reflexivity. }
  rewrite (run_loop_done run_y k s1 D1) in E. injection E as <-. rewrite D1 in D. discriminate.
Qed.
Lemma run_y_step s : visited run_y s -> rs_done s = false -> rs_A s <> [] /\ regular (euler_operator (rc_eps run_y) (rs_A s)) /\ 64 * size4 (2 * rc_N run_y) (rc_K2 run_y) * INR (length (rs_A s)) * rc_eps run_y <= 1.
Proof.
  intros V D. rewrite (run_y_visited s V D). cbn [run_y rc_N rc_K2 rc_eps]. split; [exact oq_ne|]. split; [rewrite euler_y; exact (regular_b_spec Lq Lq_regular)|].
  change (2 * 2)%nat with 4%nat. rewrite Ky_size, map_length. change (length oq) with 2%nat. unfold eps_ex. cbn [INR]. lra.
Qed.
