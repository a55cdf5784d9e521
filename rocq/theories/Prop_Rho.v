(** C122-C124: ACSE runs that carry a density matrix from step to step.  [G] gives the gates of one layer of the ansatz,
    [prep] those of the initial state, [rho0] the array the run starts from; the operators [Ps] added by the steps are
    arbitrary.  [full_state F] is the density matrix of preparation and whole ansatz, as the circuit back end makes it. *)
From Coq Require Import Bool List Arith ZArith Lia.
From Verif Require Import Coeff MatSpec CircuitSpec OperatorModel AcseModel ItModel RhoModel RhoSpec RhoProofs.
Import ListNotations.

(** Closed ansatz: after any number of steps the matrix carried on, and those in which energy and residual are measured,
    are that of all the layers. *)
Theorem C122_closed :
  forall (K : CoefRing) (key : Type) (keqb : key -> key -> bool) (rt : K) (N : nat) (G : opv K key -> list (gate K))
    (prep : list (gate K)) (rho0 : mat K) (Ps : list (opv K key)),
    Forall proper Ps ->
    let s := rho_run keqb rt N G 1 Ps (rho_build rt N G 1 prep rho0 []) in
    rs_psi s = Ps /\ full_ansatz keqb 1 Ps = Ps /\
    meq N (rs_rho s) (full_state rt N G prep rho0 Ps) /\
    meq N (rs_energy s) (full_state rt N G prep rho0 Ps) /\
    meq N (rs_resid s) (full_state rt N G prep rho0 Ps).
Proof. exact closed_run. Qed.
Print Assumptions C122_closed.

(** Ansatz with [k] open layers: as long as no layer vanishes, energy and residual are measured in the state of the whole
    ansatz, of which the run keeps the last [k] layers at most. *)
Theorem C123_open_layers :
  forall (K : CoefRing) (key : Type) (keqb : key -> key -> bool) (rt : K) (N : nat) (G : opv K key -> list (gate K))
    (prep : list (gate K)) (rho0 : mat K) (k : nat) (Ps : list (opv K key)),
    (0 < k)%nat -> growing keqb (- Z.of_nat k) Ps ->
    let s := rho_run keqb rt N G (- Z.of_nat k) Ps (rho_build rt N G (- Z.of_nat k) prep rho0 []) in
    let F := full_ansatz keqb (- Z.of_nat k) Ps in
    meq N (rs_energy s) (full_state rt N G prep rho0 F) /\
    meq N (rs_resid s) (full_state rt N G prep rho0 F) /\
    (length (rs_psi s) <= k)%nat /\ exists B, F = B ++ rs_psi s.
Proof. exact limited_run. Qed.
Print Assumptions C123_open_layers.

(** Cases: terms 0 and 1 stand for flips of qubits 0 and 1. *)
Definition c122_G (l : opv GaussQ nat) : list (gate GaussQ) := map (fun e => Gx (fst e)) l.
Definition c122_rho0 : mat GaussQ := fun r c => if bits_eqb r [false; false] && bits_eqb c [false; false] then c1 else c0.
Definition c122_A : opv GaussQ nat := [(0%nat, c1)].
Definition c122_B : opv GaussQ nat := [(1%nat, c1)].
Example C122_case :
  Forall proper [c122_A; c122_B] /\
  ceqb (rs_rho (rho_run Nat.eqb c0 2 c122_G 1 [c122_A; c122_B] (rho_build c0 2 c122_G 1 [] c122_rho0 [])) [true; true] [true; true]) c1 = true.
Proof.
  split; [|vm_compute; reflexivity].
  repeat constructor; try discriminate; intros e [<- |[]]; vm_compute; reflexivity.
Qed.
Example C123_case :
  growing Nat.eqb (- Z.of_nat 1) [c122_A; c122_B; c122_B] /\
  let s := rho_run Nat.eqb c0 2 c122_G (- Z.of_nat 1) [c122_A; c122_B; c122_B] (rho_build c0 2 c122_G (- Z.of_nat 1) [] c122_rho0 []) in
  length (rs_psi s) = 1%nat /\ ceqb (rs_energy s [true; true] [true; true]) c1 = true /\ ceqb (rs_rho s [true; false] [true; false]) c1 = true.
Proof.
  split; [|split; [|split]]; try (vm_compute; reflexivity).
  intros Q R P E. destruct Q as [|a [|b [|c [|d Q]]]]; cbn in E; try (injection E as <- E; try discriminate);
    try (injection E as <- E; try discriminate); try (injection E as <- E; try discriminate); try discriminate;
    try (subst; vm_compute; lia).
Qed.

(** C124: after [reset] the run should hold the state of its ansatz, and a step that adds nothing should not change the
    state.  Neither holds. *)
Theorem C124_reset_refuted :
  exists (G : opv GaussQ nat -> list (gate GaussQ)) (rho0 : mat GaussQ) (Ps : list (opv GaussQ nat)),
    Forall proper Ps /\
    let s := rho_reset c0 2 G 1 [] rho0 (rho_run Nat.eqb c0 2 G 1 Ps (rho_build c0 2 G 1 [] rho0 [])) in
    ~ meq 2 (rs_rho s) (full_state c0 2 G [] rho0 (rs_psi s)).
Proof.
  exists c122_G, c122_rho0, [c122_A; c122_B]. split; [exact (proj1 C122_case)|].
  cbv zeta. intro H. specialize (H [true; true] [true; true] eq_refl eq_refl). apply (f_equal (fun x => ceqb x c0)) in H. vm_compute in H. discriminate H.
Qed.
Print Assumptions C124_reset_refuted.
Theorem C124_reset_open_refuted :
  exists (G : opv GaussQ nat -> list (gate GaussQ)) (rho0 : mat GaussQ) (Ps : list (opv GaussQ nat)),
    growing Nat.eqb (-1) Ps /\
    let s := rho_reset c0 2 G (-1) [] rho0 (rho_run Nat.eqb c0 2 G (-1) Ps (rho_build c0 2 G (-1) [] rho0 [])) in
    ~ meq 2 (rs_resid s) (full_state c0 2 G [] rho0 (rs_psi s)).
Proof.
  exists c122_G, c122_rho0, [c122_A]. split.
  - intros Q R P E. destruct Q as [|a Q]; [|destruct Q; discriminate E]. cbn. lia.
  - cbv zeta. intro H. specialize (H [true; false] [true; false] eq_refl eq_refl). apply (f_equal (fun x => ceqb x c0)) in H. vm_compute in H. discriminate H.
Qed.
Print Assumptions C124_reset_open_refuted.
Theorem C124_idle_step_refuted :
  exists (G : opv GaussQ nat -> list (gate GaussQ)) (rho0 : mat GaussQ) (P : opv GaussQ nat),
    proper P /\
    let s0 := rho_run Nat.eqb c0 2 G 1 [P] (rho_build c0 2 G 1 [] rho0 []) in
    let s1 := rho_step Nat.eqb c0 2 G 1 s0 [] in
    rs_psi s1 = rs_psi s0 /\ ~ meq 2 (rs_rho s1) (rs_rho s0) /\ ~ meq 2 (rs_rho s1) (full_state c0 2 G [] rho0 (rs_psi s1)).
Proof.
  exists c122_G, c122_rho0, c122_A. split; [|cbv zeta; split; [|split]].
  - exact (Forall_inv (proj1 C122_case)).
  - vm_compute; reflexivity.
  - cbv zeta. intro H. specialize (H [true; false] [true; false] eq_refl eq_refl). apply (f_equal (fun x => ceqb x c0)) in H. vm_compute in H. discriminate H.
  - cbv zeta. intro H. specialize (H [true; false] [true; false] eq_refl eq_refl). apply (f_equal (fun x => ceqb x c0)) in H. vm_compute in H. discriminate H.
Qed.
Print Assumptions C124_idle_step_refuted.
