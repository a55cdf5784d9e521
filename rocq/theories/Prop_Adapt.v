(** C113-C115: the ADAPT solver.  Residuals [rs] and optimisers [ms] are arbitrary sequences; [keys] are the
    excitations of the tomography the residual was measured with. *)
From Coq Require Import Bool List Arith ZArith QArith Qcanon Sorted Lia.
From Verif Require Import Coeff MatSpec FockSpec PauliModel CircuitModel VqeModel AdaptModel AdaptSpec AdaptProofs AdaptProofs2.
Import ListNotations.
Local Open Scope nat_scope.

(** C113. The excitation added is the first one with the largest residual. *)
Theorem C113_choice : forall (l : list Q) (i : nat), argmax l = Some i ->
  i < length l /\ (forall j, j < length l -> (nth j l 0 <= nth i l 0)%Q) /\ (forall j, j < i -> (nth j l 0 < nth i l 0)%Q).
Proof. exact argmax_spec. Qed.
Print Assumptions C113_choice.

(** After n steps the ansatz consists of the excitations chosen by the residuals 0, ..., n, in that order. *)
Theorem C113_terms : forall (K : CoefRing) (keys : list (list nat)) (max_iter : nat) (crit : Q) (rs : nat -> resid) (ms : nat -> micro K)
    (fuel : nat) (s : adapt K), ad_run true keys max_iter crit rs ms fuel = Some s ->
  length (ad_terms s) = S (ad_iter s) /\ length (ad_inds s) = S (ad_iter s) /\ length (ad_logE s) = S (ad_iter s) /\
  (forall j, j <= ad_iter s -> exists i k, argmax (re_abs (rs j)) = Some i /\ nth_error keys i = Some k /\
     nth_error (ad_inds s) j = Some i /\ nth_error (ad_terms s) j = Some k).
Proof. exact run_terms. Qed.
Print Assumptions C113_terms.

(** Adding an excitation with parameter zero leaves the rotations of the circuit as they were. *)
Theorem C113_growth_keeps_the_circuit : forall (K : CoefRing) (R : Type) (reim : K -> R * R) (tiny : R -> bool) (N : nat)
    (terms : list (list nat)) (para : list K) (t : list nat) (g : list (R * list pauli)),
  length terms = length para ->
  ad_program reim tiny N (terms ++ [t]) (para ++ [c0]) = Some g -> ad_program reim tiny N terms para = Some g.
Proof. exact program_grow. Qed.
Print Assumptions C113_growth_keeps_the_circuit.

(** C114. A run is over exactly when the iteration limit is reached or the last residual norm is below the
    threshold, and it stops at the first such step. *)
Theorem C114_stops : forall (K : CoefRing) (keys : list (list nat)) (max_iter : nat) (crit : Q) (rs : nat -> resid) (ms : nat -> micro K)
    (fuel : nat) (s : adapt K), ad_run true keys max_iter crit rs ms fuel = Some s ->
  ad_iter s <= fuel /\ (ad_done s = false -> ad_iter s = fuel) /\
  (ad_done s = true <-> 0 < ad_iter s /\ (ad_iter s = max_iter \/ (re_norm (rs (ad_iter s)) < crit)%Q)) /\
  (forall j, 0 < j < ad_iter s -> j <> max_iter /\ (crit <= re_norm (rs j))%Q).
Proof. exact run_stops. Qed.
Print Assumptions C114_stops.

Theorem C114_ends : forall (K : CoefRing) (keys : list (list nat)) (max_iter : nat) (crit : Q) (rs : nat -> resid) (ms : nat -> micro K)
    (s : adapt K), 0 < max_iter -> ad_run true keys max_iter crit rs ms max_iter = Some s ->
  ad_done s = true /\ ad_iter s <= max_iter.
Proof. exact run_bound. Qed.
Print Assumptions C114_ends.

(** With optimisers that return the energy of one row of parameters, never above the energy at the start, the
    energies of the run never increase, and the one reported is that of the circuit before the last growth. *)
Theorem C114_energies : forall (K : CoefRing) (keys : list (list nat)) (max_iter : nat) (crit : Q) (rs : nat -> resid) (ms : nat -> micro K)
    (R : Type) (reim : K -> R * R) (tiny : R -> bool) (N : nat) (E : list (R * list pauli) -> Q),
  let run := ad_run true keys max_iter crit rs ms in
  let prog := ad_program reim tiny N in
  (forall fuel s, run fuel = Some s -> ad_done s = false -> honest prog E (ms (ad_iter s)) (ad_terms s) (ad_para s)) ->
  forall (fuel : nat) (s : adapt K), run fuel = Some s ->
    StronglySorted (fun a b => (b <= a)%Q) (ad_logE s) /\ length (ad_para s) = length (ad_terms s) /\
    (0 < ad_iter s -> exists g, prog (removelast (ad_terms s)) (removelast (ad_para s)) = Some g /\ (E g == ad_best s)%Q /\
       forall y, In y (ad_logE s) -> (ad_best s <= y)%Q).
Proof. exact run_energy. Qed.
Print Assumptions C114_energies.

(** A run of two steps on four spin orbitals; the energy is minus the number of rotations. *)
Definition c114_keys : list (list nat) := [[0; 2]; [0; 1; 3; 2]; [1; 3]].
Definition c114_rs (n : nat) : resid := MkResid [1#2; 3; 3]%Q (if Nat.ltb n 2 then 1%Q else 0%Q).
Definition c114_ms (n : nat) : micro GaussQ :=
  match n with
  | 0 => MkMicro (-5)%Q (-8)%Q (Mat [[c1]])
  | _ => MkMicro (-9)%Q (-16)%Q (Mat [[c1; c1]])
  end.
Definition c114_tiny (x : Qc) : bool := Qc_eq_bool x 0.
Definition c114_E (g : list (Qc * list pauli)) : Q := inject_Z (- Z.of_nat (length g)).
Lemma c114_prog terms para n :
  match ad_program (K := GaussQ) (R := Qc) (fun x => x) c114_tiny 4 terms para with Some g => Nat.eqb (length g) n | None => false end = true ->
  exists g, ad_program (K := GaussQ) (R := Qc) (fun x => x) c114_tiny 4 terms para = Some g /\ length g = n.
Proof. destruct (ad_program _ _ _ _ _) as [g|]; [|discriminate]. intro H. exists g. split; [reflexivity|]. apply Nat.eqb_eq. exact H. Qed.
Example C114_case :
  let run := ad_run true c114_keys 50 (1#100)%Q c114_rs c114_ms in
  let prog := ad_program (K := GaussQ) (R := Qc) (fun x => x) c114_tiny 4 in
  (forall fuel s, run fuel = Some s -> ad_done s = false -> honest prog c114_E (c114_ms (ad_iter s)) (ad_terms s) (ad_para s))
  /\ run 2 = Some (MkAdapt [[0;1;3;2]; [0;1;3;2]; [0;1;3;2]] [1;1;1] [c1; c1; c0] [-5; -8; -16]%Q 2 true (-16)%Q).
Proof.
  intros run prog.
  assert (R0 : run 0 = Some (MkAdapt [[0;1;3;2]] [1] [c0] [-5]%Q 0 false 0%Q)) by reflexivity.
  assert (R1 : run 1 = Some (MkAdapt [[0;1;3;2]; [0;1;3;2]] [1;1] [c1; c0] [-5; -8]%Q 1 false (-8)%Q)) by reflexivity.
  assert (R2 : run 2 = Some (MkAdapt [[0;1;3;2]; [0;1;3;2]; [0;1;3;2]] [1;1;1] [c1; c1; c0] [-5; -8; -16]%Q 2 true (-16)%Q)) by reflexivity.
  split; [|exact R2]. intros fuel s H D.
  assert (F : fuel < 2).
  { destruct (Nat.lt_ge_cases fuel 2) as [L|L]; [exact L|]. exfalso.
    assert (X : forall k, run (2 + k) = run 2).
    { induction k as [|k IH]; [reflexivity|]. unfold run in *. rewrite Nat.add_succ_r, run_S, IH, R2. reflexivity. }
    replace fuel with (2 + (fuel - 2)) in H by lia. rewrite X, R2 in H. injection H as <-. discriminate. }
  destruct fuel as [|[|f]]; [| |lia].
  - rewrite R0 in H. injection H as <-. cbn [ad_iter ad_terms ad_para].
    destruct (c114_prog [[0;1;3;2]] [c0] 0) as [g0 [P0 L0]]; [vm_compute; reflexivity|].
    destruct (c114_prog [[0;1;3;2]] [c1] 8) as [g1 [P1 L1]]; [vm_compute; reflexivity|].
    exists [c1], g0, g1. repeat split; try assumption; unfold c114_E; rewrite ?L0, ?L1; vm_compute; congruence.
  - rewrite R1 in H. injection H as <-. cbn [ad_iter ad_terms ad_para].
    destruct (c114_prog [[0;1;3;2]; [0;1;3;2]] [c1; c0] 8) as [g0 [P0 L0]]; [vm_compute; reflexivity|].
    destruct (c114_prog [[0;1;3;2]; [0;1;3;2]] [c1; c1] 16) as [g1 [P1 L1]]; [vm_compute; reflexivity|].
    exists [c1; c1], g0, g1. repeat split; try assumption; unfold c114_E; rewrite ?L0, ?L1; vm_compute; congruence.
Qed.

(** C115. With an optimiser whose best point is a vector (the simplex methods) the first step raises. *)
Theorem C115_vector_optimiser_refuted : exists (keys : list (list nat)) (rs : nat -> resid) (ms : nat -> micro GaussQ),
  (exists s, ad_run true keys 50 (1#100)%Q rs ms 0 = Some s /\ ad_done s = false) /\
  forall fuel, ad_run true keys 50 (1#100)%Q rs ms (S fuel) = None.
Proof.
  exists c114_keys, c114_rs, (fun _ => MkMicro 0%Q (-8)%Q (Vec [c1])). split.
  - eexists. split; reflexivity.
  - induction fuel as [|f IH]; [reflexivity|]. rewrite run_S, IH. reflexivity.
Qed.
Print Assumptions C115_vector_optimiser_refuted.

(** A limit of zero iterations is no limit. *)
Theorem C115_zero_limit_refuted : exists (keys : list (list nat)) (rs : nat -> resid) (ms : nat -> micro GaussQ),
  forall fuel, exists s, ad_run true keys 0 (1#100)%Q rs ms fuel = Some s /\ ad_done s = false /\ ad_iter s = fuel.
Proof.
  exists c114_keys, (fun _ => MkResid [1]%Q 1%Q), (fun n => MkMicro 0%Q 0%Q (Mat [repeat c0 (S n)])).
  induction fuel as [|f [s [R [D I]]]]; [eexists; repeat split; reflexivity|].
  rewrite run_S, R, D. eexists. split; [reflexivity|]. split; [exact D|]. cbn. rewrite I. reflexivity.
Qed.
Print Assumptions C115_zero_limit_refuted.
