(** C139, C140, C141: particle numbers along the circuit of an ansatz.  Complex numbers; the cutoffs are those of the code. *)
From Coq Require Import Bool List Arith Reals Lra Lia.
From Verif Require Import Coeff ComplexR MatSpec MatLemmas OpSpec FockSpec CircuitSpec CircuitModel TomoModel QuantSpec QuantProofs2 RdmModel RdmSpec HamModel HamSpec TransformModel VqeModel VqeSpec
  StoreModel PlanModel PlanSpec PlanProofs2 PlanProofs3 PlanProofs5 ConsSpec ConsModel ConsProofs ConsProofs3 ConsProofs4.
Import ListNotations.
Local Open Scope nat_scope.

(** C139.  For every list of excitations of the ansatz, all real parameters and every depth, the circuit is built, its gates
    are valid, and it conserves the number of particles and the number in the spin-up orbitals. *)
Theorem C139_ucc : forall depth N s d tr q ga gb ini L (ps : list Cx), 0 < depth -> NoDup (ga ++ gb) -> (forall i, In i (ga ++ gb) -> i < N) ->
  ucc s d tr q ga gb ini = Some L -> (forall p, In p ps -> snd p = 0%R) ->
  exists psi gs, assign below10 N (combine L ps) = Some psi /\ ansatz_gates depth psi = Some gs /\ (forall g, In g gs -> valid N g) /\
    conserves N (count_in (fun x => existsb (Nat.eqb x) ga)) (cmat Crt N gs) /\ conserves N (count_in (fun _ => true)) (cmat Crt N gs).
Proof. exact ucc_circuit. Qed.
Print Assumptions C139_ucc.
(** In general: a sequence of blocks, each of commuting strings whose sum conserves f, for any angle. *)
Theorem C139_blocks : forall N (f : bits -> nat) (ls : list (list (R * list pauli))) (t : R),
  (forall l, In l ls ->
     (forall w s w' s', In (w, s) l -> In (w', s') l -> length s = N /\ meq N (mmul N (pmat s) (pmat s')) (mmul N (pmat s') (pmat s) : mat Cx)) /\
     conserves N f (omat (map (fun e => (snd e, ((fst e, 0%R) : Cx))) l))) ->
  conserves N f (cmat Crt N (flat_map (fun e => pauli_gadget (chalf_angle (fst e * t, 0)%R) (snd e)) (concat ls))).
Proof.
  intros N f ls t H. apply (blocks_conserve N f ls t). intros l I. destruct (H l I) as [A B]. split.
  - intros w s w' s' J J'. destruct (A w s w' s' J J') as [A1 A2]. split; [exact A1|constructor; exact A2].
  - intros r c Lr Lc X. apply (B r c Lr Lc). intro Z. apply X. rewrite <- Z. clear. induction l as [|[w s] l IH]; [reflexivity|].
    cbn [sumop map omat fst snd]. unfold madd, mscal. rewrite IH. reflexivity.
Qed.
Print Assumptions C139_blocks.

(** C140.  Every evaluation of the variational solver with the default mapping: for all options the ansatz accepts, all
    electron numbers and all real parameters (any number of them), the circuit is built and the prepared state is
    normalised with the requested electron numbers. *)
Theorem C140_state : forall depth s d tr q No a b (ps : list Cx), 0 < depth -> a <= No -> b <= No -> negb s && (tr || q) = false -> (forall p, In p ps -> snd p = 0%R) ->
  exists prep, vqe_circuit depth s d tr q No a b ps = Some prep /\ norm2 (2 * No) (prepared Crt (2 * No) prep) = c1 /\
    has_up (2 * No) No a (prepared Crt (2 * No) prep) /\ has_particles (2 * No) (a + b) (prepared Crt (2 * No) prep).
Proof.
  intros depth s d tr q No a b ps D A B O HR. destruct (vqe_state depth s d tr q No a b ps D A B O HR) as [prep [E [V [U P]]]].
  exists prep. split; [exact E|]. split; [exact (prepared_norm Cx Crt Crt_sq crt_real _ _ V)|]. split; assumption.
Qed.
Print Assumptions C140_state.
(** Tomography of it gives its reduced density matrices. *)
Theorem C140_rdm : forall depth s d tr q No a b (ps : list Cx) prep, 0 < depth -> a <= No -> b <= No -> (forall p, In p ps -> snd p = 0%R) ->
  vqe_circuit depth s d tr q No a b ps = Some prep ->
  forall (tiny : Cx -> bool) simp p real imag t, (forall x, tiny x = true -> x = c0) -> 1 <= p <= 3 -> real || imag = true -> sized simp ->
    tomography Crt tiny jw_operator simp p real imag No prep = Some t ->
    forall c e, length c = p -> length e = p -> Forall (fun x => x < 2 * No) c -> Forall (fun x => x < 2 * No) e ->
      t (c ++ e) = part real imag (rdm_of (2 * No) (prepared Crt (2 * No) prep) c e).
Proof.
  intros depth s d tr q No a b ps prep D A B HR E tiny simp p real imag t Ht Hp RI Sz T.
  assert (O : negb s && (tr || q) = false).
  { destruct (negb s && (tr || q)) eqn:O; [|reflexivity]. exfalso. unfold vqe_circuit, ucc in E. rewrite O in E.
    destruct (qs_initial Default No a b); [|discriminate]. destruct (initial_operator (2 * No) _); discriminate. }
  destruct (vqe_state depth s d tr q No a b ps D A B O HR) as [prep' [E' [V [U P]]]]. rewrite E in E'. injection E' as <-.
  exact (tomography_rdm Cx Crt Crt_sq crt_real tiny Ht cx_exact simp p real imag No a prep t Hp RI Sz (prepared_norm Cx Crt Crt_sq crt_real _ _ V) U T).
Qed.
Print Assumptions C140_rdm.
(** The energy is real and bounded below by every lower bound for a + b particles. *)
Theorem C140_variational : forall depth s d tr q No a b (ps : list Cx) prep, 0 < depth -> a <= No -> b <= No -> (forall p, In p ps -> snd p = 0%R) ->
  vqe_circuit depth s d tr q No a b ps = Some prep ->
  forall (tiny : Cx -> bool) simp imag (w : Cx) (h : nat -> nat -> Cx) (V : nat -> nat -> nat -> nat -> Cx) (en_c : Cx) t (low : R), (forall x, tiny x = true -> x = c0) -> sized simp ->
  cmul (cmul (cadd (cadd (cadd c1 c1) c1) c1) w) (ofnat (a + b - 1)) = c1 -> snd w = 0%R -> snd en_c = 0%R ->
  (forall i j, snd (h i j) = 0%R) -> (forall i j, h i j = h j i) ->
  (forall p q s t, snd (V p q s t) = 0%R) -> (forall p q s t, V p q s t = V q p t s) -> (forall p q s t, V p q s t = V s t p q) ->
  (forall phi : bits -> Cx, has_particles (2 * No) (a + b) phi -> norm2 (2 * No) phi = c1 -> (low <= fst (expect (2 * No) (ham (2 * No) h V) phi))%R) ->
  tomography Crt tiny jw_operator simp 2 true imag No prep = Some t ->
  (low + fst en_c <= fst (evaluate (2 * No) (build_K2 (2 * No) w h V) en_c t))%R /\ snd (evaluate (2 * No) (build_K2 (2 * No) w h V) en_c t) = 0%R.
Proof.
  intros depth s d tr q No a b ps prep D A B HR E tiny simp imag w h V en_c t low Ht Sz Hw Iw Ie Ih Sh IV S1 S2 Low T.
  assert (O : negb s && (tr || q) = false).
  { destruct (negb s && (tr || q)) eqn:O; [|reflexivity]. exfalso. unfold vqe_circuit, ucc in E. rewrite O in E.
    destruct (qs_initial Default No a b); [|discriminate]. destruct (initial_operator (2 * No) _); discriminate. }
  destruct (vqe_state depth s d tr q No a b ps D A B O HR) as [prep' [E' [Va [U P]]]]. rewrite E in E'. injection E' as <-.
  exact (variational tiny simp imag No (a + b) a w h V en_c prep t low Ht Sz Va U P Hw Iw Ie Ih Sh IV S1 S2 Low T).
Qed.
Print Assumptions C140_variational.

(** C141.  For operators in general the order of the strings matters: this anti-Hermitian operator, the sum of two single
    excitations, conserves the number of particles, and its circuit does not. *)
Theorem C141_any_operator_refuted : exists (psi : list (list pauli * Cx)) gs, ansatz_gates 1 psi = Some gs /\ NoDup (map fst psi) /\
  (forall e, In e psi -> length (fst e) = 3 /\ cconj (snd e) = copp (snd e)) /\ conserves 3 popcount (omat psi) /\ ~ conserves 3 popcount (cmat Crt 3 gs).
Proof. exists mixed. exact order_matters. Qed.
Print Assumptions C141_any_operator_refuted.

(** The hypotheses: H2 in two orbitals, one parameter for each of the excitations; none is skipped, and the double excitation
    does connect the two closed-shell determinants. *)
Example C139_case : ucc true true false false [0; 1] [2; 3] [0; 2] = Some [[0; 1]; [2; 3]; [0; 2; 3; 1]] /\ qs_initial Default 2 1 1 = Some [0; 2] /\
  below10 ((/ 2)%R, 0%R) = false /\ @generator Cx 2 [0; 2; 3; 1] (1%R, 0%R) [true; false; true; false] [false; true; false; true] <> c0 /\
  count_in (fun x => existsb (Nat.eqb x) [0; 1]) [true; false; true; false] = 1 /\ count_in (fun _ => true) [true; true; true; false] = 3.
Proof.
  split; [vm_compute; reflexivity|]. split; [vm_compute; reflexivity|]. split; [|split].
  - unfold below10. cbn [fst snd]. destruct (Rlt_dec _ _) as [l|]; [|reflexivity]. exfalso. cbn [pow] in l. lra.
  - intro H. apply (f_equal fst) in H. cbn in H. lra.
  - split; vm_compute; reflexivity.
Qed.
Example C140_case : exists prep, vqe_circuit 1 true true false false 2 1 1 [((/ 2)%R, 0%R); (1%R, 0%R); (2%R, 0%R)] = Some prep /\ norm2 4 (prepared Crt 4 prep) = c1.
Proof.
  destruct (C140_state 1 true true false false 2 1 1 [((/ 2)%R, 0%R); (1%R, 0%R); (2%R, 0%R)]) as [prep [E [H _]]]; try lia; try reflexivity; [intros p [<-|[<-|[<-|[]]]]; reflexivity|].
  exists prep. split; [exact E|exact H].
Qed.
(** The blocks of a single excitation on modes 0 and 1. *)
Example C139_block_case : (forall w s w' s', In (w, s) [(1%R, [PX; PY; PI]); ((-1)%R, [PY; PX; PI])] -> In (w', s') [(1%R, [PX; PY; PI]); ((-1)%R, [PY; PX; PI])] ->
    length s = 3 /\ meq 3 (mmul 3 (pmat s) (pmat s')) (mmul 3 (pmat s') (pmat s) : mat Cx)) /\
  conserves 3 popcount (omat (map (fun e => (snd e, ((fst e, 0%R) : Cx))) [(1%R, [PX; PY; PI]); ((-1)%R, [PY; PX; PI])])).
Proof.
  split.
  - intros w s w' s' I J. assert (H : (s = [PX; PY; PI] \/ s = [PY; PX; PI]) /\ (s' = [PX; PY; PI] \/ s' = [PY; PX; PI])).
    { destruct I as [I|[I|[]]]; destruct J as [J|[J|[]]]; injection I as _ <-; injection J as _ <-; auto. }
    destruct H as [[-> | ->] [-> | ->]]; (split; [reflexivity|]); try (intros r c _ _; reflexivity); apply (ConsProofs2.class_commute Cx); try reflexivity; intros [|[|[|k]]]; reflexivity.
  - intros r c Lr Lc. destruct r as [|r1 [|r2 [|r3 [|]]]]; try discriminate. destruct c as [|c1 [|c2 [|c3 [|]]]]; try discriminate.
    destruct r1, r2, r3, c1, c2, c3; intro H; try reflexivity; exfalso; apply H; apply C_eq; cbn; ring.
Qed.
