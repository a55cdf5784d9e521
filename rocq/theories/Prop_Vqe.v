(** C74-C78: the unitary coupled cluster ansatz and the variational run. *)
From Coq Require Import Bool List Arith QArith Qabs Lia.
From Verif Require Import Coeff MatSpec FockSpec OpSpec PauliModel OperatorModel TransformModel AcseModel VqeModel VqeSpec VqeProofs VqeProofs2 VqeProofs3 VqeProofs4.
Import ListNotations.
Local Open Scope nat_scope.

(** C74: the ansatz lists each spin conserving single and double excitation from occupied to virtual orbitals exactly
    once and nothing else.  Missing: orbital layouts where a virtual spin-up orbital precedes an occupied one. *)
Theorem C74_excitations_partial : forall ga gb initial : list nat,
  NoDup (ga ++ gb) -> (forall i j, In i ga -> In j ga -> In i initial -> ~ In j initial -> i < j) ->
  exists L, ucc true true false false ga gb initial = Some L /\ NoDup L /\
    (forall t, In t L -> (exists i j, t = [i; j] /\ single_ok ga gb initial i j) \/
                         (exists i k l j, t = [i; k; l; j] /\ double_ok ga gb initial i k l j)) /\
    (forall i j, single_ok ga gb initial i j -> In [i; j] L) /\
    (forall i k l j, double_ok ga gb initial i k l j -> exists! t, In t L /\ same_double t i k l j).
Proof. exact ucc_spec. Qed.
Print Assumptions C74_excitations_partial.
(** Two spin-up and two spin-down orbitals, one of each occupied. *)
Example C74_case : ucc true true false false [0; 1] [2; 3] [0; 2] = Some [[0; 1]; [2; 3]; [0; 2; 3; 1]] /\ NoDup ([0; 1] ++ [2; 3]) /\
  double_ok [0; 1] [2; 3] [0; 2] 0 2 3 1.
Proof.
  split; [reflexivity|]. split; [repeat constructor; cbn; intuition discriminate|].
  unfold double_ok, is_occ, is_vir. cbn. intuition (try discriminate; try lia).
Qed.
(** With the spin-up orbitals listed with the occupied one last, the only double excitation is not listed. *)
Theorem C74_unsorted_refuted : exists ga gb initial L i k l j, NoDup (ga ++ gb) /\ ucc true true false false ga gb initial = Some L /\
  double_ok ga gb initial i k l j /\ forall t, In t L -> ~ same_double t i k l j.
Proof.
  exists [0; 1], [2; 3], [1; 2], [[1; 0]; [2; 3]], 1, 2, 3, 0. split; [repeat constructor; cbn; intuition discriminate|]. split; [reflexivity|].
  split; [unfold double_ok, is_occ, is_vir; cbn; intuition (try discriminate; try lia)|].
  intros t [<-|[<-|[]]]; unfold same_double; intuition discriminate.
Qed.
Print Assumptions C74_unsorted_refuted.
(** Triple and quadruple excitations: refused without singles, silently left out with them. *)
Theorem C74_higher_excitations : forall singles doubles triples quadruples ga gb initial,
  ucc singles doubles triples quadruples ga gb initial =
  if negb singles && (triples || quadruples) then None else ucc singles doubles false false ga gb initial.
Proof. intros [] d [] [] ga gb ini; reflexivity. Qed.
Print Assumptions C74_higher_excitations.

(** C75: the parametrised ansatz of a coupled cluster calculation is the list of the generators p (T - T+) of the
    excitations with a non-negligible parameter, exactly, each with purely imaginary Pauli coefficients. *)
Theorem C75_ansatz : forall (K : CoefRing) (tiny : K -> bool) N singles doubles triples quadruples ga gb initial L (ps : list K),
  NoDup (ga ++ gb) -> (forall i, In i (ga ++ gb) -> i < N) ->
  ucc singles doubles triples quadruples ga gb initial = Some L ->
  (forall p, In p ps -> cconj p = p /\ (tiny p = false -> small (cpow chalf 4 * p)%K = false)) ->
  exists bs, assign tiny N (combine L ps) = Some (concat bs) /\
    Forall2 (fun tp b => meq N (omat b) (generator (Nat.div2 (length (fst tp))) (fst tp) (snd tp)) /\ NoDup (keys b) /\
                         forall e, In e b -> length (fst e) = N /\ cconj (snd e) = (- snd e)%K)
      (filter (fun e => negb (tiny (snd e))) (combine L ps)) bs.
Proof. exact ucc_ansatz. Qed.
Print Assumptions C75_ansatz.
(** One double excitation on four qubits: eight strings. *)
Example C75_case : option_map (@length _) (assign (fun _ => false) 4 [([0; 2; 3; 1], gz 16)]) = Some 8 /\
  small (cpow chalf 4 * gz 16)%K = false /\ cconj (gz 16) = gz 16.
Proof. split; [vm_compute; reflexivity|]. split; [vm_compute; reflexivity|]. apply (ceqb_spec GaussQ). vm_compute. reflexivity. Qed.
(** For any tuple of an even number of different orbitals (also beyond doubles, and for the adaptive ansatz). *)
Theorem C75_generator : forall (K : CoefRing) N m t (p : K),
  length t = 2 * m -> 0 < m -> NoDup t -> (forall i, In i t -> i < N) -> cconj p = p -> small (cpow chalf (2 * m) * p)%K = false ->
  exists o, assign_op N t p = Some o /\ NoDup (keys (jw_operator o)) /\ meq N (omat (jw_operator o)) (generator m t p) /\
    forall e, In e (jw_operator o) -> length (fst e) = N /\ cconj (snd e) = (- snd e)%K.
Proof. intro K. exact (assign_op_spec K pkeq). Qed.
Print Assumptions C75_generator.
(** The generators conserve the number of spin-up particles and the number of particles. *)
Theorem C75_conserves : forall (K : CoefRing) singles doubles triples quadruples ga gb initial L t (p : K) r c,
  NoDup (ga ++ gb) -> ucc singles doubles triples quadruples ga gb initial = Some L -> In t L ->
  generator (Nat.div2 (length t)) t p r c <> c0 ->
  count_in (fun x => existsb (Nat.eqb x) ga) r = count_in (fun x => existsb (Nat.eqb x) ga) c /\
  count_in (fun _ => true) r = count_in (fun _ => true) c.
Proof. exact ucc_conserves. Qed.
Print Assumptions C75_conserves.
Example C75_conserves_case : ceqb (generator 2 [0; 2; 3; 1] (gz 1) [true; false; true; false] [false; true; false; true]) c0 = false.
Proof. vm_compute. reflexivity. Qed.

(** C76: the stored density matrix belongs to the reported energy, the lowest one seen.  Missing: optimisers whose best
    value is not the lowest evaluated energy, and energies that are not negative. *)
Theorem C76_stored_partial : forall (P : Type) (E : P -> Q) max_iter conv crit xs (steps : nat -> opt_step P) fuel s n,
  vqe_run E max_iter conv crit steps fuel 0 (vqe_build E xs) = (s, n) -> 0 < n ->
  (forall k, k < n -> lowest E (seen P xs steps (S k)) (o_best (steps k)) /\ (o_best (steps k) < 0)%Q) ->
  exists x, v_stored s = Some x /\ In x (seen P xs steps n) /\ (E x == v_best s)%Q /\ lowest E (seen P xs steps n) (v_best s).
Proof. exact stored_energy. Qed.
Print Assumptions C76_stored_partial.
(** Points are their own energies: -1 at the start, then -3 and -2. *)
Example C76_case : let steps := fun _ : nat => MkOpt [(-3)%Q; (-2)%Q] (-3)%Q 0%Q false in
  let r := vqe_run (fun x => x) 1 (1 # 10) 0 steps 5 0 (vqe_build (fun x => x) [(-1)%Q]) in
  snd r = 1 /\ v_stored (fst r) = Some (-3)%Q /\ (forall k, k < 1 -> lowest (fun x => x) (seen Q [(-1)%Q] steps (S k)) (o_best (steps k)) /\ (o_best (steps k) < 0)%Q).
Proof.
  split; [vm_compute; reflexivity|]. split; [vm_compute; reflexivity|]. intros [|k] H; [|lia]. split; [|reflexivity]. split.
  - exists (-3)%Q. split; [cbn; tauto|reflexivity].
  - intros x Hx. cbn in Hx. destruct Hx as [<-|[<-|[<-|[]]]]; cbn; intro H0; discriminate.
Qed.
(** Energies above zero: the lowest energy is found and reported, the stored density matrix stays the initial one. *)
Theorem C76_positive_refuted : exists (P : Type) (E : P -> Q) conv crit xs (steps : nat -> opt_step P) s,
  vqe_run E 10 conv crit steps 5 0 (vqe_build E xs) = (s, 1) /\ lowest E (seen P xs steps 1) (v_best s) /\ v_stored s = None.
Proof.
  exists Q, (fun x => x), (1 # 10)%Q, 0%Q, [2%Q], (fun _ => MkOpt [1%Q] 1%Q 0%Q false), (MkVqe 1%Q None true).
  split; [reflexivity|]. split; [|reflexivity]. split.
  - exists 1%Q. split; [cbn; tauto|reflexivity].
  - intros x Hx. cbn in Hx. destruct Hx as [<-|[<-|[]]]; cbn; intro H0; discriminate.
Qed.
Print Assumptions C76_positive_refuted.
(** When a gradient evaluation was lower than the optimiser's best value, a stored density matrix is later replaced by
    one of higher energy, and the reported energy is neither. *)
Theorem C76_gradient_refuted : exists (P : Type) (E : P -> Q) conv crit xs (steps : nat -> opt_step P) s x,
  vqe_run E 10 conv crit steps 5 0 (vqe_build E xs) = (s, 2) /\ v_stored s = Some x /\
  ~ (E x == v_best s)%Q /\ exists y, In y (seen P xs steps 1) /\ (E y < E x)%Q.
Proof.
  exists Q, (fun x => x), 0%Q, 0%Q, [(-1)%Q],
    (fun k => match k with O => MkOpt [(-3)%Q] (-1)%Q 1%Q false | _ => MkOpt [(-2)%Q] (-1)%Q 0%Q false end), (MkVqe (-1)%Q (Some (-2)%Q) true), (-2)%Q.
  split; [vm_compute; reflexivity|]. split; [reflexivity|]. split; [intro H; discriminate|]. exists (-3)%Q. split; [cbn; tauto|reflexivity].
Qed.
Print Assumptions C76_gradient_refuted.

(** C77: the run ends after the first step at which the optimiser's criterion is met or an error was recorded.
    Missing: an iteration limit. *)
Theorem C77_stops_partial : forall (P : Type) (E : P -> Q) max_iter conv crit (steps : nat -> opt_step P) m xs fuel,
  (forall k, k < m -> ~ ((Qabs (o_crit (steps k)) <= Qabs conv)%Q \/ o_err (steps k) = true \/ (o_crit (steps k) < crit)%Q)) ->
  ((Qabs (o_crit (steps m)) <= Qabs conv)%Q \/ o_err (steps m) = true \/ (o_crit (steps m) < crit)%Q) -> m < fuel ->
  snd (vqe_run E max_iter conv crit steps fuel 0 (vqe_build E xs)) = S m /\ v_done (fst (vqe_run E max_iter conv crit steps fuel 0 (vqe_build E xs))) = true.
Proof.
  intros P E mi conv crit steps m xs fuel H1 H2 H3.
  apply (run_stops P E mi conv crit steps m m fuel 0 (vqe_build E xs)); [reflexivity|apply build_not_done|intros k _ Hk; now apply H1|exact H2|exact H3].
Qed.
Print Assumptions C77_stops_partial.
Example C77_case : let steps := fun n : nat => MkOpt (P := nat) [n] (-1)%Q (if n <? 3 then 1%Q else 0%Q) false in
  snd (vqe_run (fun n => inject_Z (Z.of_nat n)) 1 0 0 steps 9 0 (vqe_build (fun n => inject_Z (Z.of_nat n)) [])) = 4.
Proof. vm_compute. reflexivity. Qed.
(** No iteration limit: with an optimiser that does not converge the run makes any number of turns, whatever limit was
    requested. *)
Theorem C77_limit_refuted : exists (P : Type) (E : P -> Q) conv crit xs (steps : nat -> opt_step P), forall max_iter fuel,
  snd (vqe_run E max_iter conv crit steps fuel 0 (vqe_build E xs)) = fuel /\
  v_done (fst (vqe_run E max_iter conv crit steps fuel 0 (vqe_build E xs))) = false.
Proof.
  exists nat, (fun _ => 0%Q), 0%Q, 0%Q, [], (fun _ => MkOpt [] 0%Q 1%Q false). intros mi fuel.
  apply (run_goes_on nat (fun _ => 0%Q) mi 0%Q 0%Q (fun _ => MkOpt [] 0%Q 1%Q false)); [|apply build_not_done].
  intros k [H|[H|H]]; [apply H; reflexivity|discriminate|discriminate].
Qed.
Print Assumptions C77_limit_refuted.

(** C78: the numerical gradient has one entry per parameter; where the energy is quadratic in a parameter the central
    difference is the derivative and the forward difference is off by the second order coefficient times the step. *)
Theorem C78_gradient : forall (E : list Q -> Q) diff x i a b, i < length x -> ~ (diff == 0)%Q -> quadratic_along E x i a b ->
  length (vqe_gradient E true diff x) = length x /\ length (vqe_gradient E false diff x) = length x /\
  (nth i (vqe_gradient E true diff x) 0 == a + b * diff)%Q /\ (nth i (vqe_gradient E false diff x) 0 == a)%Q.
Proof.
  intros E d x i a b Hi Hd HQ. split; [apply gradient_length|]. split; [apply gradient_length|]. now apply gradient_quadratic.
Qed.
Print Assumptions C78_gradient.
(** The gradient uses the energies of the points handed to the evaluation only: n + 1 or 2 n of them. *)
Theorem C78_points : forall forward diff x, length (gradient_points forward diff x) = (if forward then S (length x) else 2 * length x) /\
  forall E E' : list Q -> Q, (forall p, In p (gradient_points forward diff x) -> E p = E' p) -> vqe_gradient E forward diff x = vqe_gradient E' forward diff x.
Proof. intros fw d x. split; [apply gradient_calls|]. intros E E'. apply gradient_depends. Qed.
Print Assumptions C78_points.
Example C78_points_case : map (map Qred) (gradient_points false (1 # 4) [2; 5]%Q) = [[7 # 4; 5]; [9 # 4; 5]; [2; 19 # 4]; [2; 21 # 4]]%Q.
Proof. vm_compute. reflexivity. Qed.
Example C78_case : let E := fun x : list Q => (nth 0 x 0 * nth 0 x 0 + 3 * nth 1 x 0)%Q in
  quadratic_along E [2; 5]%Q 0 4 1 /\ (nth 0 (vqe_gradient E false (1 # 4) [2; 5]%Q) 0 == 4)%Q /\
  (nth 0 (vqe_gradient E true (1 # 4) [2; 5]%Q) 0 == 4 + (1 # 4))%Q.
Proof.
  split; [|split; vm_compute; reflexivity]. intro d. unfold shift. cbn [length seq map nth Nat.eqb]. ring.
Qed.
