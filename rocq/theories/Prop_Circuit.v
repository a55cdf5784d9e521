(** C25-C29, C58: circuits. [rt] is 1/sqrt 2; an angle v is the pair (cos(v/2), sin(v/2)). *)
From Coq Require Import Bool List ZArith Arith.
From Verif Require Import Coeff MatSpec FockSpec PauliModel TransformModel CircuitSpec CircuitModel CircuitProofs CircuitProofs2 InitProofs Sqrt2.
Import ListNotations.

(** C25. For every measurement string m and every string p agreeing with m on its non-identity letters:
    the basis-change circuit U of m is unitary and U* Z_p U = p, where Z_p has Z on the support of p. *)
Theorem C25_basis_change_measures_the_string :
  forall (K : CoefRing) (rt : K), (rt * rt = chalf)%K -> cconj rt = rt ->
  forall m p : list pauli, agrees p m ->
    let N := length m in
    let U := cmat rt N (basis_gates 0 m) in
    meq N (mmul N (madj U) U) mone /\
    meq N (mmul N (madj U) (mmul N (pmat (map zletter p)) U)) (pmat p).
Proof. exact basis_change. Qed.
Print Assumptions C25_basis_change_measures_the_string.

(** The parity-signed average of the outcome weights after the basis change is the average of p in the
    state before it, for every state vector. *)
Theorem C25_outcome_average :
  forall (K : CoefRing) (rt : K), (rt * rt = chalf)%K -> cconj rt = rt ->
  forall (m p : list pauli) (psi : bits -> K), agrees p m ->
    let N := length m in
    let phi := mvec N (cmat rt N (basis_gates 0 m)) psi in
    sumbits N (fun b => sgn (outcome_parity p b) * (cconj (phi b) * phi b))%K = expect N (pmat p) psi.
Proof. exact basis_average. Qed.
Print Assumptions C25_outcome_average.

(** Statevector runs rotate one stored state from the basis of the first measurement to the basis of
    another; up to a global phase this is the other basis change. *)
Theorem C25_rebasing_the_statevector :
  forall (K : CoefRing) (rt : K), (rt * rt = chalf)%K -> cconj rt = rt ->
  forall first m : list pauli, length first = length m ->
  exists w : K, (w * cconj w = 1)%K /\
    meq (length m)
      (mmul (length m) (cmat rt (length m) (undo_gates 0 first ++ redo_gates 0 m)) (cmat rt (length m) (basis_gates 0 first)))
      (mscal w (cmat rt (length m) (basis_gates 0 m))).
Proof. exact rebase. Qed.
Print Assumptions C25_rebasing_the_statevector.

Example C25_case :
  (rrt * rrt = chalf)%K /\ cconj rrt = rrt /\ agrees [PX; PI; PY; PI] [PX; PZ; PY; PI]
  /\ length [PX; PZ; PY; PI] = length [PY; PY; PX; PZ]
  /\ basis_gates (K := GaussR) 0 [PX; PZ; PY; PI] = [Gh 0; Gsdg 2; Gh 2].
Proof. repeat split; repeat constructor. Qed.

(** C26. *)
Theorem C26_gadget_is_the_exponential :
  forall (K : CoefRing) (rt : K), (rt * rt = chalf)%K ->
  forall (s : list pauli) (v : angle K), (exists p, In p s /\ p <> PI) ->
    meq (length s) (cmat rt (length s) (pauli_gadget v s))
      (madd (mscal (cos_of v) mone) (mscal (ci * sin_of v)%K (pmat s))).
Proof. exact gadget_exact. Qed.
Print Assumptions C26_gadget_is_the_exponential.

Theorem C26_identity_emits_nothing :
  forall (K : CoefRing) (s : list pauli) (v : angle K), (forall p, In p s -> p = PI) -> pauli_gadget v s = [].
Proof. exact gadget_identity. Qed.
Print Assumptions C26_identity_emits_nothing.

(** Every gate acts on existing qubits, and CNOTs on two different ones. *)
Theorem C26_gates_in_range :
  forall (K : CoefRing) (s : list pauli) (v : angle K) (g : gate K), In g (pauli_gadget v s) -> gate_ok (length s) g.
Proof. exact gadget_ok. Qed.
Print Assumptions C26_gates_in_range.

(** A list of gadgets is the ordered product of the exponentials. *)
Theorem C26_sequence_of_gadgets :
  forall (K : CoefRing) (rt : K), (rt * rt = chalf)%K ->
  forall (N : nat) (items : list (angle K * list pauli)), (forall v s, In (v, s) items -> length s = N) ->
    meq N (cmat rt N (flat_map (fun e => pauli_gadget (fst e) (snd e)) items)) (exp_seq N items).
Proof. exact gadget_seq. Qed.
Print Assumptions C26_sequence_of_gadgets.

(** cos and sin 3/5, 4/5 of the half angle. *)
Definition v35 : angle GaussR := ((gq 3 5, gz 0), (gq 4 5, gz 0)).
Example C26_case :
  (exists p, In p [PX; PI; PY] /\ p <> PI)
  /\ pauli_gadget v35 [PX; PI; PY]
     = [Gh 0; Gsdg 2; Gh 2; Gcx 0 2; Grz (scaled v35) 2; Gcx 0 2; Gh 0; Gh 2; Gs 2]
  /\ scaled v35 = ((gq (-7) 25, gz 0), (gq (-24) 25, gz 0))
  /\ (forall p, In p [PI; PI] -> p = PI)
  /\ (forall v s, In (v, s) [(v35, [PX; PZ]); (v35, [PY; PI])] -> length s = 2).
Proof.
  split; [exists PX; split; [left; reflexivity|discriminate]|]. split; [reflexivity|]. split; [apply (f_equal2 pair); apply (ceqb_spec GaussR); vm_compute; reflexivity|].
  split; [intros p [<-|[<-|[]]]; reflexivity|]. intros v s [H|[H|[]]]; injection H as _ <-; reflexivity.
Qed.

(** C27. When every coefficient is real or imaginary the gates are exactly one per term above the
    threshold, in order, with that term's own coefficient. *)
Theorem C27_own_coefficient_partial :
  forall (R : Type) (tiny : R -> bool) (items : list (list pauli * (R * R))) (c : option R),
    (forall s re im, In (s, (re, im)) items -> tiny re = true \/ tiny im = true) ->
    pauli_set tiny c items =
      Some (flat_map (fun it => let x := if tiny (snd (snd it)) then fst (snd it) else snd (snd it) in
                                if tiny x then [] else [(x, fst it)]) items).
Proof. exact pauli_set_own. Qed.
Print Assumptions C27_own_coefficient_partial.

Definition tinyZ (z : Z) : bool := Z.eqb z 0.
Example C27_case :
  (forall s re im, In (s, (re, im)) [([PX], (2, 0)%Z); ([PY], (0, 3)%Z); ([PZ], (0, 0)%Z)] -> tinyZ re = true \/ tinyZ im = true)
  /\ pauli_set tinyZ None [([PX], (2, 0)%Z); ([PY], (0, 3)%Z); ([PZ], (0, 0)%Z)] = Some [(2%Z, [PX]); (3%Z, [PY])].
Proof.
  split; [|reflexivity]. intros s re im [H|[H|[H|[]]]]; injection H as <- <- <-; auto.
Qed.

(** A complex coefficient uses the coefficient of an earlier term. *)
Theorem C27_own_coefficient_refuted :
  exists items : list (list pauli * (Z * Z)),
    In ([PY], (5, 7)%Z) items /\ pauli_set tinyZ None items = Some [(2%Z, [PX]); (2%Z, [PY])].
Proof. exists [([PX], (2, 0)%Z); ([PY], (5, 7)%Z)]. split; [right; left; reflexivity|vm_compute; reflexivity]. Qed.
Print Assumptions C27_own_coefficient_refuted.

(** With no earlier term the program stops. *)
Theorem C27_first_complex_stops_refuted :
  exists items : list (list pauli * (Z * Z)), items <> [] /\ pauli_set tinyZ None items = None.
Proof. exists [([PY], (5, 7)%Z)]. split; [discriminate|vm_compute; reflexivity]. Qed.
Print Assumptions C27_first_complex_stops_refuted.

(** C28. The circuit is, up to the phase (-i)^(number of Z), the string with every Y replaced by X. *)
Theorem C28_apply_string_partial :
  forall (K : CoefRing) (rt : K), (rt * rt = chalf)%K ->
  forall s : list pauli,
    meq (length s) (cmat rt (length s) (apply_pauli rt 0 s))
      (mscal (cpow (- ci)%K (length (filter (fun p => pauli_eqb p PZ) s)))
        (pmat (map (fun p => match p with PY => PX | x => x end) s))).
Proof. exact apply_mat. Qed.
Print Assumptions C28_apply_string_partial.

(** On each basis state it is the string up to a phase (which may depend on the state). *)
Theorem C28_apply_string_on_basis_states_partial :
  forall (K : CoefRing) (rt : K), (rt * rt = chalf)%K ->
  forall (s : list pauli) (c : bits), length c = length s ->
  exists z : Z, forall r, length r = length s ->
    (cmat rt (length s) (apply_pauli rt 0 s) r c = ipow z * pmat s r c)%K.
Proof. exact apply_column. Qed.
Print Assumptions C28_apply_string_on_basis_states_partial.

Example C28_case :
  length [true; false; true] = length [PY; PZ; PX]
  /\ apply_pauli rrt 0 [PY; PZ; PX] = [Grz (half_pi rrt) 0; Gx 0; Grz (half_pi rrt) 0; Grz full_pi 1; Gx 2].
Proof. split; reflexivity. Qed.

(** For Y no global phase works. *)
Theorem C28_apply_string_refuted :
  exists (K : CoefRing) (rt : K) (s : list pauli), (rt * rt = chalf)%K /\
    ~ exists w : K, meq (length s) (cmat rt (length s) (apply_pauli rt 0 s)) (mscal w (pmat s)).
Proof.
  exists GaussR, rrt, [PY]. split; [exact rrt_sq|]. intros [w H].
  pose proof (H [false] [true] eq_refl eq_refl) as H1. pose proof (H [true] [false] eq_refl eq_refl) as H2.
  assert (E1 : cmat rrt 1 (apply_pauli rrt 0 [PY]) [false] [true] = c1) by (apply (ceqb_spec GaussR); vm_compute; reflexivity).
  assert (E2 : cmat rrt 1 (apply_pauli rrt 0 [PY]) [true] [false] = c1) by (apply (ceqb_spec GaussR); vm_compute; reflexivity).
  assert (E : (pmat [PY] [false] [true] = - pmat (K := GaussR) [PY] [true] [false])%K) by (vm_compute; reflexivity).
  apply opposite_ones. exists (w * pmat [PY] [true] [false])%K. split.
  - cbn [length] in H2. rewrite E2 in H2. exact (eq_sym H2).
  - cbn [length] in H1. rewrite E1 in H1. unfold mscal in H1. rewrite E in H1. rewrite H1. apply mul_opp_r.
Qed.
Print Assumptions C28_apply_string_refuted.

(** C29. The reported count of an Operator is the number of CNOTs of its gadgets. *)
Theorem C29_cnot_count :
  forall (K : CoefRing) (v : list pauli -> angle K) (o : list (list pauli)),
    cnot_operator o = Z.of_nat (length (filter (@is_cx K) (flat_map (fun s => pauli_gadget (v s) s) o))).
Proof. exact cnot_operator_ok. Qed.
Print Assumptions C29_cnot_count.

Example C29_case : cnot_operator [[PX; PI; PY; PZ]; [PI; PI; PI; PI]; [PZ; PI; PI; PI]; [PX; PX; PI; PI]] = 6%Z.
Proof. reflexivity. Qed.

(** For a list of Operators, when no term is an identity string. *)
Theorem C29_cnot_count_of_list_partial :
  forall (K : CoefRing) (v : list pauli -> angle K) (l : list (list (list pauli))),
    (forall o s, In o l -> In s o -> exists p, In p s /\ p <> PI) ->
    cnot_list l = Z.of_nat (length (filter (@is_cx K) (flat_map (fun s => pauli_gadget (v s) s) (concat l)))).
Proof. exact cnot_list_ok. Qed.
Print Assumptions C29_cnot_count_of_list_partial.

Example C29_list_case :
  (forall o s, In o [[[PX; PY]]; [[PI; PZ]; [PX; PX]]] -> In s o -> exists p, In p s /\ p <> PI)
  /\ cnot_list [[[PX; PY]]; [[PI; PZ]; [PX; PX]]] = 4%Z.
Proof.
  split; [|reflexivity]. intros o s [<-|[<-|[]]] H.
  - destruct H as [<-|[]]. exists PX. split; [left; reflexivity|discriminate].
  - destruct H as [<-|[<-|[]]]; [exists PZ; split; [right; left; reflexivity|discriminate]|exists PX; split; [left; reflexivity|discriminate]].
Qed.

(** An identity term counts -2. *)
Theorem C29_cnot_count_of_list_refuted :
  exists l : list (list (list pauli)), forall (K : CoefRing) (v : list pauli -> angle K),
    cnot_list l <> Z.of_nat (length (filter (@is_cx K) (flat_map (fun s => pauli_gadget (v s) s) (concat l)))).
Proof. exists [[[PI; PI]]]. intros K v. vm_compute. discriminate. Qed.
Print Assumptions C29_cnot_count_of_list_refuted.

(** C58. With the Jordan-Wigner transform, the operator built for the occupied orbitals is one string with
    a phase as coefficient, and applying it to |0...0> gives the determinant of these orbitals up to a phase. *)
Theorem C58_initial_determinant :
  forall (K : CoefRing) (rt : K), (rt * rt = chalf)%K ->
  forall (N : nat) (occ : list nat), NoDup occ -> (forall k, In k occ -> k < N) ->
  exists (s : list pauli) (z : Z), initial_operator N occ = Some [(s, @ipow K z)] /\
  exists z' : Z, forall r, length r = N ->
    cmat rt N (initial_circuit rt [(s, @ipow K z)]) r (repeat false N)
    = if bits_eqb r (map (fun j => existsb (Nat.eqb j) occ) (seq 0 N)) then ipow z' else c0.
Proof. exact initial_state. Qed.
Print Assumptions C58_initial_determinant.

Example C58_case :
  NoDup [0; 2] /\ (forall k, In k [0; 2] -> k < 4)
  /\ initial_operator (K := GaussQ) 4 [0; 2] = Some [([PX; PZ; PY; PI], gzi 0 (-1))].
Proof.
  split; [repeat constructor; cbn; intuition discriminate|]. split; [|vm_compute; reflexivity].
  intros k [<-|[<-|[]]]; repeat constructor.
Qed.
