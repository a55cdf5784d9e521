(** C150-C154: circuits that measure a group of Pauli strings through its generators. *)
From Coq Require Import Bool List Arith ZArith QArith Lia.
From Verif Require Import Coeff Sqrt2 MatSpec FockSpec PauliModel CircuitSpec CircuitModel TomoModel RdmSpec PlanSpec StabModel StabSpec StabProofs4 SfModel ScModel ScSpec
  CircuitProofs2 ScProofs6 ScProofs7.
Import ListNotations.
Local Open Scope nat_scope.

(** C150.  For every group of strings that share a qubit-wise measurement basis b, of any number and length: the
    construction ends without an exception.  Its gates are on the qubits.  With U the matrix of the recorded gates, each
    string t of the dictionary T_M and its image m satisfy U.t = m.U, and m has only I and Z.  Every string p of the group
    other than the identity is found in the table [paulis] with coefficient 1, the product f of the images of its generators
    has coefficient 1 and only I and Z, and the average of p in any state is the average of f after the circuit.  The
    strings [zz] have images, only I and Z, and commute with the group. *)
Theorem C150_group : forall (K : CoefRing) (rt : K), cmul rt rt = chalf -> cconj rt = rt ->
  forall N b ps fuel, length b = N -> (forall p, In p ps -> agrees p b) -> 2 * N * N + 6 < fuel ->
  exists sc, stabilized_circuit fuel N ps = Some sc /\
    let gates := circuit rt (sc_gates sc) in let U := cmat rt N gates in
    (forall g, In g gates -> valid N g) /\
    (forall t m, In (t, m) (sc_TM sc) -> length t = N /\ length m = N /\ diagonal m /\ meq N (mmul N U (pmat t)) (mmul N (pmat m) U)) /\
    (forall z, In z (sc_zz sc) -> (exists m, pget z (sc_TM sc) = Some m /\ forall psi, expect N (pmat z) psi = expect N (pmat m) (mvec N U psi)) /\
       diagonal z /\ forall p, In p ps -> meq N (mmul N (@pmat K z) (pmat p)) (mmul N (pmat p) (pmat z))) /\
    (forall p, In p ps -> p <> repeat PI N -> exists ss f, @paulis_get K p (paulis_table 3 N ps) = Some (ss, c1) /\
       @fetch K N (sc_TM sc) ss = Some (f, c1) /\ length f = N /\ diagonal f /\
       forall psi, expect N (pmat p) psi = expect N (pmat f) (mvec N U psi)).
Proof. exact group_averages. Qed.
Print Assumptions C150_group.
(** The symmetry strings are exactly those members of the basis of commuting strings that consist of I and Z, with at
    least two Z. *)
Theorem C150_symmetries : forall N b ps fuel, length b = N -> (forall p, In p ps -> agrees p b) -> 2 * N * N + 6 < fuel ->
  exists sc, stabilized_circuit fuel N ps = Some sc /\ forall z, In z (sc_zz sc) <-> In z (null_basis N ps) /\ diagonal z /\ 1 < zcount z.
Proof. exact symmetries. Qed.
Print Assumptions C150_symmetries.
(** The groups the tomography hands over: all strings of the plan mapped to the measurement k, except the identity.  If
    the plan maps every string to a measurement it agrees with, the averages of all its strings come out right. *)
Theorem C150_mapping : forall (K : CoefRing) (rt : K), cmul rt rt = chalf -> cconj rt = rt ->
  forall N k mapping fuel, length k = N -> (forall s m, In (s, m) mapping -> agrees s m) -> 2 * N * N + 6 < fuel ->
  (forall s, In s (group_of k mapping) <-> In (s, k) mapping /\ s <> repeat PI (length s)) /\
  exists sc, stabilized_circuit fuel N (group_of k mapping) = Some sc /\
    forall s, In (s, k) mapping -> s <> repeat PI (length s) -> exists ss f, @paulis_get K s (paulis_table 3 N (group_of k mapping)) = Some (ss, c1) /\
      @fetch K N (sc_TM sc) ss = Some (f, c1) /\ diagonal f /\
      forall psi, expect N (pmat s) psi = expect N (pmat f) (mvec N (cmat rt N (circuit rt (sc_gates sc))) psi).
Proof.
  intros K rt H1 H2 N k mapping fuel Lk A Fu. split; [exact (group_members k mapping)|].
  assert (Ag : forall p, In p (group_of k mapping) -> agrees p k) by (intros p Hp; apply group_members in Hp; apply A, Hp).
  destruct (C150_group K rt H1 H2 N k (group_of k mapping) fuel Lk Ag Fu) as (sc & E & _ & _ & _ & P). exists sc. split; [exact E|].
  intros s Hs Hn. assert (L : length s = N) by (rewrite <- Lk; exact (agrees_length _ _ (A _ _ Hs))).
  destruct (P s) as (ss & f & Q1 & Q2 & _ & Q3 & Q4); [now apply group_members|now rewrite <- L|]. exists ss, f. repeat (split; [assumption|]). exact Q4.
Qed.
Print Assumptions C150_mapping.
Example C150_mapping_case : (forall s m, In (s, m) [([PX; PI], [PX; PX]); ([PX; PX], [PX; PX]); ([PI; PI], [PX; PX]); ([PZ; PI], [PZ; PZ])] -> agrees s m) /\
  group_of [PX; PX] [([PX; PI], [PX; PX]); ([PX; PX], [PX; PX]); ([PI; PI], [PX; PX]); ([PZ; PI], [PZ; PZ])] = [[PX; PI]; [PX; PX]].
Proof. split; [|reflexivity]. intros s m H. repeat (destruct H as [H|H]; [injection H as <- <-; repeat first [apply agrees_nil | apply agrees_same | apply agrees_I]|]). destruct H. Qed.
(** A case: XXY and IXY need all three kinds of gates. *)
Example C150_case : option_map (fun sc => (sc_gates sc, sc_TM sc, sc_zz sc)) (stabilized_circuit 30 3 [[PX; PX; PY]; [PI; PX; PY]]) =
  Some ([SSi 2; SCx 1 2; SH 0; SH 1], [([PX; PI; PI], [PZ; PI; PI]); ([PI; PX; PY], [PI; PZ; PI]); ([PI; PZ; PZ], [PI; PI; PZ])], [[PI; PZ; PZ]]) /\
  (forall p, In p [[PX; PX; PY]; [PI; PX; PY]] -> agrees p [PX; PX; PY]) /\
  option_map fst (@paulis_get GaussQ [PX; PX; PY] (paulis_table 3 3 [[PX; PX; PY]; [PI; PX; PY]])) = Some [[PI; PX; PY]; [PX; PI; PI]].
Proof. split; [vm_compute; reflexivity|]. split; [intros p [<-|[<-|[]]]; repeat first [apply agrees_nil | apply agrees_same | apply agrees_I]|vm_compute; reflexivity]. Qed.

(** C151.  The recorded gates cannot be applied: for every such group with a string other than a product of I and Z, applying
    the circuit raises (the name pi is not bound in core/primitives/_base.py).  A group of such products needs no gate. *)
Theorem C151_cannot_apply : forall (K : CoefRing) N b ps fuel, length b = N -> (forall p, In p ps -> agrees p b) -> 2 * N * N + 6 < fuel ->
  ((exists p, In p ps /\ ~ diagonal p) -> exists sc, stabilized_circuit fuel N ps = Some sc /\ @apply_all K (sc_gates sc) = None) /\
  ((forall p, In p ps -> diagonal p) -> exists sc, stabilized_circuit fuel N ps = Some sc /\ @apply_all K (sc_gates sc) = Some []).
Proof. exact applicable. Qed.
Print Assumptions C151_cannot_apply.
Theorem C151_applies_refuted : exists N b ps sc, length b = N /\ (forall p, In p ps -> agrees p b) /\ stabilized_circuit (2 * N * N + 7) N ps = Some sc /\
  @apply_all GaussQ (sc_gates sc) = None.
Proof.
  exists 1, [PX], [[PX]], (MkStabilized [SH 0] [([PX], [PZ])] []). split; [reflexivity|]. split; [intros p [<-|[]]; repeat first [apply agrees_nil | apply agrees_same]|].
  split; [vm_compute; reflexivity|reflexivity].
Qed.
Print Assumptions C151_applies_refuted.
Example C151_case : (forall p, In p [[PZ; PZ]; [PI; PZ]] -> diagonal p) /\ ~ diagonal [PX; PZ] /\ agrees [PX; PZ] [PX; PZ].
Proof.
  split; [intros p [<-|[<-|[]]] x Hx; repeat (destruct Hx as [<-|Hx]; [auto|]); destruct Hx|].
  split; [|repeat first [apply agrees_nil | apply agrees_same]]. intro H. destruct (H PX (or_introl eq_refl)); discriminate.
Qed.

(** C152.  The 'encoded' processing never returns an average, whatever the group, the string and the counts: it reads the
    entry 0 of an operator whose entries are strings.  With more than three Z strings its filter raises on any outcome. *)
Theorem C152_never_returns : forall (K : CoefRing) N paulis TM s l, @measure_stabilizer K N paulis TM s l = None.
Proof. exact measure_never. Qed.
Print Assumptions C152_never_returns.
Theorem C152_many_strings : forall Nq sc l, 3 < length (sc_zz sc) -> l <> [] -> filter_encoded Nq sc l = None.
Proof. exact filter_many. Qed.
Print Assumptions C152_many_strings.
(** A case: the string XX has an entry and an image, and the four-fold group has four Z strings. *)
Example C152_case : option_map (fun sc => @fetch GaussQ 2 (sc_TM sc) [[PX; PX]]) (stabilized_circuit 20 2 [[PX; PX]]) = Some (Some ([PZ; PI], c1)) /\
  option_map (fun sc => length (sc_zz sc)) (stabilized_circuit 60 5 [[PX; PX; PX; PX; PX]]) = Some 4.
Proof. split; vm_compute; reflexivity. Qed.

(** C153.  The filter of 'encoded' drops every outcome of some states with the right electron numbers: for the group XX
    and the determinant in which both spin orbitals are occupied, each outcome of non-zero amplitude is dropped. *)
Theorem C153_keeps_refuted : exists N ps sc det, stabilized_circuit (2 * N * N + 7) N ps = Some sc /\ length det = N /\ length (filter (fun x => x) det) = 2 /\
  (exists k, length k = N /\ mvec N (cmat rrt N (circuit rrt (sc_gates sc))) (basis_vec det) k <> c0) /\
  forall k, length k = N -> mvec N (cmat rrt N (circuit rrt (sc_gates sc))) (basis_vec det) k <> c0 ->
    forall v, (0 < v)%Z -> filter_encoded N sc [(rev k, v)] = Some [].
Proof. exact encoded_drops. Qed.
Print Assumptions C153_keeps_refuted.
(** The rule: for one, two or three symmetry strings with images ms, an outcome is kept according to which images it
    measures as -1, and nothing else; the counts are unchanged. *)
Theorem C153_rule : forall Nq sc ms l, 1 <= length (sc_zz sc) <= 3 -> map (fun z => pget z (sc_TM sc)) (sc_zz sc) = map Some ms -> (forall m, In m ms -> length m = Nq) ->
  (forall k v, In (k, v) l -> length k = Nq /\ v <> 0%Z) ->
  filter_encoded Nq sc l = Some (filter (fun kv => kept (map (fun m => outcome_parity m (rev (fst kv))) ms)) l).
Proof. exact encoded_rule. Qed.
Print Assumptions C153_rule.
Example C153_case : option_map (fun sc => (sc_zz sc, map (fun z => pget z (sc_TM sc)) (sc_zz sc), filter_encoded 3 sc [([false; false; false], 5); ([true; false; false], 2); ([true; true; false], 3)]%Z))
    (stabilized_circuit 60 3 [[PX; PX; PX]])
  = Some ([[PZ; PZ; PI]; [PZ; PI; PZ]], [Some [PI; PZ; PI]; Some [PI; PI; PZ]], Some [([false; false; false], 5); ([true; true; false], 3)]%Z).
Proof. vm_compute. reflexivity. Qed.

(** C154.  Commuting is not enough: for XX and YZ, which commute, the image of a generator is not a product of I and Z. *)
Theorem C154_commuting_refuted : exists N ps sc, (forall p q, In p ps -> In q ps -> meq N (mmul N (@pmat GaussQ p) (pmat q)) (mmul N (pmat q) (pmat p))) /\
  stabilized_circuit (2 * N * N + 7) N ps = Some sc /\ exists t m, In (t, m) (sc_TM sc) /\ ~ diagonal m.
Proof. exact commuting_not_enough. Qed.
Print Assumptions C154_commuting_refuted.
