(** C05-C07, C57: histories of Operator calls on shared string objects. *)
From Coq Require Import Bool List ZArith Arith.
From Verif Require Import Coeff MatSpec OpSpec PauliModel PauliProofs OperatorModel OperatorHeap HeapSpec
  HeapProofs HeapDelete CommProofs.
Import ListNotations.

(** C05. After every history of calls each dictionary key is the letter string of the object stored
    under it and no key occurs twice. *)
Theorem C05_self_keyed :
  forall (K : CoefRing) (key : Type) (keqb : key -> key -> bool)
    (keqb_spec : forall a b, keqb a b = true <-> a = b) (smul : key * K -> key * K -> key * K)
    (cs : list (cmd K key)) (st : state K key),
    run keqb smul cs init = Some st ->
    forall i l, contents st i = Some l ->
      NoDup (map fst l) /\ forall k o, In (k, o) l -> exists c, o = Some (k, c).
Proof. exact reach_keys. Qed.
Print Assumptions C05_self_keyed.

(** C05, second part. After every history, adding, subtracting, multiplying or cleaning leaves no
    small coefficient in the resulting Operator. *)
Theorem C05_no_small :
  forall (K : CoefRing) (key : Type) (keqb : key -> key -> bool)
    (keqb_spec : forall a b, keqb a b = true <-> a = b) (smul : key * K -> key * K -> key * K)
    (cs : list (cmd K key)) (st st' : state K key) (c : cmd K key) (i : nat),
    run keqb smul cs init = Some st -> step keqb smul c st = Some st' -> cleaned c st = Some i ->
    forall l k o, contents st' i = Some l -> In (k, o) l -> exists x, o = Some (k, x) /\ small x = false.
Proof.
  intros K key keqb keqb_spec smul cs st st' c i R. apply step_cleaned; [exact keqb_spec|].
  exact (run_sinv K _ _ keqb_spec _ _ _ _ (init_sinv K _) R).
Qed.
Print Assumptions C05_no_small.

(** C05, third part. [remove] deletes the entry of that key only, [clean] the entries with a small coefficient only;
    both succeed in every state and leave the other Operators alone. *)
Theorem C05_remove :
  forall (K : CoefRing) (key : Type) (keqb : key -> key -> bool)
    (keqb_spec : forall a b, keqb a b = true <-> a = b) (smul : key * K -> key * K -> key * K)
    (st : state K key) (i : nat) (k : key) (l : list (key * option (key * K))),
    contents st i = Some l ->
    exists st', step keqb smul (Remove i k) st = Some st' /\
      (exists l', contents st' i = Some l' /\ forall k' o, In (k', o) l' <-> In (k', o) l /\ k' <> k) /\
      (forall j, j <> i -> contents st' j = contents st j).
Proof. exact remove_spec. Qed.
Print Assumptions C05_remove.
Theorem C05_clean :
  forall (K : CoefRing) (key : Type) (keqb : key -> key -> bool)
    (smul : key * K -> key * K -> key * K) (st : state K key) (i : nat) (l : list (key * option (key * K))),
    contents st i = Some l ->
    exists st', step keqb smul (Clean i) st = Some st' /\
      (exists l', contents st' i = Some l' /\
         forall k o, In (k, o) l' <-> In (k, o) l /\ match o with Some (_, c) => small c = false | None => True end) /\
      (forall j, j <> i -> contents st' j = contents st j).
Proof. exact clean_spec. Qed.
Print Assumptions C05_clean.

Definition prun (cs : list (cmd GaussQ (list pauli))) := run pauli_list_eqb pauli_mul cs init.

Example C05_case :
  option_map (fun st => contents st 0)
    (prun [NewString [PX] (gz 1); NewString [PZ] (gz 2); NewOp [0; 1]; NewOp [1]; SubOp 0 1; AddOp 0 0])
  = Some (Some [([PX], Some ([PX], gz 2)); ([PZ], Some ([PZ], gz (-8)))]).
Proof. vm_compute. reflexivity. Qed.
Example C05_remove_case :
  option_map (fun st => (contents st 0, contents st 1))
    (prun [NewString [PX] (gz 1); NewString [PZ] (gz 2); NewOp [0; 1]; NewOp [0]; Remove 0 [PX]; Remove 0 [PY]])
  = Some (Some [([PZ], Some ([PZ], gz 2))], Some [([PX], Some ([PX], gz 1))]).
Proof. vm_compute. reflexivity. Qed.


(** C06 is false of the code: subtracting B changes B, and [A - A] is -2A (also through an alias). *)
Theorem C06_subtrahend_refuted :
  exists cs st st' i j (A B : list (list pauli * GaussQ)),
    prun cs = Some st /\ i <> j /\ holds st i A /\ holds st j B /\ share_nothing st i j /\
    step pauli_list_eqb pauli_mul (SubOp i j) st = Some st' /\ ~ holds st' j B.
Proof.
  set (cs := [NewString [PX] (gz 1); NewString [PZ] (gz 2); NewOp [0]; NewOp [1]]).
  set (st := get_state (prun cs)).
  exists cs, st, (get_state (step pauli_list_eqb pauli_mul (SubOp 0 1) st)), 0, 1, [([PX], gz 1)], [([PZ], gz 2)].
  split; [apply succeeds_get; vm_compute; reflexivity|]. split; [discriminate|].
  split; [vm_compute; reflexivity|]. split; [vm_compute; reflexivity|].
  split; [|split; [apply succeeds_get; vm_compute; reflexivity|vm_compute; discriminate]].
  intros d e a k k' Hd He. vm_compute in Hd, He. injection Hd as <-. injection He as <-. cbn.
  intros [H|[]] [H'|[]]. injection H as _ <-. discriminate H'.
Qed.
Print Assumptions C06_subtrahend_refuted.

Theorem C06_self_difference_refuted :
  exists cs st st' (A : list (list pauli * GaussQ)),
    prun cs = Some st /\ holds st 0 A /\ step pauli_list_eqb pauli_mul (SubOp 0 0) st = Some st' /\
    holds st' 0 (map (fun e => (fst e, (gz (-2) * snd e)%K)) A) /\ A <> [].
Proof.
  set (cs := [NewString [PX] (gz 1); NewString [PZ] (gz 3); NewOp [0; 1]]).
  set (st := get_state (prun cs)).
  exists cs, st, (get_state (step pauli_list_eqb pauli_mul (SubOp 0 0) st)), [([PX], gz 1); ([PZ], gz 3)].
  split; [apply succeeds_get; vm_compute; reflexivity|]. split; [vm_compute; reflexivity|].
  split; [apply succeeds_get; vm_compute; reflexivity|]. split; [vm_compute; reflexivity|discriminate].
Qed.
Print Assumptions C06_self_difference_refuted.

(** C06, the part that holds: when the two Operators store no common string object, the result is the
    cleaned coefficient-wise difference; B is left negated and other Operators that share nothing
    with B are unchanged.  Missing: B unchanged, and operands sharing objects. *)
Theorem C06_difference_partial :
  forall (K : CoefRing) (key : Type) (keqb : key -> key -> bool)
    (keqb_spec : forall a b, keqb a b = true <-> a = b)
    (keq : forall a b : key, {a = b} + {a <> b}) (smul : key * K -> key * K -> key * K)
    (cs : list (cmd K key)) (st : state K key) i j (A B : list (key * K)),
    run keqb smul cs init = Some st -> holds st i A -> holds st j B -> share_nothing st i j ->
    exists st' C, step keqb smul (SubOp i j) st = Some st' /\ holds st' i C /\ NoDup (keys C)
      /\ (forall k c, In (k, c) C <->
            (In k (keys A) \/ In k (keys B)) /\ c = (total keq k A - total keq k B)%K /\ small c = false)
      /\ (i <> j -> holds st' j (map (fun e => (fst e, (- snd e)%K)) B))
      /\ (forall m, m <> i -> m < length (ops st) -> share_nothing st m j -> contents st' m = contents st m).
Proof. exact sub_spec. Qed.
Print Assumptions C06_difference_partial.

(** Subtracting a string object the Operator does not store. *)
Theorem C06_string_difference_partial :
  forall (K : CoefRing) (key : Type) (keqb : key -> key -> bool)
    (keqb_spec : forall a b, keqb a b = true <-> a = b)
    (keq : forall a b : key, {a = b} + {a <> b}) (smul : key * K -> key * K -> key * K)
    (cs : list (cmd K key)) (st : state K key) i a k (c : K) (A : list (key * K)),
    run keqb smul cs init = Some st -> holds st i A -> nth_error (hp st) a = Some (k, c) -> not_stored st i a ->
    exists st' C, step keqb smul (SubStr i a) st = Some st' /\ holds st' i C /\ NoDup (keys C)
      /\ (forall k', total keq k' C = (total keq k' A - (if keq k' k then c else c0))%K)
      /\ nth_error (hp st') a = Some (k, (- c)%K)
      /\ (forall m, m <> i -> m < length (ops st) -> not_stored st m a -> contents st' m = contents st m).
Proof. exact sub_str_spec. Qed.
Print Assumptions C06_string_difference_partial.

Example C06_case :
  exists st, prun [NewString [PX] (gz 1); NewString [PX] (gz 4); NewString [PZ] (gz 2); NewOp [0]; NewOp [1; 2]] = Some st
    /\ share_nothing st 0 1 /\ holds st 0 [([PX], gz 1)] /\ holds st 1 [([PX], gz 4); ([PZ], gz 2)]
    /\ option_map (fun st' => contents st' 0) (step pauli_list_eqb pauli_mul (SubOp 0 1) st)
       = Some (Some [([PX], Some ([PX], gz (-3))); ([PZ], Some ([PZ], gz (-2)))]).
Proof.
  eexists. split; [apply succeeds_get; vm_compute; reflexivity|].
  split; [|split; [vm_compute; reflexivity|split; vm_compute; reflexivity]].
  intros d e a k k' Hd He. vm_compute in Hd, He. injection Hd as <-. injection He as <-. cbn.
  intros [H|[]] [H'|[H'|[]]]; injection H as _ <-; discriminate H'.
Qed.

(** C07 is false of the code: A receives B's string object, and a later [C - B] changes A. *)
Theorem C07_independence_refuted :
  exists cs st st' st'' (A : list (list pauli * GaussQ)),
    prun cs = Some st /\ step pauli_list_eqb pauli_mul (AddOp 0 1) st = Some st' /\ holds st' 0 A /\
    step pauli_list_eqb pauli_mul (SubOp 2 1) st' = Some st'' /\ ~ holds st'' 0 A.
Proof.
  set (cs := [NewString [PX] (gz 1); NewOp []; NewOp [0]; NewOp []]).
  set (st := get_state (prun cs)).
  set (st' := get_state (step pauli_list_eqb pauli_mul (AddOp 0 1) st)).
  exists cs, st, st', (get_state (step pauli_list_eqb pauli_mul (SubOp 2 1) st')), [([PX], gz 1)].
  split; [apply succeeds_get; vm_compute; reflexivity|]. split; [apply succeeds_get; vm_compute; reflexivity|].
  split; [vm_compute; reflexivity|]. split; [apply succeeds_get; vm_compute; reflexivity|vm_compute; discriminate].
Qed.
Print Assumptions C07_independence_refuted.

(** C07, the part that holds: after every history, every call that is not a subtraction leaves all
    Operators other than the one it modifies unchanged, whatever objects they share.  Subtractions
    are covered by the last clauses of the C06 theorems (Operators sharing nothing with the
    subtrahend are unchanged).  Missing: subtraction in the presence of sharing. *)
Theorem C07_independence_partial :
  forall (K : CoefRing) (key : Type) (keqb : key -> key -> bool)
    (keqb_spec : forall a b, keqb a b = true <-> a = b) (smul : key * K -> key * K -> key * K)
    (cs : list (cmd K key)) (st st' : state K key) (c : cmd K key),
    run keqb smul cs init = Some st -> is_sub c = false -> step keqb smul c st = Some st' ->
    forall m, m < length (ops st) -> target c <> Some m -> contents st' m = contents st m.
Proof.
  intros K key keqb keqb_spec smul cs st st' c R. apply step_frame; [exact keqb_spec|].
  exact (run_sinv K _ _ keqb_spec _ _ _ _ (init_sinv K _) R).
Qed.
Print Assumptions C07_independence_partial.

Example C07_case :
  option_map (fun st => (contents st 0, contents st 1))
    (prun [NewString [PX] (gz 1); NewOp []; NewOp [0]; AddOp 0 1; AddOp 1 1])
  = Some (Some [([PX], Some ([PX], gz 1))], Some [([PX], Some ([PX], gz 2))]).
Proof. vm_compute. reflexivity. Qed.

(** C57. In every reachable state the commutator of two Pauli Operators on n qubits denotes AB - BA
    up to a list D of dropped small terms, and leaves every existing Operator unchanged. *)
Theorem C57_commutator :
  forall (K : CoefRing) (n : nat) (cs : list (cmd K (list pauli))) (st : state K (list pauli)) i j
    (A B : list (list pauli * K)),
    run pauli_list_eqb pauli_mul cs init = Some st -> holds st i A -> holds st j B ->
    (forall e, In e A -> length (fst e) = n) -> (forall e, In e B -> length (fst e) = n) ->
    exists st' p (C D : list (list pauli * K)),
      h_commutator pauli_list_eqb pauli_mul i j st = Some (p, st') /\ holds st' p C
      /\ (forall m, m < length (ops st) -> contents st' m = contents st m)
      /\ (forall e, In e D -> small (snd e) = true) /\ (forall e, In e D -> length (fst e) = n)
      /\ length D <= 4 * (length A * length B)
      /\ meq n (madd (omat C) (omat D)) (comm n (omat A) (omat B)).
Proof. exact h_commutator_spec. Qed.
Print Assumptions C57_commutator.

Example C57_case :
  exists st, prun [NewString [PX] (gz 1); NewString [PY] (gz 3); NewOp [0]; NewOp [1]] = Some st
    /\ option_map (fun r => (fst r, contents (snd r) (fst r), contents (snd r) 1))
         (h_commutator pauli_list_eqb pauli_mul 0 1 st)
       = Some (2, Some [([PZ], Some ([PZ], gzi 0 6))], Some [([PY], Some ([PY], gz 3))]).
Proof. eexists. split; [apply succeeds_get; vm_compute; reflexivity|vm_compute; reflexivity]. Qed.
