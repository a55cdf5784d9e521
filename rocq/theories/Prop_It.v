(** C112: tomography on the iterative unitary simulator. [rt] is 1/sqrt 2; [root] is the square root taken of
    the diagonal, needed only to satisfy |root d|^2 = d at the entries it is applied to; [tiny] is the test
    that skips an amplitude, assumed to hold of zero only. *)
From Coq Require Import Bool List Arith.
From Verif Require Import Coeff MatSpec FockSpec PauliModel CircuitSpec CircuitModel TomoModel Sqrt2 ItModel ItSpec ItProofs.
Import ListNotations.

(** One step: the value read for p from the counts of setting m is Tr(p rho'), rho' the density matrix the
    step leaves behind. *)
Theorem C112_simulated_average :
  forall (K : CoefRing) (rt : K), (rt * rt = chalf)%K -> cconj rt = rt ->
  forall (root : K -> K) (tiny : K -> bool), (forall x, tiny x = true -> x = c0) ->
  forall (gates : list (gate K)) (settings : list (list pauli)) (rho : mat K) (m p : list pauli),
    In m settings -> agrees p m ->
    let N := length m in
    let out := it_simulate rt root N gates settings rho in
    let V := cmat rt N (basis_gates 0 m) in
    (forall b, length b = N ->
       let d := mmul N V (mmul N (fst out) (madj V)) b b in (root d * cconj (root d))%K = d) ->
    it_measure tiny N (snd out) m p = Some (mtrace N (mmul N (pmat p) (fst out))).
Proof. exact simulated_average. Qed.
Print Assumptions C112_simulated_average.

(** Steps in sequence: the density matrix is that of the one circuit made of all of them. *)
Theorem C112_steps_compose :
  forall (K : CoefRing) (rt : K) (root : K -> K) (N : nat) (circuits : list (list (gate K))) (rho : mat K),
    let W := cmat rt N (concat circuits) in
    meq N (it_run rt root N circuits rho) (mmul N W (mmul N rho (madj W))).
Proof. exact run_sequence. Qed.
Print Assumptions C112_steps_compose.

(** Any number of steps from a pure state: the value read is the average of p in the state evolved by all
    the circuits. *)
Theorem C112_iterated_average :
  forall (K : CoefRing) (rt : K), (rt * rt = chalf)%K -> cconj rt = rt ->
  forall (root : K -> K) (tiny : K -> bool), (forall x, tiny x = true -> x = c0) ->
  forall (circuits : list (list (gate K))) (last : list (gate K)) (settings : list (list pauli)) (psi : bits -> K) (m p : list pauli),
    In m settings -> agrees p m ->
    let N := length m in
    let out := it_simulate rt root N last settings (it_run rt root N circuits (pure psi)) in
    let V := cmat rt N (basis_gates 0 m) in
    (forall b, length b = N ->
       let d := mmul N V (mmul N (fst out) (madj V)) b b in (root d * cconj (root d))%K = d) ->
    it_measure tiny N (snd out) m p = Some (expect N (pmat p) (mvec N (cmat rt N (concat (circuits ++ [last]))) psi)).
Proof. exact iterated_average. Qed.
Print Assumptions C112_iterated_average.

(** A setting that was not simulated has no counts. *)
Theorem C112_unlisted_setting :
  forall (K : CoefRing) (rt : K) (root : K -> K) (tiny : K -> bool) (N : nat) (gates : list (gate K))
    (settings : list (list pauli)) (rho : mat K) (m p : list pauli),
    ~ In m settings -> it_measure tiny N (snd (it_simulate rt root N gates settings rho)) m p = None.
Proof. exact unlisted_setting. Qed.
Print Assumptions C112_unlisted_setting.

(** |0>, then H, then S: the state is (|0> + i|1>)/sqrt 2, so Y reads 1; in the Z setting the diagonal is
    (1/2, 1/2). *)
Definition c112_root (x : GaussR) : GaussR := if ceqb x chalf then rrt else x.
Definition c112_psi (b : bits) : GaussR := match b with [false] => c1 | _ => c0 end.
Example C112_case :
  let out := it_simulate rrt c112_root 1 [Gs 0] [[PZ]; [PY]] (it_run rrt c112_root 1 [[Gh 0]] (pure c112_psi)) in
  (forall m, In m [[PZ]; [PY]] -> forall b, length b = 1 ->
     let V := cmat rrt 1 (basis_gates 0 m) in
     let d := mmul 1 V (mmul 1 (fst out) (madj V)) b b in (c112_root d * cconj (c112_root d))%K = d)
  /\ agrees [PY] [PY]
  /\ match it_measure (fun x => ceqb x c0) 1 (snd out) [PY] [PY] with Some v => ceqb v c1 | None => false end = true
  /\ match it_measure (fun x => ceqb x c0) 1 (snd out) [PZ] [PZ] with Some v => ceqb v c0 | None => false end = true.
Proof.
  split; [|split; [repeat constructor|split; vm_compute; reflexivity]].
  intros m [<- |[<- |[]]] b Hb; destruct b as [|x [|y b]]; try discriminate Hb; destruct x;
    apply (ceqb_spec GaussR); vm_compute; reflexivity.
Qed.
