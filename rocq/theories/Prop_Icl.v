(** C180: the gates of initial_clifford.  [rt] is 1/sqrt 2; a sign is given by a boolean, true for minus. *)
From Coq Require Import Bool List Arith ZArith Ascii.
From Verif Require Import Coeff Sqrt2 MatSpec MatLemmas FockSpec PauliModel CircuitSpec CircuitModel PlanSpec PlanModel OpMoreModel QtomModel IclModel IclSpec IclProofs IclProofs2.
Import ListNotations.
Local Open Scope nat_scope.

(** The list is accepted exactly when each letter is I, i, H, S or V, the last three at a qubit of the register. *)
Theorem C180_letters : forall (K : CoefRing) (N : nat) (U : list ascii),
  ((exists g : list (gate K), initial_clifford N U = Some g) <-> letters_ok N U) /\
  (forall g : list (gate K), initial_clifford N U = Some g -> forall x, In x g -> gate_ok N x /\ is_cx x = false).
Proof.
  intros K N U. split; [exact (clifford_some K N U)|]. intros g H x Hx. split; [exact (clifford_ok K N U g H x Hx)|].
  exact (clifford_single K N U g H x Hx).
Qed.
Print Assumptions C180_letters.

(** The gates are a unitary that takes each Pauli string to the string and sign of the letters. *)
Theorem C180_conjugation : forall (K : CoefRing) (rt : K), cmul rt rt = chalf -> cconj rt = rt ->
  forall N U g s, initial_clifford N U = Some g -> length s = N ->
    let C := cmat rt N g in
    meq N (mmul N (madj C) C) mone /\
    meq N (mmul N (madj C) (mmul N (pmat s) C)) (mscal (sgn (snd (pulled U s))) (pmat (fst (pulled U s)))).
Proof. exact clifford_conj. Qed.
Print Assumptions C180_conjugation.

(** So the average of a string after the gates is the signed average of the string it is taken to before them. *)
Theorem C180_averages : forall (K : CoefRing) (rt : K), cmul rt rt = chalf -> cconj rt = rt ->
  forall N U g s (psi : bits -> K), initial_clifford N U = Some g -> length s = N ->
    expect N (pmat s) (mvec N (cmat rt N g) psi) = (sgn (snd (pulled U s)) * expect N (pmat (fst (pulled U s))) psi)%K.
Proof. exact clifford_average. Qed.
Print Assumptions C180_averages.

(** The reference string acts, up to a power of i, on the state that the gates prepare from |0..0>.  Missing: a reference with
    Y on a qubit whose letter is H or V, for which it fails (next theorem). *)
Theorem C180_reference_partial : forall (K : CoefRing) (rt : K), cmul rt rt = chalf -> cconj rt = rt ->
  forall U t c g, clifford_reference rt (length t) U [(t, c)] = Some g -> y_safe U t ->
    exists h z, initial_clifford (length t) U = Some h /\ forall r, length r = length t ->
      prepared rt (length t) g r = (ipow z * mvec (length t) (pmat t) (prepared rt (length t) h) r)%K.
Proof. intros K rt H1 H2 U t c g. exact (reference_state K rt H1 U t c g). Qed.
Print Assumptions C180_reference_partial.

(** The averages in that state: 0 unless the letters take the string to one of I and Z, and then the sign of the letters, reversed if
    the string anticommutes with the reference. *)
Theorem C180_reference_averages_partial : forall (K : CoefRing) (rt : K), cmul rt rt = chalf -> cconj rt = rt ->
  forall U t c g s, clifford_reference rt (length t) U [(t, c)] = Some g -> y_safe U t -> length s = length t ->
    expect (length t) (pmat s) (prepared rt (length t) g) =
      if diagonal (fst (pulled U s)) then sgn (xorb (clash s t) (snd (pulled U s))) else c0.
Proof. exact reference_average. Qed.
Print Assumptions C180_reference_averages_partial.
(** Whatever the reference, the averages are those for the reference with X in place of each Y. *)
Theorem C180_reference_actual : forall (K : CoefRing) (rt : K), cmul rt rt = chalf -> cconj rt = rt ->
  forall U t c g s, clifford_reference rt (length t) U [(t, c)] = Some g -> length s = length t ->
    expect (length t) (pmat s) (prepared rt (length t) g) =
      if diagonal (fst (pulled U s)) then sgn (xorb (clash s (map (fun p => match p with PY => PX | _ => p end) t)) (snd (pulled U s))) else c0.
Proof. exact reference_actual. Qed.
Print Assumptions C180_reference_actual.
(** With Y replaced nowhere (C180_reference_averages_partial), these are the values (times i when imag=True) that a run of the tomography of a list of strings returns. *)
Theorem C180_run_partial : forall (K : CoefRing) (rt : K), cmul rt rt = chalf -> cconj rt = rt ->
  forall (tiny : K -> bool) simp imag U t c g paulis values, (forall x, tiny x = true -> x = c0) -> sized simp ->
    clifford_reference rt (length t) U [(t, c)] = Some g -> y_safe U t -> (forall s, In s paulis -> length s = length t) ->
    pauli_values rt tiny simp imag (length t) paulis g = Some values ->
    values = map (fun s => cmul (if imag then ci else c1)
                             (if diagonal (fst (pulled U s)) then sgn (xorb (clash s t) (snd (pulled U s))) else c0)) paulis.
Proof. exact reference_run. Qed.
Print Assumptions C180_run_partial.

(** One qubit, one electron, letter H: the reference operator is Y up to a factor, the gates for Y are those of X, and the
    prepared state has <X> = 1, where the state after Y has <X> = -1. *)
Definition c180_init : list (list pauli * GaussR) := match initial_operator 1 [0] with Some o => o | None => [] end.
Theorem C180_reference_refuted : exists U (init : list (list pauli * GaussR)) g h,
  initial_operator 1 [0] = Some init /\ map fst init = [[PY]] /\
  clifford_reference rrt 1 U init = Some g /\ initial_clifford 1 U = Some h /\
  ceqb (expect 1 (pmat [PX]) (prepared rrt 1 g)) c1 = true /\
  ceqb (expect 1 (pmat [PX]) (mvec 1 (pmat [PY]) (prepared rrt 1 h))) (copp c1) = true.
Proof.
  exists ["H"%char], c180_init, ([Gh 0] ++ initial_circuit rrt c180_init), [Gh 0]. split; [|split; [vm_compute; reflexivity|]].
  - assert (H : match @initial_operator GaussR 1 [0] with Some _ => true | None => false end = true) by (vm_compute; reflexivity).
    unfold c180_init. destruct (@initial_operator GaussR 1 [0]); [reflexivity|discriminate H].
  - split; [reflexivity|]. split; [reflexivity|]. split; vm_compute; reflexivity.
Qed.
Print Assumptions C180_reference_refuted.

(** The table of Operator.clifford is that of the gates for H and for V. *)
Theorem C180_table_partial : forall (K : CoefRing) (p : pauli),
  cliff GH p = (fst (pulled1 "H" p), @sgn K (snd (pulled1 "H" p))) /\ cliff GV p = (fst (pulled1 "V" p), @sgn K (snd (pulled1 "V" p))).
Proof. intros K p. destruct p; split; reflexivity. Qed.
Print Assumptions C180_table_partial.
(** For S it is neither that of the gate nor that of its inverse, which takes X to Y and Y to -X. *)
Theorem C180_table_refuted :
  (exists p, fst (@cliff GaussQ GS p) = fst (pulled1 "S" p) /\ ceqb (snd (@cliff GaussQ GS p)) (sgn (snd (pulled1 "S" p))) = false) /\
  (exists p q, pulled1 "S" p = (q, false) /\ p <> q /\ fst (@cliff GaussQ GS q) = p /\ ceqb (snd (@cliff GaussQ GS q)) c1 = false).
Proof. split; [exists PY|exists PY, PX]; repeat split; try discriminate. Qed.
Print Assumptions C180_table_refuted.

(** Case: three qubits of four with H, S, V, and the reference X on the first and Y on the second; the string XYZZ goes to
    - Z X Y Z, and the state prepared by the gates alone has <X> = 1 on the first qubit and <Y> = -1 on the third. *)
Definition c180_U : list ascii := ["H"; "S"; "V"]%char.
Example C180_case :
  (exists g, initial_clifford (K := GaussR) 4 c180_U = Some g /\ length g = 5 /\
     ceqb (expect 4 (pmat [PX; PI; PI; PI]) (prepared rrt 4 g)) c1 = true /\
     ceqb (expect 4 (pmat [PI; PI; PY; PI]) (prepared rrt 4 g)) (copp c1) = true) /\
  letters_ok 4 c180_U /\ ~ letters_ok 2 c180_U /\ pulled c180_U [PX; PY; PZ; PZ] = ([PZ; PX; PY; PZ], true) /\
  y_safe c180_U [PX; PY; PI; PI] /\ (exists g, clifford_reference rrt 4 c180_U [([PX; PY; PI; PI], c1)] = Some g /\ length g = 9) /\
  cmul rrt rrt = chalf /\ cconj rrt = rrt.
Proof.
  split; [exists [Gh 0; Gs 1; Gs 2; Gh 2; Gsdg 2]; split; [reflexivity|]; split; [reflexivity|]; split; unfold prepared;
    rewrite (C180_averages GaussR rrt rrt_sq rrt_real 4 c180_U) by reflexivity; vm_compute; reflexivity|].
  split; [apply (proj1 (C180_letters GaussR 4 c180_U)); eexists; reflexivity|].
  split; [intro H; apply (proj1 (C180_letters GaussR 2 c180_U)) in H; destruct H as [g H]; discriminate H|].
  split; [reflexivity|]. split; [intros [|[|[|[|[|n]]]]] H; try discriminate H; split; discriminate|].
  split; [eexists; split; reflexivity|]. split; [exact rrt_sq|exact rrt_real].
Qed.
(** Letter V, reference Z: the strings Y, X and Z read 1, 0 and 0. *)
Example C180_run_case :
  let U := ["V"]%char in let t := [PZ] in let paulis := [[PY]; [PX]; [PZ]] in
  y_safe U t /\ (forall s, In s paulis -> length s = length t) /\ sized Plain /\
  match clifford_reference (K := GaussR) rrt 1 U [(t, c1)] with
  | Some g => match pauli_values rrt (fun x : GaussR => ceqb x c0) Plain false 1 paulis g with
              | Some [x; y; z] => ceqb x c1 && ceqb y c0 && ceqb z c0 | _ => false end
  | None => false end = true.
Proof.
  split; [intros [|[|n]] H; discriminate H|]. split; [intros s [<- | [<- | [<- | []]]]; reflexivity|]. split; [exact I|].
  vm_cast_no_check (eq_refl true).
Qed.
