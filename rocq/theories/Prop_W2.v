(** C108: the two-particle RDM of a wavefunction given by its determinants. *)
From Coq Require Import Bool List Arith ZArith Lia.
From Verif Require Import Coeff MatSpec FockSpec CircuitSpec RdmSpec InvModel IntsModel W2Model W2Proofs2 W2Proofs3.
Import ListNotations.

(** The orbitals the function looks at, and the state of a dictionary. *)
Definition alphas (g : groups) : list nat := g_inactive g ++ g_active g.
Definition amplitude {K : CoefRing} (wf : list (bits * K)) (x : bits) : K :=
  match find (fun e => bits_eqb (fst e) x) wf with Some e => snd e | None => c0 end.
Definition a_dict {K : CoefRing} (R : nat) (wf : list (bits * K)) : Prop :=
  NoDup (map fst wf) /\ forall d v, In (d, v) wf -> length d = R.
Definition orbitals_ok (R : nat) (alpha beta : groups) : Prop :=
  NoDup (alphas alpha ++ alphas beta) /\ Forall (fun x => x < R) (alphas alpha ++ alphas beta).
(** Two different orbitals on each side, all of them looked at, equally many alpha ones on both sides. *)
Definition spin_conserving (alpha beta : groups) (a b c d : nat) : Prop :=
  a <> b /\ c <> d /\ (forall x, In x [a; b; c; d] -> In x (alphas alpha ++ alphas beta)) /\
  length (filter (fun x => if in_dec Nat.eq_dec x (alphas alpha) then true else false) [a; b]) =
  length (filter (fun x => if in_dec Nat.eq_dec x (alphas alpha) then true else false) [c; d]).

(** C108.  If every determinant of the wavefunction leaves the orbitals outside inactive and active empty, and all have the same number
    of alpha electrons, then build_2rdm returns, for every entry, [t a b c d] = < a+_a a+_b a_d a_c >. *)
Theorem C108_full : forall (K : CoefRing) R (wf : list (bits * K)) alpha beta na given,
  a_dict R wf -> orbitals_ok R alpha beta -> orbitals_ok (norb alpha beta) alpha beta ->
  (forall d v, In (d, v) wf -> (forall i, nth i d false = true -> In i (alphas alpha ++ alphas beta)) /\ length (filter (fun i => nth i d false) (alphas alpha)) = na) ->
  exists t, build_2rdm wf alpha beta Full given = Some (norb alpha beta, t) /\
    forall a b c d, t a b c d = rdm_of R (amplitude wf) [a; b] [c; d].
Proof. intros K R wf alpha beta na given [H1 H2] [H3 H4] [_ H5] H6. exact (build_full_amp K R wf alpha beta na given H1 H2 H3 H4 H5 H6). Qed.
(** For any wavefunction: the spin conserving entries are right and the others are zero. *)
Theorem C108_entries : forall (K : CoefRing) R (wf : list (bits * K)) alpha beta given,
  a_dict R wf -> orbitals_ok R alpha beta -> orbitals_ok (norb alpha beta) alpha beta ->
  exists t, build_2rdm wf alpha beta Full given = Some (norb alpha beta, t) /\
    (forall a b c d, spin_conserving alpha beta a b c d -> t a b c d = rdm_of R (amplitude wf) [a; b] [c; d]) /\
    (forall a b c d, ~ spin_conserving alpha beta a b c d -> t a b c d = c0).
Proof. intros K R wf alpha beta given [H1 H2] [H3 H4] [_ H5]. exact (build_full_entries K R wf alpha beta given H1 H2 H3 H4 H5). Qed.
(** The active region: the spin conserving entries with an active orbital are replaced, the others keep the given values. *)
Theorem C108_active : forall (K : CoefRing) R (wf : list (bits * K)) alpha beta N t0,
  a_dict R wf -> orbitals_ok R alpha beta -> orbitals_ok N alpha beta ->
  exists t, build_2rdm wf alpha beta Active (Some (N, t0)) = Some (N, t) /\
    (forall a b c d, spin_conserving alpha beta a b c d -> (exists x, In x [a; b; c; d] /\ ~ In x (g_inactive alpha ++ g_inactive beta)) ->
       t a b c d = rdm_of R (amplitude wf) [a; b] [c; d]) /\
    (forall a b c d, ~ spin_conserving alpha beta a b c d \/ (forall x, In x [a; b; c; d] -> In x (g_inactive alpha ++ g_inactive beta)) -> t a b c d = t0 a b c d).
Proof. intros K R wf alpha beta N t0 [H1 H2] [H3 H4] [_ H5]. exact (build_active_entries K R wf alpha beta N t0 H1 H2 H3 H4 H5). Qed.

(** Two spatial orbitals, one alpha and one beta electron: 2|1010> + (3+i)|0101>. *)
Definition wf108 : list (bits * GaussQ) := [([true; false; true; false], gz 2); ([false; true; false; true], gzi 3 1)].
Definition al108 := mkGroups [0] [1] []. Definition be108 := mkGroups [2] [3] [].
Example C108_example_hyp : a_dict 4 wf108 /\ orbitals_ok 4 al108 be108 /\ norb al108 be108 = 4 /\
  (forall d v, In (d, v) wf108 -> (forall i, nth i d false = true -> In i (alphas al108 ++ alphas be108)) /\ length (filter (fun i => nth i d false) (alphas al108)) = 1).
Proof.
  repeat split.
  - repeat constructor; cbn; intuition discriminate.
  - intros d v [E|[E|[]]]; injection E as <- <-; reflexivity.
  - cbn. repeat constructor; cbn; lia.
  - cbn. repeat constructor.
  - destruct H as [E|[E|[]]]; injection E as <- <-; intros [|[|[|[|i]]]] H; cbn in *; try discriminate; auto 10; destruct i; discriminate.
  - destruct H as [E|[E|[]]]; injection E as <- <-; reflexivity.
Qed.
Example C108_example : option_map (fun r => (fst r, ceqb (snd r 0 2 1 3) (gzi 6 2), ceqb (snd r 0 2 3 1) (gzi (-6) (-2)), ceqb (snd r 1 3 1 3) (gz 10), ceqb (snd r 0 1 0 1) (gz 0)))
  (build_2rdm wf108 al108 be108 Full None) = Some (4, true, true, true, true).
Proof. vm_compute. reflexivity. Qed.

Print Assumptions C108_full.
Print Assumptions C108_entries.
Print Assumptions C108_active.
