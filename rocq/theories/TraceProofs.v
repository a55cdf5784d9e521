(** Proofs about PauliString.partial_trace and string comparison. *)
From Coq Require Import Bool List Arith Lia Ring.
From Verif Require Import Coeff MatSpec MatLemmas OpSpec FockSpec PauliModel PauliProofs OperatorProofs FermiModel TraceSpec.
Import ListNotations.

Section Trace.
  Variable K : CoefRing.
  Add Ring KRing : (c_ring K).
  Local Open Scope coef_scope.

  Fixpoint keep (mask : list bool) (s : list pauli) : list pauli :=
    match mask, s with
    | true :: m, _ :: s' => keep m s'
    | false :: m, p :: s' => p :: keep m s'
    | _, _ => []
    end.
  Fixpoint ptc (mask : list bool) (s : list pauli) : K :=
    match mask, s with
    | true :: m, p :: s' => if pauli_eqb p PI then ptc m s' else 0
    | false :: m, _ :: s' => ptc m s'
    | _, _ => 1
    end.

  Lemma keep_app m s m' s' : length m = length s -> keep (m ++ m') (s ++ s') = keep m s ++ keep m' s'.
  Proof.
    revert s. induction m as [|b m IH]; intros [|p s] L; try discriminate L; [reflexivity|].
    cbn in *. destruct b; cbn; rewrite IH by lia; reflexivity.
  Qed.
  Lemma ptc_app m s m' s' : length m = length s -> ptc (m ++ m') (s ++ s') = ptc m s * ptc m' s'.
  Proof.
    revert s. induction m as [|b m IH]; intros [|p s] L; try discriminate L; [cbn; ring|].
    cbn in *. destruct b; cbn; [destruct (pauli_eqb p PI)|]; try rewrite IH by lia; ring.
  Qed.

  Lemma mask_length qb n : length (mask_of qb n) = n.
  Proof. unfold mask_of. rewrite map_length, seq_length. reflexivity. Qed.

  Lemma pt_loop_eq qb s acc (c : K) :
    pt_loop qb (rev s) acc c = (acc ++ rev (keep (mask_of qb (length s)) s), c * ptc (mask_of qb (length s)) s).
  Proof.
    revert acc c. induction s as [|p s IH] using rev_ind; intros acc c.
    - cbn. rewrite app_nil_r. f_equal. ring.
    - rewrite rev_app_distr, app_length. cbn [rev app pt_loop length]. rewrite rev_length.
      unfold mask_of. rewrite seq_app, map_app. cbn [seq map Nat.add]. fold (mask_of qb (length s)).
      rewrite keep_app, ptc_app by apply mask_length. rewrite rev_app_distr.
      destruct (existsb (Nat.eqb (length s)) qb); rewrite IH; cbn.
      + f_equal. destruct (pauli_eqb p PI); ring.
      + rewrite <- app_assoc. cbn. f_equal. ring.
  Qed.

  Lemma partial_trace_eq qb s (c : K) :
    pauli_partial_trace (s, c) qb = (keep (mask_of qb (length s)) s, c * ptc (mask_of qb (length s)) s).
  Proof. unfold pauli_partial_trace. cbn [fst snd]. rewrite pt_loop_eq. cbn. rewrite rev_involutive. reflexivity. Qed.

  Lemma trace_matrix mask s (x : K) : length mask = length s ->
    meq (n_kept mask) (mscal (cpow (1 + 1) (n_traced mask)) (mscal (x * ptc mask s) (pmat (keep mask s))))
        (ptrace mask (mscal x (pmat s))).
  Proof.
    unfold ptrace, mscal. revert s x. induction mask as [|b m IH]; intros [|p s] x L; try discriminate L.
    - intros [|] [|] Hr Hc; try discriminate. cbn. ring.
    - cbn in L. injection L as L. intros r c Hr Hc. destruct b.
      + unfold n_kept, n_traced in *. cbn [filter negb length] in *.
        cbn [weave sumbits pmat cpow keep].
        assert (T : forall t, sumbits (length (filter (fun b => b) m)) (fun b : bits =>
                      x * (pauli1 p t t * pmat s (weave m r b) (weave m c b)))
                    = pauli1 p t t * (cpow (1 + 1) (length (filter (fun b => b) m)) * (x * ptc m s * pmat (keep m s) r c))).
        { intro t. rewrite (IH s x L r c Hr Hc). rewrite <- sumbits_scal. apply sumbits_ext. intros b Hb. ring. }
        rewrite !T. cbn [ptc]. destruct p; cbn; ring.
      + unfold n_kept, n_traced in *. cbn [filter negb length] in *.
        destruct r as [|br r]; [discriminate|]. destruct c as [|bc c]; [discriminate|].
        injection Hr as Hr. injection Hc as Hc. cbn [weave pmat keep ptc].
        transitivity (pauli1 p br bc * (cpow (1 + 1) (length (filter (fun b => b) m)) * (x * ptc m s * pmat (keep m s) r c))).
        { ring. }
        rewrite (IH s x L r c Hr Hc). rewrite <- sumbits_scal. apply sumbits_ext. intros b Hb. ring.
  Qed.

  Lemma keep_length mask s : length mask = length s -> length (keep mask s) = n_kept mask.
  Proof.
    unfold n_kept. revert s. induction mask as [|b m IH]; intros [|p s] L; try discriminate L; [reflexivity|].
    cbn in *. destruct b; cbn; rewrite IH by lia; reflexivity.
  Qed.

  Lemma partial_trace_spec (x : list pauli * K) (qb : list nat) :
    let mask := mask_of qb (length (fst x)) in
    let y := pauli_partial_trace x qb in
    length (fst y) = n_kept mask /\
    meq (n_kept mask) (mscal (cpow (1 + 1) (n_traced mask)) (mscal (snd y) (pmat (fst y))))
      (ptrace mask (mscal (snd x) (pmat (fst x)))).
  Proof.
    destruct x as [s c]. cbn zeta. rewrite partial_trace_eq. cbn [fst snd]. split.
    - apply keep_length, mask_length.
    - apply trace_matrix, mask_length.
  Qed.

  Lemma fop_eqb_spec a b : fop_eqb a b = true <-> a = b.
  Proof. destruct a as [[]|], b as [[]|]; cbn; split; congruence. Qed.
  Lemma fstr_eqb_spec' a b : fstr_eqb a b = true <-> a = b.
  Proof.
    revert b. induction a as [|x a IH]; intros [|y b]; cbn; try (split; congruence).
    rewrite andb_true_iff, fop_eqb_spec, IH. split; [intros [-> ->]; reflexivity|intro H; injection H; auto].
  Qed.

  Lemma pauli_ne_spec (x y : list pauli * K) :
    (pauli_eq x y = true <-> fst x = fst y) /\
    (pauli_ne x y = negb (pauli_eq x y) <-> fst x = fst y /\ snd x <> snd y).
  Proof.
    assert (E : pauli_eq x y = true <-> fst x = fst y) by apply pauli_list_eqb_spec. split; [exact E|].
    unfold pauli_ne. destruct (pauli_eq x y); cbn.
    - rewrite ceqb_false. tauto.
    - split; [discriminate|]. intros [H _]. apply E in H. discriminate.
  Qed.
  Lemma fermi_ne_spec (x y : fstr * K) :
    (fermi_eq x y = true <-> fst x = fst y) /\
    (fermi_ne x y = negb (fermi_eq x y) <-> fst x = fst y /\ snd x <> snd y).
  Proof.
    assert (E : fermi_eq x y = true <-> fst x = fst y).
    { unfold fermi_eq. rewrite fstr_eqb_spec'. split; congruence. } split; [exact E|].
    unfold fermi_ne. unfold fermi_eq in *. destruct (fstr_eqb (fst y) (fst x)); cbn.
    - rewrite ceqb_false. split; [intro H; split; [tauto|congruence]|intros [_ H]; congruence].
    - split; [discriminate|]. intros [H _]. apply E in H. discriminate.
  Qed.
End Trace.
