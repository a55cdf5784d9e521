(** Arrays measured for the imaginary part are Hermitian whatever the measured values. *)
From Coq Require Import Bool List Arith Permutation Sorted Lia Ring.
From Verif Require Import Coeff MatSpec FockSpec RdmModel RdmSpec RdmEnum RdmPerm RdmFock RdmBuild RdmProofs HamModel HamSpec QRdmModel QRdmSpec QRdmProofs1 QRdmProofs2.
Import ListNotations.
Section QRdm3.
  Variable K : CoefRing.
  Add Ring KRing : (c_ring K).
  Local Open Scope coef_scope.

  Lemma lsum_conj {A} (l : list A) (f : A -> K) : cconj (lsum l f) = lsum l (fun x => cconj (f x)).
  Proof. induction l as [|a l IH]; cbn [lsum fold_right]; [apply cconj_0|]. rewrite cconj_add. f_equal. exact IH. Qed.
  Lemma pu_real l q : cconj (pu K l q) = pu K l q.
  Proof.
    unfold pu. rewrite lsum_conj. apply lsum_ext. intros x _. unfold del. destruct (ind_eqb q (fst x)); [apply cconj_1|apply cconj_0].
  Qed.
  Lemma build_imag_herm p N value : (1 <= p <= 2)%nat -> forall c a, length c = p -> length a = p ->
    build_qrdm p (rdm_elements p false true (seq 0 N) (seq N N)) value (a ++ c)
    = cconj (@build_qrdm K p (rdm_elements p false true (seq 0 N) (seq N N)) value (c ++ a)).
  Proof.
    intros Hp c a Lc La. destruct (enumeration p N false true) as [_ En]; [lia|]. destruct (En eq_refl eq_refl) as [_ [G1 _]].
    set (L := rdm_elements p false true (seq 0 N) (seq N N)) in *.
    set (g := fun c a r => qcontrib K (firstn p r) (rev (skipn p r)) (value r) c a).
    assert (B : forall c a, length c = p -> length a = p -> build_qrdm p L value (c ++ a) = lsum L (g c a)).
    { clear c a Lc La. intros c a Lc La. unfold build_qrdm. rewrite (fold_acc K (fun r t => add_qelement p r (value r) t) (g c a) (c ++ a)); [unfold tzero; ring|].
      intros r t Hr. destruct (G1 r Hr) as [c0 [a0 [[S1 [S2 [L1 [L2 _]]]] [_ ->]]]]. unfold g, listed.
      rewrite (firstn_app_l c0 _ p L1), (skipn_app_l c0 _ p L1), rev_involutive. apply add_qelement_spec; auto; lia. }
    rewrite (B a c La Lc), (B c a Lc La), lsum_conj. apply lsum_ext. intros r Hr. destruct (G1 r Hr) as [c0 [a0 [[S1 [S2 [L1 [L2 _]]]] [Dc ->]]]].
    unfold g, listed. rewrite (firstn_app_l c0 _ p L1), (skipn_app_l c0 _ p L1), rev_involutive. unfold qcontrib.
    replace (ind_eqb a0 c0) with false.
    - rewrite cconj_add, !cconj_mul, !pu_real, cconj_inv. ring.
    - destruct (ind_eqb a0 c0) eqn:E; [|reflexivity]. apply ind_eqb_spec in E. congruence.
  Qed.
  Lemma pacse_from_tomography hss N (values : list (list nat -> K)) small_term : cconj hss = hss -> values <> [] -> (forall x, small_term (- x) = small_term x) ->
    exists t F, run_all hss (map (fun v i k j l => build_qrdm 2 (rdm_elements 2 false true (seq 0 N) (seq N N)) v [i; k; j; l]) values) = Some t
      /\ pacse_operator small_term (2 * N) t = Some F /\ (forall e, In e F -> length (fst e) = 2 * N)%nat /\
      meq (2 * N) (madj (qop_mat F)) (mscal (- (1)) (qop_mat F)).
  Proof.
    intros Hs Ne Hc. apply pacse_antihermitian; [exact Hs| | |exact Hc].
    - destruct values; [contradiction|discriminate].
    - apply Forall_forall. intros t Ht. apply in_map_iff in Ht. destruct Ht as [v [<- _]]. intros i k j l.
      exact (build_imag_herm 2 N v ltac:(lia) [i; k] [j; l] eq_refl eq_refl).
  Qed.
End QRdm3.
