(** What the report about the 2-RDM of a state contains. *)
From Coq Require Import Bool List Arith Lia.
From Verif Require Import Coeff MatSpec MatLemmas FockSpec FermiProofs CircuitSpec OpSpec PlanSpec PlanProofs2 InvModel HamModel HamSpec HamProofs HamProofs2 HamProofs3 RdmModel RdmSpec RdmFock RdmProofs
  RdmObjModel RdmObjSpec RdmObjProofs1 RdmObjProofs2 RdmObjProofs7 AnaModel AnaSpec AnaProofs ReportModel.
Import ListNotations.

Section Report.
  Variable K : CoefRing.
  Add Ring KrRep : (c_ring K).
  Local Open Scope coef_scope.

  (** Only indices below r are read. *)
  Lemma trace2_in r (A D D' : nat -> nat -> K) : (forall i j, (i < r)%nat -> (j < r)%nat -> D i j = D' i j) -> trace2 r A D = trace2 r A D'.
  Proof. intro H. unfold trace2. apply sum_range_ext. intros i Hi. apply sum_range_ext. intros j Hj. now rewrite H. Qed.
  Lemma observable_in r (A D D' : nat -> nat -> nat -> nat -> K) :
    (forall i j k l, (i < r)%nat -> (j < r)%nat -> (k < r)%nat -> (l < r)%nat -> D i j k l = D' i j k l) -> observable r A D = observable r A D'.
  Proof.
    intro H. rewrite !observable_eq. apply upto_ext. intros i Hi. apply upto_ext. intros k Hk. apply upto_ext. intros j Hj. apply upto_ext. intros l Hl. now rewrite H.
  Qed.
  Lemma spin_properties_in w al be (D D' : tensor K) : let r := (length al + length be)%nat in
    (forall i k j l, (i < r)%nat -> (k < r)%nat -> (j < r)%nat -> (l < r)%nat -> D [i; k; j; l] = D' [i; k; j; l]) ->
    spin_properties w al be D = spin_properties w al be D'.
  Proof.
    intros r H. assert (H1 : forall i j, (i < r)%nat -> (j < r)%nat -> reduce_order 2 r w D [i; j] = reduce_order 2 r w D' [i; j]).
    { intros i j Hi Hj. cbn [reduce_order]. f_equal. apply sum_range_ext. intros x Hx. now apply H. }
    unfold spin_properties. cbv zeta. fold r.
    assert (N : norb (plain al) (plain be) = r) by reflexivity.
    unfold Sz, S2. rewrite N.
    destruct (get_Sz_mat (plain al) (plain be)) as [z|]; [|reflexivity]. cbn [option_map].
    rewrite (trace2_in r z _ (fun i j => reduce_order 2 r w D' [i; j]) H1).
    destruct (get_SpSm_mat (plain al) (plain be)) as [[p1 p2]|]; [|reflexivity]. destruct (get_Sz2_mat (plain al) (plain be)) as [[q1 q2]|]; [|reflexivity].
    rewrite !(trace2_in r _ _ (fun i j => reduce_order 2 r w D' [i; j]) H1), !(observable_in r _ _ (fun i k j l => D' [i; k; j; l]) H). reflexivity.
  Qed.

  Lemma sumK_lsum {A} (l : list A) (f : A -> K) : sumK (map f l) = lsum l f.
  Proof. unfold sumK, lsum. induction l as [|a l IH]; [reflexivity|]. cbn [map fold_right]. now rewrite IH. Qed.
  Lemma rdm_nil R (psi : bits -> K) : rdm_of R psi [] [] = norm2 R psi.
  Proof. rewrite <- (expect_mone K R psi). unfold rdm_of. apply RdmFock.expect_ext. apply FermiProofs.fock_mat_nil. Qed.
  (** The trace of the 2-RDM. *)
  Lemma trace_pairs R Ne (psi : bits -> K) : has_particles R Ne psi -> sumK (map (fun c => rdm_of R psi c c) (tuples R 2)) = ofnat (Ne * (Ne - 1)) * norm2 R psi.
  Proof.
    intro H. rewrite sumK_lsum. cbn [tuples].
    rewrite lsum_flat_map. transitivity (lsum (seq 0 R) (fun x => ofnat (Ne - 1) * rdm_of R psi [x] [x])).
    - apply lsum_ext. intros x _. rewrite lsum_map, lsum_flat_map.
      pose proof (rdm_contract K R Ne psi [x] [x] H) as Q. cbn [app length] in Q. rewrite <- Q. apply lsum_ext. intros y _. cbn [map app]. unfold lsum. cbn [fold_right]. ring.
    - rewrite lsum_scal. pose proof (rdm_contract K R Ne psi [] [] H) as Q. cbn [app length] in Q. rewrite Q, rdm_nil, Nat.sub_0_r, ofnat_mul. ring.
  Qed.

  Lemma rows_spec r p (a : nda K) T : stores_matrix r p a T -> rows a = Some (matrix_of (tuples r p) T).
  Proof.
    intros [Sh S]. unfold rows. rewrite Sh, Nat.eqb_refl. rewrite <- !tuples_rank. unfold matrix_of. rewrite map_map. apply all_some_map. intros c Hc. rewrite map_map.
    apply all_some_map. intros d Hd. apply S; now apply tuples_orb.
  Qed.

  Section Object.
    Variable E : Type.
    Variable eig : list (list K) -> E.
    Variables (o : rdm K) (w : K) (psi : bits -> K).
    Let r := (length (alp o) + length (bet o))%nat.
    Hypothesis H2 : ord o = 2%nat.
    Hypothesis HN : (2 <= ne o)%nat.
    Hypothesis Hw : ofnat (ne o - 1) * w = 1.
    Hypothesis Hp : has_particles r (ne o) psi.
    Hypothesis Hr : (0 < r)%nat.
    Hypothesis HL : length (alp o) = length (bet o).
    Hypothesis ND : NoDup (alp o ++ bet o).
    Hypothesis Hin : forall x, In x (alp o ++ bet o) -> (x < r)%nat.
    Hypothesis ST : stores r 2 (arr o) (rdm_of r psi).

    Lemma store_analysis_run : exists o', ord o' = 2%nat /\ alp o' = alp o /\ bet o' = bet o /\ ne o' = ne o /\ stores_tensor r 2 (arr o') (rdm_of r psi) /\
      store_analysis eig w o = Some (o', Report K E (expect r (S_z (combine (alp o) (bet o))) psi) (expect r (S_squared r (combine (alp o) (bet o))) psi)
        (Number (ofnat (ne o * (ne o - 1)) * norm2 r psi)) (eig (matrix_of (tuples r 2) (rdm_of r psi))) (eig (matrix_of (singles (seq 0 r)) (rdm_of r psi)))).
    Proof.
      assert (W : wf K o (rdm_of r psi)) by (unfold wf; rewrite H2; exact ST).
      destruct (expand_spec K o (rdm_of r psi) W) as [o1 [E1 [P1 [A1 [B1 [N1 S1]]]]]]. unfold so in S1. fold r in S1. rewrite H2 in S1, P1.
      assert (SO1 : so o1 = r) by (unfold so; rewrite A1, B1; reflexivity).
      assert (W1 : wf K o1 (rdm_of r psi)) by (unfold wf; rewrite SO1, P1; left; exact S1).
      destruct (trace_spec K o1 (rdm_of r psi)) as [o2 [E2 [P2 [A2 [B2 [N2 [W2 _]]]]]]]; [lia|lia|exact W1|]. rewrite SO1, P1 in E2.
      assert (SO2 : so o2 = r) by (unfold so; rewrite A2, B2; exact SO1).
      destruct (contract_spec K o2 (rdm_of r psi) W2) as [o3 [E3 [P3 [A3 [B3 [N3 S3]]]]]]. rewrite SO2, P2, P1 in S3.
      assert (SO3 : so o3 = r) by (unfold so; rewrite A3, B3; exact SO2).
      assert (W3 : wf K o3 (rdm_of r psi)) by (unfold wf; rewrite SO3, P3, P2, P1; right; exact S3).
      destruct (expand_spec K o3 (rdm_of r psi) W3) as [o4 [E4 [P4 [A4 [B4 [N4 S4]]]]]]. rewrite SO3, P3, P2, P1 in S4.
      assert (SO4 : so o4 = r) by (unfold so; rewrite A4, B4; exact SO3).
      exists o4. split; [congruence|]. split; [congruence|]. split; [congruence|]. split; [congruence|]. split; [exact S4|].
      unfold store_analysis. rewrite H2. cbn [Nat.eqb negb]. rewrite E1, A1, B1.
      assert (Q2 : forall i k, (i < r)%nat -> (k < r)%nat -> orbital_list r 2 [i; k]) by (intros; split; [reflexivity|repeat constructor; assumption]).
      assert (SP := spin_properties_spec K (ne o) w (alp o) (bet o) (fun ix => match ix with [i; k; j; l] => rdm_of r psi [i; k] [j; l] | _ => 0 end) psi HN HL ND Hin Hp Hw (fun _ _ _ _ => eq_refl)).
      rewrite (spin_properties_in w (alp o) (bet o) _ (fun ix => match ix with [i; k; j; l] => rdm_of r psi [i; k] [j; l] | _ => 0 end)).
      2:{ fold r. intros i k j l Hi Hk Hj Hl. rewrite (proj2 S1 [i; k] [j; l] (Q2 _ _ Hi Hk) (Q2 _ _ Hj Hl) : get (arr o1) [i; k; j; l] = _). reflexivity. }
      fold r in SP. rewrite SP, E2, E3, (rows_spec r 2 _ _ S3), E4, (trace_pairs r (ne o) psi Hp).
      assert (R1 : rows1 w o4 = Some (matrix_of (singles (seq 0 r)) (rdm_of r psi))).
      { unfold rows1. rewrite SO4. apply block_matrix. intros I J HI HJ. unfold singles in HI, HJ. apply in_map_iff in HI, HJ. destruct HI as [i [<- Hi]]. destruct HJ as [j [<- Hj]].
        apply in_seq in Hi, Hj. assert (Li : (i < r)%nat) by lia. assert (Lj : (j < r)%nat) by lia.
        cbn [app rdm1_]. rewrite SO4. rewrite (proj2 (Nat.ltb_lt i r) Li), (proj2 (Nat.ltb_lt j r) Lj). cbn [andb]. f_equal.
        rewrite <- (reduce2 K r (ne o) w (fun ix => match ix with [i; k; j; l] => rdm_of r psi [i; k] [j; l] | _ => 0 end) psi HN Hp Hw (fun _ _ _ _ => eq_refl) i j).
        cbn [reduce_order]. f_equal. apply sum_range_ext. intros x Hx. rewrite (proj2 S4 [i; x] [j; x] (Q2 _ _ Li Hx) (Q2 _ _ Lj Hx) : get (arr o4) [i; x; j; x] = _). reflexivity. }
      rewrite R1. reflexivity.
    Qed.
  End Object.
  Lemma store_analysis_order E (eig : list (list K) -> E) w (o : rdm K) : ord o <> 2%nat -> store_analysis eig w o = None.
  Proof. intro H. unfold store_analysis. now rewrite (proj2 (Nat.eqb_neq _ _) H). Qed.
End Report.
