(** Spin properties and cumulants of the 2-RDM of a state. *)
From Coq Require Import Bool List Arith Lia Ring.
From Verif Require Import Coeff MatSpec MatLemmas FockSpec OpSpec CircuitSpec RdmModel RdmSpec RdmFock RdmProofs RdmWedge
  HamModel HamSpec HamProofs HamProofs2 HamProofs3 RdmObjModel RdmObjSpec RdmObjProofs2 RdmObjProofs3 RdmObjProofs4 RdmObjProofs6.
Import ListNotations.

Section Props.
  Variable K : CoefRing.
  Add Ring KRing : (c_ring K).
  Local Open Scope coef_scope.

  Lemma trace2_ext_r r (A D D' : nat -> nat -> K) : (forall i j, D i j = D' i j) -> trace2 r A D = trace2 r A D'.
  Proof. intro H. rewrite !trace2_eq. apply upto_ext. intros i _. apply upto_ext. intros j _. now rewrite H. Qed.
  Lemma observable_ext_r r (A D D' : nat -> nat -> nat -> nat -> K) : (forall i j k l, D i j k l = D' i j k l) -> observable r A D = observable r A D'.
  Proof.
    intro H. rewrite !observable_eq. apply upto_ext. intros i _. apply upto_ext. intros k _. apply upto_ext. intros j _. apply upto_ext. intros l _. now rewrite H.
  Qed.
  Lemma Sz_ext (D D' : nat -> nat -> K) a b : (forall i j, D i j = D' i j) -> Sz D a b = Sz D' a b.
  Proof. intro H. unfold Sz. destruct (get_Sz_mat a b) as [m|]; [|reflexivity]. cbn [option_map]. f_equal. now apply trace2_ext_r. Qed.
  Lemma S2_ext (D D' : nat -> nat -> K) (G G' : nat -> nat -> nat -> nat -> K) a b :
    (forall i j, D i j = D' i j) -> (forall i j k l, G i j k l = G' i j k l) -> S2 G D a b = S2 G' D' a b.
  Proof.
    intros H H4. unfold S2. destruct (get_SpSm_mat a b) as [[p1 p2]|]; [|reflexivity]. destruct (get_Sz2_mat a b) as [[q1 q2]|]; [|reflexivity]. destruct (get_Sz_mat a b) as [z|]; [|reflexivity].
    f_equal. now rewrite !(trace2_ext_r _ _ D D' H), !(observable_ext_r _ _ G G' H4).
  Qed.

  Lemma reduce2 R Ne w (D : tensor K) psi : (2 <= Ne)%nat -> has_particles R Ne psi -> ofnat (Ne - 1) * w = 1 ->
    (forall i k j l, D [i; k; j; l] = rdm_of R psi [i; k] [j; l]) -> forall i j, reduce_order 2 R w D [i; j] = rdm_of R psi [i] [j].
  Proof.
    intros HN Hp Hw HD i j. replace (Ne - 1)%nat with (Ne - 2 + 1)%nat in Hw by lia.
    refine (reduce_order_spec K 2 R Ne w D psi (or_introl eq_refl) HN Hp Hw _ [i] [j] eq_refl eq_refl).
    intros c a Lc La. destruct c as [|i1 [|k1 [|? ?]]]; try discriminate. destruct a as [|j1 [|l1 [|? ?]]]; try discriminate. apply HD.
  Qed.
  Lemma spin_properties_spec Ne w al be (D : tensor K) psi : (2 <= Ne)%nat -> length al = length be -> NoDup (al ++ be) ->
    (forall x, In x (al ++ be) -> (x < length al + length be)%nat) -> has_particles (length al + length be) Ne psi -> ofnat (Ne - 1) * w = 1 ->
    (forall i k j l, D [i; k; j; l] = rdm_of (length al + length be) psi [i; k] [j; l]) ->
    spin_properties w al be D = Some (expect (length al + length be) (S_z (combine al be)) psi, expect (length al + length be) (S_squared (length al + length be) (combine al be)) psi).
  Proof.
    intros HN HL ND Hb Hp Hw HD. set (R := (length al + length be)%nat) in *.
    assert (NR : norb (plain al) (plain be) = R) by reflexivity.
    assert (P : paired (plain al) (plain be)) by (split; [reflexivity|]; split; [exact HL|]; split; cbn [plain inactive active app]; [exact (NoDup_app_l _ _ ND)|exact (NoDup_app_r _ _ ND)]).
    assert (W : within (plain al) (plain be)) by (unfold within; rewrite NR; exact Hb).
    assert (E1 := reduce2 R Ne w D psi HN Hp Hw HD).
    unfold spin_properties. fold R.
    rewrite (Sz_ext _ (rho1 K R psi) _ _ E1), (S2_ext _ (rho1 K R psi) _ (rho2 K R psi) _ _ E1 HD).
    rewrite <- NR, Sz_spec, S2_spec by assumption. reflexivity.
  Qed.
  Lemma cumulant_state R Ne w (D : tensor K) psi : (2 <= Ne)%nat -> has_particles R Ne psi -> ofnat (Ne - 1) * w = 1 ->
    (forall i k j l, D [i; k; j; l] = rdm_of R psi [i; k] [j; l]) ->
    forall i k j l, (i < R)%nat -> (k < R)%nat -> (j < R)%nat -> (l < R)%nat ->
    cumulant R w D [i; k; j; l] = rdm_of R psi [i; k] [j; l] - (rdm_of R psi [i] [j] * rdm_of R psi [k] [l] - rdm_of R psi [i] [l] * rdm_of R psi [k] [j]).
  Proof.
    intros HN Hp Hw HD i k j l Hi Hk Hj Hl. unfold cumulant, tmap2. rewrite wedge_square by (assumption || apply half_two).
    now rewrite HD, !(reduce2 R Ne w D psi HN Hp Hw HD).
  Qed.
  Lemma set_diag v l : forall (t : nat -> nat -> K) x y, fold_left (fun t p => set2 p p v t) l t x y = if Nat.eqb x y && existsb (Nat.eqb x) l then v else t x y.
  Proof.
    induction l as [|p l IH]; intros t x y; cbn [fold_left existsb]; [now rewrite andb_false_r|]. rewrite IH. unfold set2.
    destruct (Nat.eqb_spec x y) as [<- | N]; cbn [andb].
    - destruct (existsb (Nat.eqb x) l); [now rewrite orb_true_r|]. rewrite orb_false_r. now destruct (Nat.eqb x p).
    - destruct (Nat.eqb_spec x p) as [-> | _]; cbn [andb]; [|reflexivity]. destruct (Nat.eqb_spec y p) as [-> | _]; [congruence|reflexivity].
  Qed.
  Lemma Sz_spatial_zero N (rdm1 : nat -> nat -> K) : Sz_spatial rdm1 (plain (seq 0 N)) (plain (seq N N)) = Some 0.
  Proof.
    assert (NR : norb (plain (seq 0 N)) (plain (seq N N)) = (2 * N)%nat) by (unfold norb; cbn [plain inactive active virtual app]; rewrite !seq_length; lia).
    assert (ND : NoDup (seq 0 N ++ seq N N)) by (rewrite <- seq_app; apply seq_NoDup).
    assert (P : paired (plain (seq 0 N)) (plain (seq N N))) by (split; [reflexivity|]; split; [cbn [plain active]; now rewrite !seq_length|]; split; cbn [plain inactive active app]; apply seq_NoDup).
    unfold Sz_spatial, get_Sz_mat. destruct (spin_dicts_spec _ _ P) as [d [e [E _]]]. rewrite E, NR. cbn [plain inactive active virtual all_orbs app].
    assert (Ba : below (2 * N) (seq 0 N) = true) by (apply below_spec; intros x Hx; apply in_seq in Hx; lia).
    assert (Bb : below (2 * N) (seq N N) = true) by (apply below_spec; intros x Hx; apply in_seq in Hx; lia).
    rewrite Ba, Bb. cbn [andb]. unfold all_orbs. cbn [plain inactive active virtual app]. rewrite !app_nil_r.
    set (m := fold_left _ (seq N N) _). destruct (spatial2_default K N m) as [s [Es Hs]]. rewrite Es. cbn [option_map]. f_equal.
    assert (Md : forall i j, m i j = if Nat.eqb i j && existsb (Nat.eqb i) (seq N N) then - chalf else if Nat.eqb i j && existsb (Nat.eqb i) (seq 0 N) then chalf else 0).
    { intros i j. unfold m. now rewrite !set_diag. }
    replace (Nat.div2 (2 * N)) with N by (symmetry; apply Nat.div2_double). rewrite trace2_eq.
    assert (Ex : forall i a n, existsb (Nat.eqb i) (seq a n) = (a <=? i)%nat && (i <? a + n)%nat).
    { intros i a n. apply eq_true_iff_eq. rewrite existsb_eqb_In, in_seq, andb_true_iff, Nat.leb_le, Nat.ltb_lt. reflexivity. }
    transitivity (upto N (fun _ => 0 : K)); [|apply over_0]. apply upto_ext. intros i Hi. transitivity (upto N (fun _ => 0 : K)); [|apply over_0]. apply upto_ext. intros j Hj.
    rewrite Hs, !Md, !Ex by assumption.
    replace (N <=? i)%nat with false by (symmetry; apply Nat.leb_gt; lia). replace (N <=? N + i)%nat with true by (symmetry; apply Nat.leb_le; lia).
    replace (N + i <? N + N)%nat with true by (symmetry; apply Nat.ltb_lt; lia). replace (i <? 0 + N)%nat with true by (symmetry; apply Nat.ltb_lt; lia).
    replace (N + i =? N + j)%nat with (i =? j)%nat by (apply eq_true_iff_eq; rewrite !Nat.eqb_eq; lia). cbn [andb]. rewrite !andb_false_r.
    replace (N + i <? 0 + N)%nat with false by (symmetry; apply Nat.ltb_ge; lia). rewrite !andb_false_r. cbn [Nat.leb andb]. rewrite !andb_true_r. destruct (Nat.eqb i j); ring.
  Qed.
  Lemma twelve (v : K) : v * ofnat 12 = 1 -> v * ((1 + 1 + 1) * ((1 + 1) * (1 + 1))) = 1.
  Proof. intro V. eapply eq_trans; [|exact V]. cbn [ofnat]. ring. Qed.
  Lemma two_ofnat (w : K) : w * ofnat 2 = 1 -> w * (1 + 1) = 1.
  Proof. intro V. eapply eq_trans; [|exact V]. cbn [ofnat]. ring. Qed.
  Lemma triple_product' r w v (D : tensor K) i j k l m n : w * ofnat 2 = 1 -> v * ofnat 12 = 1 ->
    (i < r)%nat -> (j < r)%nat -> (k < r)%nat -> (l < r)%nat -> (m < r)%nat -> (n < r)%nat ->
    wedge r 2 1 v (wedge r 1 1 w D D) D [i; j; k; l; m; n] = det3 D i j k l m n.
  Proof. intros W V. apply triple_product; [now apply two_ofnat|now apply twelve]. Qed.
  Lemma reconstruct_hf' na nb R al be (w : K) Ne v : 
    (forall z, In z (firstn na al ++ firstn nb be) -> (z < R)%nat) -> NoDup (firstn na al ++ firstn nb be) -> (2 <= length (firstn na al ++ firstn nb be))%nat ->
    ofnat (length (firstn na al ++ firstn nb be) - 1) * w = 1 -> (3 <= Ne)%nat -> v * ofnat 12 = 1 ->
    forall i j k l m n, (i < R)%nat -> (j < R)%nat -> (k < R)%nat -> (l < R)%nat -> (m < R)%nat -> (n < R)%nat ->
    reconstruct2 R Ne w v (build_hf 2 na nb al be) [i; j; k; l; m; n] = build_hf 3 na nb al be [i; j; k; l; m; n].
  Proof. intros Hocc ND L2 Hw HN V i j k l m n. apply reconstruct_hf; try assumption. now apply twelve. Qed.
  Lemma reconstruct_covered' R Ne w v (D : tensor K) : (3 <= Ne)%nat -> v * ofnat 12 = 1 ->
    let D1 := reduce_order 2 R w D in
    alternating 2 (cumulant R w D) -> covers K R 2 1 v (cumulant R w D) D1 ->
    forall i j k l m n, (i < R)%nat -> (j < R)%nat -> (k < R)%nat -> (l < R)%nat -> (m < R)%nat -> (n < R)%nat ->
    reconstruct2 R Ne w v D [i; j; k; l; m; n] = det3 D1 i j k l m n + ofnat 3 * wedge_of R 2 1 v (cumulant R w D) D1 [i; j; k] [l; m; n].
  Proof.
    intros HN V D1 Al Cv i j k l m n Hi Hj Hk Hl Hm Hn. unfold D1 in *. rewrite (reconstruct_covered K R Ne w v D) by (assumption || now apply twelve). cbn [ofnat]. ring.
  Qed.
End Props.
