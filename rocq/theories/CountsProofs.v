(** Averages from counts and from amplitudes. *)
From Coq Require Import Bool List Arith ZArith QArith Lia Ring.
From Verif Require Import Coeff MatSpec MatLemmas FockSpec CircuitSpec CircuitModel CircuitProofs CircuitProofs2 TomoModel.
Import ListNotations.

Lemma skipn_nth (l : list bool) i : (i < length l)%nat -> skipn i l = nth i l false :: skipn (S i) l.
Proof. revert i. induction l as [|x l IH]; intros [|i] H; cbn in H; try lia; [reflexivity|]. cbn [skipn nth]. apply IH. lia. Qed.
Lemma nth_error_rev' (det : list bool) i : (i < length det)%nat ->
  nth_error det (length det - i - 1) = Some (nth i (rev det) false).
Proof.
  intro H. rewrite rev_nth by exact H. replace (length det - S i)%nat with (length det - i - 1)%nat by lia.
  apply nth_error_nth'. lia.
Qed.
Lemma det_phase_spec s : forall i det ph, (i + length s <= length det)%nat ->
  det_phase (Z.of_nat (length det)) (Z.of_nat i) s det ph
  = Some (if outcome_parity s (skipn i (rev det)) then - ph else ph)%Z.
Proof.
  induction s as [|z s IH]; intros i det ph H; [reflexivity|]. cbn [length] in H. cbn [det_phase].
  rewrite (skipn_nth (rev det) i) by (rewrite rev_length; lia). cbn [outcome_parity].
  replace (Z.of_nat i + 1)%Z with (Z.of_nat (S i)) by lia.
  destruct (pauli_eqb z PI) eqn:E; cbn [negb andb].
  - rewrite IH by lia. rewrite xorb_false_l. reflexivity.
  - unfold py_nth. replace (0 <=? Z.of_nat (length det) - Z.of_nat i - 1)%Z with true by (symmetry; apply Z.leb_le; lia).
    replace (Z.to_nat (Z.of_nat (length det) - Z.of_nat i - 1)) with (length det - i - 1)%nat by lia.
    rewrite nth_error_rev' by lia. rewrite IH by lia.
    destruct (nth i (rev det) false), (outcome_parity s (skipn (S i) (rev det))); cbn; try reflexivity. rewrite Z.opp_involutive. reflexivity.
Qed.
Lemma counts_loop_spec Nq s counts : (length s <= Nq)%nat -> (forall det n, In (det, n) counts -> length det = Nq) -> forall val total,
  counts_loop Nq s counts val total
  = Some (val + weighted s counts, total + shots counts)%Z.
Proof.
  intros Hs. induction counts as [|[det n] counts IH]; intros Hd val total; unfold weighted, shots in *; cbn [counts_loop map zsum fold_right fst snd].
  - rewrite !Z.add_0_r. reflexivity.
  - pose proof (Hd det n (or_introl eq_refl)) as L. rewrite <- L. pose proof (det_phase_spec s 0 det 1%Z) as P. cbn [Z.of_nat skipn] in P.
    rewrite P by (rewrite L; cbn; lia). rewrite L, IH by (intros; eapply Hd; right; eassumption).
    change (if outcome_parity s (rev det) then (- (1))%Z else 1%Z) with (eigenvalue s det). unfold zsum. f_equal. f_equal; ring.
Qed.
Lemma measure_counts_spec Nq s counts : (length s <= Nq)%nat -> (forall det n, In (det, n) counts -> length det = Nq) ->
  shots counts <> 0%Z ->
  measure_counts Nq s counts = Some (inject_Z (weighted s counts) / inject_Z (shots counts))%Q.
Proof.
  intros Hs Hd Ht. unfold measure_counts. rewrite counts_loop_spec by assumption. cbn [Z.add].
  destruct (Z.eqb_spec (shots counts) 0) as [E|E]; [contradiction|]. reflexivity.
Qed.
Lemma eigen_bound s counts : (forall det n, In (det, n) counts -> 0 <= n)%Z ->
  (- shots counts <= weighted s counts <= shots counts)%Z.
Proof.
  induction counts as [|[det n] counts IH]; intro H; unfold weighted, shots in *; cbn [map zsum fold_right fst snd]; [lia|].
  pose proof (H det n (or_introl eq_refl)). specialize (IH (fun d m Hm => H d m (or_intror Hm))). unfold zsum in *.
  assert (E : eigenvalue s det = 1%Z \/ eigenvalue s det = (-1)%Z) by (unfold eigenvalue; destruct (outcome_parity s (rev det)); auto).
  destruct E as [E|E]; rewrite E; lia.
Qed.
Lemma measure_counts_bound Nq s counts q : (length s <= Nq)%nat -> (forall det n, In (det, n) counts -> length det = Nq /\ (0 <= n)%Z) ->
  (0 < shots counts)%Z -> measure_counts Nq s counts = Some q -> (- (1) <= q <= 1)%Q.
Proof.
  intros Hs Hd Ht H. rewrite measure_counts_spec in H; [|exact Hs|intros; eapply Hd; eassumption|lia]. injection H as <-.
  pose proof (eigen_bound s counts (fun d n Hn => proj2 (Hd d n Hn))) as B.
  set (t := shots counts) in *. set (v := weighted s counts) in *.
  assert (P : (0 < inject_Z t)%Q) by (change 0%Q with (inject_Z 0); rewrite <- Zlt_Qlt; exact Ht). split.
  - apply Qle_shift_div_l; [exact P|]. setoid_replace (- (1) * inject_Z t)%Q with (inject_Z (- t)) by (rewrite inject_Z_opp; ring).
    rewrite <- Zle_Qle. lia.
  - apply Qle_shift_div_r; [exact P|]. setoid_replace (1 * inject_Z t)%Q with (inject_Z t) by ring. rewrite <- Zle_Qle. lia.
Qed.
Lemma parity_identity s b : (forall p, In p s -> p = PI) -> outcome_parity s b = false.
Proof.
  revert b. induction s as [|p s IH]; intros [|x b] H; try reflexivity. cbn [outcome_parity]. rewrite (H p (or_introl eq_refl)).
  rewrite IH by (intros; apply H; right; assumption). reflexivity.
Qed.
Lemma measure_counts_identity Nq s counts q : (length s <= Nq)%nat -> (forall p, In p s -> p = PI) ->
  (forall det n, In (det, n) counts -> length det = Nq) -> shots counts <> 0%Z ->
  measure_counts Nq s counts = Some q -> (q == 1)%Q.
Proof.
  intros Hs HI Hd Ht H. rewrite measure_counts_spec in H by assumption. injection H as <-.
  replace (weighted s counts) with (shots counts).
  - unfold Qdiv. apply Qmult_inv_r. intro C. apply Ht. apply (proj1 (inject_Z_injective (shots counts) 0)). exact C.
  - unfold weighted, shots. f_equal. apply map_ext. intros [det n]. cbn [fst snd]. unfold eigenvalue. rewrite parity_identity by exact HI. lia.
Qed.

Section SV.
  Variable K : CoefRing.
  Add Ring KRing : (c_ring K).
  Local Open Scope coef_scope.
  Variable tiny : K -> bool.
  Lemma sv_sign_spec s : forall i b sg, (i <= length b)%nat ->
    sv_sign (length b) i s b sg = xorb sg (outcome_parity s (skipn i (rev b))).
  Proof.
    induction s as [|z s IH]; intros i b sg H; cbn [sv_sign]; [rewrite xorb_false_r; reflexivity|].
    destruct (Nat.ltb_spec i (length b)) as [L|L].
    - rewrite (skipn_nth (rev b) i) by (rewrite rev_length; exact L). cbn [outcome_parity]. rewrite IH by lia.
      rewrite rev_nth by exact L. replace (length b - i - 1)%nat with (length b - S i)%nat by lia.
      destruct (pauli_eqb z PI), (nth (length b - S i) b false), sg, (outcome_parity s (skipn (S i) (rev b))); reflexivity.
    - assert (i = length b) by lia. subst i. rewrite skipn_all2 by (rewrite rev_length; lia). rewrite xorb_false_r. reflexivity.
  Qed.
  Lemma sumbits_snoc n (f : bits -> K) : sumbits (S n) f = sumbits n (fun b => f (b ++ [false])) + sumbits n (fun b => f (b ++ [true])).
  Proof.
    revert f. induction n as [|n IH]; intro f; [reflexivity|].
    change (sumbits (S (S n)) f) with (sumbits (S n) (fun b => f (false :: b)) + sumbits (S n) (fun b => f (true :: b))).
    rewrite (IH (fun b => f (false :: b))), (IH (fun b => f (true :: b))). cbn [sumbits app]. ring.
  Qed.
  Lemma sumbits_rev n (f : bits -> K) : sumbits n (fun b => f (rev b)) = sumbits n f.
  Proof.
    revert f. induction n as [|n IH]; intro f; [reflexivity|]. rewrite (sumbits_snoc n f). cbn [sumbits rev].
    rewrite (IH (fun b => f (b ++ [false]))), (IH (fun b => f (b ++ [true]))). reflexivity.
  Qed.
  Definition lsum (l : list K) : K := fold_right cadd 0 l.
  Lemma lsum_app a b : lsum (a ++ b) = lsum a + lsum b.
  Proof. unfold lsum. induction a as [|x a IH]; cbn [fold_right app]; [ring|]. rewrite IH. ring. Qed.
  Lemma lsum_bin n (f : bits -> K) : lsum (map f (bin_strings n)) = sumbits n f.
  Proof. revert f. induction n as [|n IH]; intro f; [unfold lsum; cbn [bin_strings map fold_right sumbits]; ring|]. cbn [bin_strings sumbits]. rewrite map_app, lsum_app, !map_map, !IH. reflexivity. Qed.
  Lemma bin_len n b : In b (bin_strings n) -> length b = n.
  Proof.
    revert b. induction n as [|n IH]; intros b; cbn; [intros [<-|[]]; reflexivity|]. intro H. apply in_app_or in H.
    destruct H as [H|H]; apply in_map_iff in H; destruct H as [b' [<- H]]; cbn; rewrite (IH b' H); reflexivity.
  Qed.
  Lemma sv_loop_spec Nq s (psi : bits -> K) l : (forall b, In b l -> length b = Nq) -> forall val,
    sv_loop K tiny Nq s (combine l (map (fun b => psi (rev b)) l)) val
    = val + lsum (map (fun b => if tiny (psi (rev b)) then 0 else sgn (outcome_parity s (rev b)) * (cconj (psi (rev b)) * psi (rev b))) l).
  Proof.
    induction l as [|b l IH]; intros H val; cbn [map combine sv_loop lsum fold_right]; [ring|].
    rewrite IH by (intros; apply H; right; assumption). pose proof (H b (or_introl eq_refl)) as L.
    assert (E : sv_sign Nq 0 s b false = outcome_parity s (rev b)).
    { rewrite <- L. rewrite sv_sign_spec by lia. cbn [skipn]. apply xorb_false_l. }
    rewrite E. unfold lsum. destruct (tiny (psi (rev b))); [ring|]. unfold sgn. destruct (outcome_parity s (rev b)); ring.
  Qed.
  Lemma measure_sv_spec Nq s (psi : bits -> K) :
    measure_sv tiny Nq s (map (fun b => psi (rev b)) (bin_strings Nq))
    = sumbits Nq (fun b => if tiny (psi b) then 0 else sgn (outcome_parity s b) * (cconj (psi b) * psi b)).
  Proof.
    unfold measure_sv. rewrite sv_loop_spec by apply bin_len.
    pose (f := fun b : bits => if tiny (psi (rev b)) then 0 else sgn (outcome_parity s (rev b)) * (cconj (psi (rev b)) * psi (rev b))).
    transitivity (0 + sumbits Nq f); [f_equal; exact (lsum_bin Nq f)|]. unfold f.
    rewrite (sumbits_rev Nq (fun b => if tiny (psi b) then 0 else sgn (outcome_parity s b) * (cconj (psi b) * psi b))). ring.
  Qed.
  Variable rt : K.
  Hypothesis rt_sq : rt * rt = chalf.
  Hypothesis rt_real : cconj rt = rt.
  Lemma pipeline m p (psi : bits -> K) : agrees p m -> (forall x, tiny x = true -> x = 0) ->
    let N := length m in let phi := mvec N (cmat rt N (basis_gates 0 m)) psi in
    measure_sv tiny N p (map (fun b => phi (rev b)) (bin_strings N)) = expect N (pmat p) psi.
  Proof.
    intros A T N phi. rewrite measure_sv_spec. pose proof (basis_average K rt rt_sq rt_real m p psi A) as B. cbv zeta in B. fold N phi in B. rewrite <- B.
    apply sumbits_ext. intros b _. destruct (tiny (phi b)) eqn:E; [|reflexivity]. rewrite (T _ E). ring.
  Qed.
End SV.
