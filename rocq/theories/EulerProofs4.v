(** The energy is bounded by the coefficients; an Euler step lowers it. *)
From Coq Require Import Bool List Arith ZArith Reals Lra Lia.
From Verif Require Import Coeff MatSpec MatLemmas AdjProofs OpSpec FockSpec CircuitSpec CircuitModel CircuitProofs2 ComplexR OperatorModel OperatorProofs OpTotal FermiModel FermiProofs
  InvModel InvSpec InvProofs HamModel HamSpec HamProofs HamProofs3 TransformModel QuantSpec QuantProofs QuantProofs2 RdmFock AcseModel PlanSpec PlanProofs2 PlanProofs3 PlanProofs5
  ResSpec ResModel ResProofs ResProofs3 ConsModel ConsProofs KeyProofs EulerSpec EulerModel EulerProofs EulerProofs2 EulerProofs3.
Import ListNotations.
Local Open Scope R_scope.
Add Ring CxRing5 : (c_ring Cx).

(** ** Expectation values of words *)
Lemma re_sumbits N (f : bits -> Cx) : (forall b, 0 <= fst (f b)) -> 0 <= fst (sumbits N f).
Proof.
  revert f. induction N as [|n IH]; intros f H; [exact (H [])|]. cbn [sumbits]. cbn [Cx cadd Cadd fst]. pose proof (IH (fun b => f (false :: b)) (fun b => H _)) as H1. pose proof (IH (fun b => f (true :: b)) (fun b => H _)) as H2.
  cbn [Cx] in H1, H2. lra.
Qed.
Lemma norm2_pos N (psi : bits -> Cx) : 0 <= fst (norm2 N psi).
Proof. unfold norm2. apply re_sumbits. intro b. destruct (psi b) as [x y]. cbn [Cx cmul cconj Cmul Cconj fst snd]. nra. Qed.
Lemma norm2_mvec N (M : mat Cx) psi : norm2 N (mvec N M psi) = expect N (mmul N (madj M) M) psi.
Proof. rewrite <- expect_mone, CircuitProofs2.expect_adj, expect_mone. reflexivity. Qed.
Lemma mvec_id N (psi : bits -> Cx) b : length b = N -> mvec N mone psi b = psi b.
Proof. intro L. unfold mvec, mone. transitivity (sumbits N (fun c => if bits_eqb c b then psi c else c0 : Cx)); [|apply (sumbits_pick Cx N b psi L)].
  apply sumbits_ext. intros c _. rewrite (bits_eqb_sym b c). destruct (bits_eqb c b); ring. Qed.
Lemma letter_contraction N o q (psi : bits -> Cx) : (q < N)%nat -> ladder o = true -> fst (norm2 N (mvec N (fock_mat [(o, q)]) psi)) <= fst (@norm2 Cx N psi).
Proof.
  intros Hq Ho. assert (E : cadd (norm2 N (mvec N (fock_mat [(Ann, q)]) psi)) (norm2 N (mvec N (fock_mat [(Cre, q)]) psi)) = @norm2 Cx N psi).
  { rewrite !norm2_mvec, <- expect_plus, <- (expect_mone Cx). apply CircuitProofs2.expect_meq.
    assert (A1 := fock_mat1_adj Cx Ann q N). assert (A2 := fock_mat1_adj Cx Cre q N). cbn [fadj] in A1, A2.
    eapply meq_trans; [|apply (car_one Cx q N Hq)]. intros r c Lr Lc. unfold anticomm, madd.
    rewrite (mmul_meq Cx N _ (fock_mat [(Cre, q)]) _ (fock_mat [(Ann, q)]) (meq_sym _ _ _ _ A1) (meq_refl _ _ _) r c Lr Lc).
    rewrite (mmul_meq Cx N _ (fock_mat [(Ann, q)]) _ (fock_mat [(Cre, q)]) (meq_sym _ _ _ _ A2) (meq_refl _ _ _) r c Lr Lc). ring. }
  apply (f_equal fst) in E. cbn [Cx cadd Cadd fst] in E.
  pose proof (norm2_pos N (mvec N (fock_mat [(Ann, q)]) psi)) as P1. pose proof (norm2_pos N (mvec N (fock_mat [(Cre, q)]) psi)) as P2. cbn [Cx] in P1, P2.
  destruct o; try discriminate; cbn [Cx]; lra.
Qed.
Lemma word_contraction N l (psi : bits -> Cx) : (forall e, In e l -> (snd e < N)%nat /\ ladder (fst e) = true) -> fst (norm2 N (mvec N (fock_mat l) psi)) <= fst (@norm2 Cx N psi).
Proof.
  revert psi. induction l as [|[o q] l IH]; intros psi H.
  - right. f_equal. apply sumbits_ext. intros b Lb. rewrite (mvec_meq Cx N _ _ psi b (fock_mat_nil Cx N) Lb). rewrite (mvec_id N psi b Lb). reflexivity.
  - assert (E : norm2 N (mvec N (fock_mat ((o, q) :: l)) psi) = @norm2 Cx N (mvec N (fock_mat [(o, q)]) (mvec N (fock_mat l) psi))).
    { apply sumbits_ext. intros b Lb. assert (Q := mvec_meq Cx N _ _ psi b (fock_mat_app Cx N [(o, q)] l) Lb). rewrite mvec_mmul in Q. cbn [app] in Q. rewrite Q. reflexivity. }
    rewrite E. eapply Rle_trans; [apply letter_contraction|apply IH; intros e He; apply H; now right]; apply (H (o, q)); now left.
Qed.

Lemma norm_mix N (g : R) (psi phi : bits -> Cx) : fst (norm2 N (fun b => cadd (psi b) (cmul ((g, 0) : Cx) (phi b)))) =
  fst (norm2 N psi) + g * g * fst (norm2 N phi) + 2 * g * fst (sumbits N (fun b => cmul (cconj (psi b)) (phi b)) : Cx).
Proof.
  unfold norm2.
  rewrite (sumbits_ext Cx N _ (fun b => cadd (cadd (cmul (cconj (psi b)) (psi b)) (cmul ((g * g, 0) : Cx) (cmul (cconj (phi b)) (phi b))))
    (cadd (cmul ((g, 0) : Cx) (cmul (cconj (psi b)) (phi b))) (cmul ((g, 0) : Cx) (cconj (cmul (cconj (psi b)) (phi b))))))).
  2:{ intros b _. destruct (psi b) as [x y], (phi b) as [z w]. apply C_eq; cbn [Cx cadd cmul cconj Cadd Cmul Cconj fst snd]; ring. }
  rewrite !sumbits_add, !sumbits_scal, <- (sumbits_conj Cx N (fun b => cmul (cconj (psi b)) (phi b))).
  generalize (sumbits N (fun b => cmul (cconj (psi b)) (psi b)) : Cx) (sumbits N (fun b => cmul (cconj (phi b)) (phi b)) : Cx) (sumbits N (fun b => cmul (cconj (psi b)) (phi b)) : Cx).
  intros [a a'] [b b'] [d d']. cbn [Cx cadd cmul cconj Cadd Cmul Cconj fst snd]. ring.
Qed.
Lemma word_bound N l (psi : bits -> Cx) : (forall e, In e l -> (snd e < N)%nat /\ ladder (fst e) = true) -> norm2 N psi = c1 -> Rabs (fst (expect N (fock_mat l) psi)) <= 1.
Proof.
  intros H U. pose proof (word_contraction N l psi H) as W. set (phi := mvec N (fock_mat l) psi) in *. change (expect N (fock_mat l) psi) with (sumbits N (fun b => cmul (cconj (psi b)) (phi b)) : Cx).
  pose proof (norm_mix N 1 psi phi) as P. pose proof (norm_mix N (-1) psi phi) as M.
  pose proof (norm2_pos N (fun b => cadd (psi b) (cmul ((1, 0) : Cx) (phi b)))) as P'. pose proof (norm2_pos N (fun b => cadd (psi b) (cmul ((-1, 0) : Cx) (phi b)))) as M'.
  rewrite P in P'. rewrite M in M'. rewrite U in W, P', M'. cbn [Cx c1 C1 fst] in *. apply Rabs_le. lra.
Qed.
(** ** Two-body operators *)
Lemma rsum_abs n (f : nat -> Cx) (g : nat -> R) : (forall i, (i < n)%nat -> Rabs (fst (f i)) <= g i) -> Rabs (fst (upto n f)) <= rsum n g.
Proof.
  intro H. unfold upto, over, rsum. assert (I : forall i, In i (seq 0 n) -> (i < n)%nat) by (intros i Hi; apply in_seq in Hi; lia).
  induction (seq 0 n) as [|i l IH]; cbn [fold_right]; [cbn [Cx c0 C0 fst]; rewrite Rabs_R0; lra|].
  pose proof (H i (I i (or_introl eq_refl))). pose proof (IH (fun j Hj => I j (or_intror Hj))) as G. cbn [Cx cadd Cadd fst] in *. eapply Rle_trans; [apply Rabs_triang|lra].
Qed.
Lemma two_body_within N (K2 : tensor4) : (forall p q s t, cconj (K2 p q s t) = K2 p q s t) -> within N (two_body N K2) (- size4 N K2) (size4 N K2).
Proof.
  intros HR phi U. assert (G : Rabs (fst (expect N (two_body N K2) phi)) <= size4 N K2); [|pose proof (Rle_abs (fst (expect N (two_body N K2) phi))) as G1; pose proof (Rle_abs (- fst (expect N (two_body N K2) phi))) as G2; rewrite Rabs_Ropp in G2; lra].
  assert (E : expect N (two_body N K2) phi = upto N (fun p => upto N (fun q => upto N (fun s => upto N (fun t => cmul (K2 p q s t) (expect N (excitation p q s t) phi)))))).
  { unfold two_body. rewrite (expect_upto Cx N N (fun p x y => upto N (fun q => upto N (fun s => upto N (fun t => cmul (K2 p q s t) (excitation p q s t x y)))))). apply upto_ext. intros p _.
    rewrite (expect_upto Cx N N (fun q x y => upto N (fun s => upto N (fun t => cmul (K2 p q s t) (excitation p q s t x y))))). apply upto_ext. intros q _.
    rewrite (expect_upto Cx N N (fun s x y => upto N (fun t => cmul (K2 p q s t) (excitation p q s t x y)))). apply upto_ext. intros s _.
    rewrite (expect_upto Cx N N (fun t x y => cmul (K2 p q s t) (excitation p q s t x y))). apply upto_ext. intros t _. apply (expect_scal Cx). }
  rewrite E. unfold size4. apply rsum_abs. intros p Hp. apply rsum_abs. intros q Hq. apply rsum_abs. intros s Hs. apply rsum_abs. intros t Ht.
  assert (Z : snd (K2 p q s t) = 0). { pose proof (f_equal snd (HR p q s t)) as Q. cbn [Cx cconj Cconj snd] in Q. lra. }
  assert (B := word_bound N [(Cre, p); (Cre, q); (Ann, t); (Ann, s)] phi). fold (@excitation Cx p q s t) in B.
  assert (B' : Rabs (fst (expect N (excitation p q s t) phi)) <= 1) by (apply B; [intros e [<-|[<-|[<-|[<-|[]]]]]; split; first [assumption|reflexivity]|exact U]).
  destruct (K2 p q s t) as [k k']. cbn [snd fst] in *. subst k'. revert B'. generalize (expect N (excitation p q s t) phi). intros [e e']. cbn [Cx cmul Cmul fst snd]. intro B'.
  replace (k * e - 0 * e') with (k * e) by ring. rewrite Rabs_mult. pose proof (Rabs_pos k). nra.
Qed.

(** ** The step *)
Lemma euler_mat eps (o : cfop) r c : fmat (euler_operator eps o) r c = cmul ((- (1) * eps, 0) : Cx) (fmat o r c).
Proof. induction o as [|[k x] o IH]; cbn [euler_operator map fmat]; unfold madd, mscal, mzero; [ring|]. cbn [fst snd]. fold (euler_operator eps o). rewrite IH. ring. Qed.
Lemma strings_add layers (P : cfop) : (forall L, In L (layers ++ [P]) -> not_small L) -> ansatz_strings (ans_add fstr_eqb 1 layers P) = ansatz_strings (layers ++ [P]).
Proof.
  intro H. unfold ans_add. destruct layers as [|a l]; [reflexivity|]. cbn [Z.eqb Pos.eqb]. set (L := a :: l) in *. unfold ans_clean, ansatz_strings.
  assert (E : forall M : list cfop, (forall Q, In Q M -> not_small Q) -> flat_map (@jw_operator Cx) (filter (fun a => match a with [] => false | _ => true end) (map op_clean M)) = flat_map jw_operator M).
  { clear. induction M as [|Q M IH]; intro H; [reflexivity|]. cbn [map filter flat_map]. rewrite (clean_id Cx fstr Q (H Q (or_introl eq_refl))).
    destruct Q; [apply IH; intros; apply H; now right|]. cbn [flat_map]. rewrite IH; [reflexivity|]. intros; apply H; now right. }
  exact (E (L ++ [P]) H).
Qed.
Lemma strings_circuit N occ layers layers' : ansatz_strings layers = ansatz_strings layers' -> acse_circuit N occ layers = acse_circuit N occ layers'.
Proof. intro H. unfold acse_circuit. now rewrite H. Qed.
Lemma truncate_filter rel (o : cfop) : NoDup (map fst o) -> truncate_rel rel o = filter (cut (cabs (cmul ((rel, 0) : Cx) (max_coeff o)))) o.
Proof.
  intro H. unfold truncate_rel. rewrite (fold_add_fresh Cx _ _ fstr_eqb_spec'); [reflexivity|]. cbn [app]. now apply filter_NoDup_fst.
Qed.

(** An Euler step with an operator that is the residual operator cut at any threshold. *)
Section Step.
  Variables (N : nat) (K2 : tensor4) (psi : bits -> Cx) (A : tensor4) (keep : Cx -> bool) (thr : R).
  Hypothesis HK : real_symmetric K2.
  Hypothesis keep_opp : forall x, keep (copp x) = keep x.
  Hypothesis HA : forall i k j l, (i < N)%nat -> (k < N)%nat -> (j < N)%nat -> (l < N)%nat -> A i k j l = residual_of N K2 psi i k j l.
  Lemma A_sw1 i k j l : (i < N)%nat -> (k < N)%nat -> (j < N)%nat -> (l < N)%nat -> A k i j l = copp (A i k j l).
  Proof. intros. rewrite !HA by assumption. now apply residual_swap_cre. Qed.
  Lemma A_sw2 i k j l : (i < N)%nat -> (k < N)%nat -> (j < N)%nat -> (l < N)%nat -> A i k l j = copp (A i k j l).
  Proof. intros. rewrite !HA by assumption. now apply residual_swap_ann. Qed.
  Notation O := (oper N A keep).
  Notation T := (filter (cut thr) O).
  Definition keep' (x : Cx) : bool := keep x && strong thr x.
  Lemma keep'_opp x : keep' (copp x) = keep' x.
  Proof. unfold keep'. rewrite keep_opp. f_equal. rewrite <- (strong_pm thr (copp c1) x) by (right; reflexivity). f_equal. ring. Qed.
  Notation V := (chosen Cx keep' (residual_of N K2 psi)).
  Lemma T_mat x y : length x = N -> length y = N -> fmat T x y = copp (two_body N V x y).
  Proof.
    intros Lx Ly. rewrite (filter_mat N A keep keep_opp A_sw1 A_sw2 thr x y Lx Ly). f_equal. apply two_body_ext. intros. unfold chosen. now rewrite HA.
  Qed.
  Lemma V_real p q s t : cconj (V p q s t) = V p q s t.
  Proof. unfold chosen. destruct (keep' _); [apply residual_real|apply cconj_0]. Qed.
  Lemma T_anti x y : length x = N -> length y = N -> cconj (fmat T y x) = copp (fmat T x y).
  Proof.
    intros Lx Ly. rewrite !T_mat, cconj_opp by assumption. f_equal. transitivity (two_body N (fun p q s t => V s t p q) x y).
    - apply (two_body_adj Cx N V); [exact V_real|exact Lx|exact Ly].
    - rewrite <- two_body_opp. apply two_body_ext. intros p q s t _ _ _ _. unfold chosen. rewrite (residual_antisym Cx N K2 psi p q s t HK), keep'_opp. destruct (keep' _); ring.
  Qed.
  Lemma T_sized e : In e T -> length (fst e) = N.
  Proof.
    destruct e as [X c]. intro I. apply filter_In in I. destruct I as [I _]. destruct (oper_In N A keep keep_opp A_sw1 A_sw2 X c I) as [i [k [j [l [Hi [Hk [Hj [Hl [On [-> _]]]]]]]]]].
    destruct (sent_spec N A keep A_sw1 A_sw2 i k j l Hi Hk Hj Hl On) as [s [u [_ [-> [L _]]]]]. exact L.
  Qed.
  Lemma O_coeff X c : In (X, c) O -> snd c = 0 /\ c <> c0.
  Proof.
    intro I. destruct (oper_In N A keep keep_opp A_sw1 A_sw2 X c I) as [i [k [j [l [Hi [Hk [Hj [Hl [On [-> ->]]]]]]]]]].
    pose proof (on_ne A keep i k j l On) as NZ. destruct (sent_spec N A keep A_sw1 A_sw2 i k j l Hi Hk Hj Hl On) as [s [u [_ [-> [L [P _]]]]]]. cbn [snd].
    pose proof (residual_real Cx N K2 psi i k j l) as RR. rewrite <- HA in RR by assumption. apply (f_equal snd) in RR.
    destruct (A i k j l) as [x y]. cbn [Cx cconj Cconj snd] in RR. assert (Y : y = 0) by lra. subst y.
    assert (X : x <> 0) by (intro Z; apply NZ; rewrite Z; reflexivity).
    destruct P as [-> | ->]; cbn [Cx cmul cadd copp c1 c0 Cmul Cadd Copp C1 C0 fst snd]; (split; [ring|]); intro E; apply (f_equal fst) in E; cbn [Cx cmul cadd copp c1 c0 Cmul Cadd Copp C1 C0 fst snd] in E; apply X; lra.
  Qed.
  Lemma T_gradient : fst (expect N (comm N (two_body N K2) (fmat T)) psi) = sq T / 4.
  Proof.
    assert (G := two_body_gradient Cx N V K2 (fun x y => copp (two_body N V x y)) psi V_real (fun _ _ => eq_refl)).
    rewrite re_expect_fst in G. apply (f_equal fst) in G. cbn [fst] in G.
    assert (M : meq N (fmat T) (fun x y => copp (two_body N V x y))) by (intros x y Lx Ly; now apply T_mat).
    rewrite (CircuitProofs2.expect_meq Cx N _ _ psi (comm_meq N (two_body N K2) _ _ M)), G.
    assert (S := filter_squares N A keep keep_opp A_sw1 A_sw2 thr).
    assert (E : S4 Cx N (fun i k j l => cmul (V i k j l) (residual_of N K2 psi i k j l)) = S4 Cx N (fun i k j l => if keep (A i k j l) && strong thr (A i k j l) then cmul (A i k j l) (A i k j l) else c0)).
    { apply S4_ext. intros i k j l Hi Hk Hj Hl. rewrite HA by assumption. unfold chosen, keep'. destruct (keep _ && strong _ _); ring. }
    rewrite E. apply (f_equal fst) in S. revert S. generalize (S4 Cx N (fun i k j l => if keep (A i k j l) && strong thr (A i k j l) then cmul (A i k j l) (A i k j l) else c0)). intros z S.
    assert (L : forall l, (forall e, In e l -> In e O) -> fst (lin (fun X => total fdec X O) l) = sq l).
    { induction l as [|[X c] l IH]; intro H; [reflexivity|]. cbn [lin sq fold_right snd]. fold (sq l). rewrite <- IH by (intros e He; apply H; now right).
      rewrite (total_In Cx _ _ fstr_eqb_spec' fdec X c O (oper_NoDup N A keep) (H _ (or_introl eq_refl))). destruct (O_coeff X c (H _ (or_introl eq_refl))) as [Z _].
      destruct c as [x y]. cbn [snd] in Z. subst y. cbn [Cx cadd cmul Cadd Cmul fst snd]. ring. }
    rewrite L in S by (intros e He; apply filter_In in He; tauto). unfold four in S. destruct z as [z z']. cbn [Cx cadd cmul c1 Cadd Cmul C1 fst snd] in *. lra.
  Qed.
  Lemma T_positive : T <> [] -> 0 < sq T.
  Proof.
    assert (P : forall l : cfop, 0 <= sq l) by (induction l as [|e l IH]; cbn [sq fold_right]; [lra|]; fold (sq l); nra).
    assert (I : forall e, In e T -> In e O) by (intros e He; apply filter_In in He; tauto). destruct T as [|[X c] l]; [contradiction|]. intros _. cbn [sq fold_right snd]. fold (sq l). specialize (P l).
    destruct (O_coeff X c (I _ (or_introl eq_refl))) as [_ NZ]. destruct c as [x y]. cbn [fst snd] in *.
    destruct (Req_dec x 0) as [-> |Hx]; [destruct (Req_dec y 0) as [-> |Hy]; [exfalso; now apply NZ|]|]; nra.
  Qed.
End Step.

Lemma cabs_pos c : 0 <= cabs c. Proof. apply sqrt_pos. Qed.
Lemma cabs_rel rel c : cabs (cmul ((rel, 0) : Cx) c) = Rabs rel * cabs c.
Proof.
  unfold cabs. rewrite <- (sqrt_Rsqr_abs rel), <- sqrt_mult; [|apply Rle_0_sqr|]; [|destruct c; cbn [fst snd]; nra]. f_equal. destruct c as [x y]. unfold Rsqr. cbn [Cx cmul Cmul fst snd]. ring.
Qed.
Lemma max_coeff_spec (o : cfop) : o <> [] -> (exists X, In (X, max_coeff o) o) /\ forall e, In e o -> cabs (snd e) <= cabs (max_coeff o).
Proof.
  unfold max_coeff. intro NE.
  assert (G : forall (l : cfop) m, let m' := fold_left (fun m e => if Rle_dec (cabs m) (cabs (snd e)) then snd e else m) l m in
    (m' = m \/ exists X, In (X, m') l) /\ cabs m <= cabs m' /\ forall e, In e l -> cabs (snd e) <= cabs m').
  { induction l as [|[X c] l IH]; intro m; cbn [fold_left]; [split; [now left|split; [lra|intros ? []]]|]. cbn [snd]. destruct (Rle_dec (cabs m) (cabs c)) as [H|H].
    - destruct (IH c) as [[-> |[Y I]] [H1 H2]]; (split; [right|split; [lra|]]); try (exists X; now left); try (exists Y; now right); intros e [<-|He]; try (cbn [snd]; lra); now apply H2.
    - destruct (IH m) as [[E|[Y I]] [H1 H2]]; (split; [|split; [lra|]]); try (now left); try (right; exists Y; now right); intros e [<-|He]; try (cbn [snd]; lra); now apply H2. }
  destruct o as [|[X c] o]; [contradiction|]. cbn [fold_left snd]. assert (C : (if Rle_dec (cabs c0) (cabs c) then c else c0 : Cx) = c).
  { destruct (Rle_dec _ _) as [_|n]; [reflexivity|]. exfalso. apply n. assert (Z : cabs c0 = 0). { unfold cabs. cbn [Cx c0 C0 fst snd]. replace (0 * 0 + 0 * 0) with 0 by ring. apply sqrt_0. } rewrite Z. apply cabs_pos. }
  cbn [Cx] in C |- *. rewrite C. destruct (G o c) as [[E|[Y I]] [H1 H2]]; split.
  - exists X. rewrite E. now left.
  - intros e [<-|He]; [cbn [snd]; exact H1|now apply H2].
  - exists Y. now right.
  - intros e [<-|He]; [cbn [snd]; exact H1|now apply H2].
Qed.
Lemma truncate_nonempty rel (o : cfop) : NoDup (map fst o) -> o <> [] -> 0 <= rel <= 1 -> truncate_rel rel o <> [].
Proof.
  intros ND NE HR. rewrite (truncate_filter rel o ND). destruct (max_coeff_spec o NE) as [[X I] _]. intro Z.
  assert (J : In (X, max_coeff o) (filter (cut (cabs (cmul ((rel, 0) : Cx) (max_coeff o)))) o)).
  { apply filter_In. split; [exact I|]. unfold cut. cbn [snd]. destruct (Rle_dec _ _) as [_|n]; [reflexivity|]. exfalso. apply n. rewrite cabs_rel, (Rabs_right rel) by lra. pose proof (cabs_pos (max_coeff o)). nra. }
  rewrite Z in J. destruct J.
Qed.

Theorem euler_energy N (K2 A : tensor4) occ layers keep rel eps gs : real_symmetric K2 -> (forall x, keep (copp x) = keep x) ->
  (forall k, In k occ -> (k < N)%nat) -> sized_layers N layers -> (forall L, In L layers -> not_small L) -> acse_circuit N occ layers = Some gs ->
  (forall i k j l, (i < N)%nat -> (k < N)%nat -> (j < N)%nat -> (l < N)%nat -> A i k j l = residual_of N K2 (prepared Crt N gs) i k j l) ->
  exists o, residual_operator keep N N A = Some o /\
    (not_small (euler_operator eps (truncate_rel rel o)) -> meq N (omat (jw_operator (euler_operator eps (truncate_rel rel o)))) (fmat (euler_operator eps (truncate_rel rel o))) ->
     exists gs', snd (euler_step 1 N occ eps layers (truncate_rel rel o)) = Some gs' /\
       Rabs (fst (expect N (two_body N K2) (prepared Crt N gs')) - fst (expect N (two_body N K2) (prepared Crt N gs)) + eps * (sq (truncate_rel rel o) / 4))
         <= 4 * size4 N K2 * (eps * eps) * (wt (truncate_rel rel o) * wt (truncate_rel rel o))) /\
    (0 <= rel <= 1 -> (exists i k j l, (i < N)%nat /\ (k < N)%nat /\ (j < N)%nat /\ (l < N)%nat /\ A i k j l <> c0 /\ keep (A i k j l) = true) -> 0 < sq (truncate_rel rel o)).
Proof.
  intros HK Hk LT SL NS E HA. set (psi := prepared Crt N gs) in *. pose proof (A_sw1 N K2 psi A HK HA) as S1. pose proof (A_sw2 N K2 psi A HK HA) as S2.
  exists (oper N A keep). split; [exact (operator_is N A keep S1 S2)|]. rewrite (truncate_filter rel _ (oper_NoDup N A keep)).
  set (thr := cabs (cmul ((rel, 0) : Cx) (max_coeff (oper N A keep)))). set (T := filter (cut thr) (oper N A keep)). split.
  - intros NP MP. set (P := euler_operator eps T) in *.
    assert (SP : sized_layers N (layers ++ [P])).
    { intros Q e HQ He. apply in_app_or in HQ. destruct HQ as [HQ|[<-|[]]]; [exact (SL Q e HQ He)|]. unfold P, euler_operator in He. apply in_map_iff in He. destruct He as [e' [<- He]]. cbn [fst].
      exact (T_sized N K2 psi A keep thr HK Hk HA e' He). }
    assert (AP : forall r c, length r = N -> length c = N -> cconj (fmat P c r) = copp (fmat P r c)).
    { intros r c Lr Lc. unfold P. rewrite !euler_mat, cconj_mul. pose proof (T_anti N K2 psi A keep thr HK Hk HA r c Lr Lc) as Q. fold T in Q. rewrite Q.
      assert (C : cconj ((- (1) * eps, 0) : Cx) = ((- (1) * eps, 0) : Cx)) by (apply C_eq; cbn; ring). rewrite C. ring. }
    destruct (layer_energy N (two_body N K2) (- size4 N K2) (size4 N K2) occ layers P gs (two_body_within N K2 (proj1 HK)) LT SP AP MP E) as [gs' [E' B]].
    exists gs'. split.
    + unfold euler_step. cbn [snd]. rewrite <- E'. apply strings_circuit, strings_add. intros L HL. apply in_app_or in HL. destruct HL as [HL|[<-|[]]]; [now apply NS|exact NP].
    + assert (G : fst (expect N (comm N (two_body N K2) (fmat P)) psi) = - (eps * (sq T / 4))).
      { pose proof (T_gradient N K2 psi A keep thr HK Hk HA) as Q. fold T in Q.
        assert (M : meq N (fmat P) (madd (mscal ((- (1) * eps, 0) : Cx) (fmat T)) mzero)) by (intros x y _ _; unfold P; rewrite euler_mat; unfold madd, mscal, mzero; ring).
        destruct (comm_lin N (two_body N K2) ((- (1) * eps, 0) : Cx) (fmat T) mzero) as [LL].
        rewrite (CircuitProofs2.expect_meq Cx N _ _ psi (comm_meq N _ _ _ M)), (CircuitProofs2.expect_meq Cx N _ _ psi LL), expect_plus, (expect_scal Cx).
        assert (Z : expect N (comm N (two_body N K2) mzero) psi = c0).
        { assert (Z0 : meq N (comm N (two_body N K2) mzero) mzero). { intros r c _ _. unfold comm, mmul. transitivity (csub (sumbits N (fun _ => c0 : Cx)) (sumbits N (fun _ => c0))); [|rewrite sumbits_0; unfold mzero; ring]. f_equal; apply sumbits_ext; intros; unfold mzero; ring. }
          rewrite (CircuitProofs2.expect_meq Cx N _ _ psi Z0). unfold expect. transitivity (sumbits N (fun _ => c0 : Cx)); [|apply sumbits_0]. apply sumbits_ext. intros y _. unfold mvec.
          transitivity (cmul (cconj (psi y)) (sumbits N (fun _ => c0 : Cx))); [f_equal; apply sumbits_ext; intros; unfold mzero; ring|rewrite sumbits_0; ring]. }
        rewrite Z. revert Q. generalize (expect N (comm N (two_body N K2) (fmat T)) psi). intros [x y] Q. cbn [Cx cadd cmul c0 Cadd Cmul C0 fst snd] in *. rewrite Q. ring. }
      fold psi in B. rewrite G in B. unfold P in B. rewrite wt_euler in B. fold T in B. replace (4 * size4 N K2 * (eps * eps) * (wt T * wt T)) with (2 * (size4 N K2 - - size4 N K2) * (Rabs eps * wt T * (Rabs eps * wt T))).
      * match goal with |- Rabs ?a <= _ => match type of B with Rabs ?b <= _ => replace a with b by ring end end. exact B.
      * assert (X : Rabs eps * Rabs eps = eps * eps) by (rewrite <- Rabs_mult; apply Rabs_right; nra). transitivity (4 * size4 N K2 * (Rabs eps * Rabs eps) * (wt T * wt T)); [ring|now rewrite X].
  - intros HR [i [k [j [l [Hi [Hk' [Hj [Hl [NZ Ke]]]]]]]]]. apply (T_positive N K2 psi A keep thr HK Hk HA).
    assert (On : on A keep i k j l = true). { unfold on. rewrite Ke, andb_true_r. apply negb_true_iff. destruct (ceqb (A i k j l) c0) eqn:Z; [|reflexivity]. apply (ceqb_spec Cx) in Z. contradiction. }
    pose proof (truncate_nonempty rel (oper N A keep) (oper_NoDup N A keep)) as TN. rewrite (truncate_filter rel _ (oper_NoDup N A keep)) in TN. apply TN; [|exact HR].
    intro Z. assert (Tt := total_four N A keep Hk S1 S2 i k j l Hi Hk' Hj Hl On). rewrite Z in Tt. cbn [total] in Tt.
    destruct (sent_spec N A keep S1 S2 i k j l Hi Hk' Hj Hl On) as [s [u [_ [E1 [_ [Pu _]]]]]]. rewrite E1 in Tt. cbn [snd] in Tt. symmetry in Tt.
    apply cx_domain in Tt. destruct Tt as [Tt|Tt]; [apply (f_equal fst) in Tt; cbn [Cx cadd c1 c0 Cadd C1 C0 fst] in Tt; lra|].
    apply cx_domain in Tt. destruct Tt as [Tt|Tt]; [exact (pm_ne Cx u Pu Tt)|]. apply NZ. transitivity (copp (copp (A i k j l))); [ring|]. rewrite Tt. ring.
Qed.

Lemma wt_sq {A} (o : list (A * Cx)) : wt o * wt o <= 2 * INR (length o) * sq o.
Proof.
  assert (P : forall l : list (A * Cx), 0 <= sq l) by (induction l as [|e l IH]; cbn [sq fold_right]; [lra|]; fold (sq l); nra).
  induction o as [|[k c] o IH]; [rewrite wt_nil; cbn [length INR sq fold_right]; lra|]. rewrite wt_cons. change (length ((k, c) :: o)) with (S (length o)). rewrite S_INR. cbn [sq fold_right snd]. fold (sq o).
  specialize (P o). pose proof (wt_pos o) as W. pose proof (n1_pos c) as C. set (n := INR (length o)) in *. assert (N0 : 0 <= n) by apply pos_INR. set (q := fst c * fst c + snd c * snd c).
  assert (Q : n1 c * n1 c <= 2 * q).
  { unfold n1, q. assert (X : forall x, x * x = Rabs x * Rabs x) by (intro x; rewrite <- Rabs_mult, Rabs_right; [reflexivity|nra]). rewrite (X (fst c)), (X (snd c)). pose proof (Rle_0_sqr (Rabs (fst c) - Rabs (snd c))) as Y. unfold Rsqr in Y. match goal with |- ?a <= ?b => apply Rminus_le; match type of Y with 0 <= ?y => replace (a - b) with (- y) by ring end end. lra. }
  assert (Q0 : 0 <= q) by (unfold q; nra).
  destruct (Req_dec n 0) as [Z|Z].
  - rewrite Z in *. assert (H : wt o = 0) by nra. rewrite H. match goal with |- ?a <= ?b => replace a with (n1 c * n1 c) by ring end. apply Rle_trans with (2 * q); [exact Q|]. lra.
  - assert (NP : 0 < n) by lra. set (a := n1 c) in *. set (w := wt o) in *. set (s := sq o) in *.
    assert (M : 2 * (a * w) <= n * (a * a) + w * w / n).
    { assert (D : 0 <= (n * a - w) * (n * a - w) / n) by (apply Rmult_le_pos; [apply Rle_0_sqr|left; now apply Rinv_0_lt_compat]).
      replace ((n * a - w) * (n * a - w) / n) with (n * (a * a) - 2 * (a * w) + w * w / n) in D by (field; exact Z). lra. }
    assert (B : w * w / n <= 2 * s) by (apply (Rmult_le_reg_r n); [exact NP|]; replace (w * w / n * n) with (w * w) by (field; exact Z); nra). nra.
Qed.
Theorem euler_descent N (K2 A : tensor4) occ layers keep rel eps gs : real_symmetric K2 -> (forall x, keep (copp x) = keep x) ->
  (forall k, In k occ -> (k < N)%nat) -> sized_layers N layers -> (forall L, In L layers -> not_small L) -> acse_circuit N occ layers = Some gs ->
  (forall i k j l, (i < N)%nat -> (k < N)%nat -> (j < N)%nat -> (l < N)%nat -> A i k j l = residual_of N K2 (prepared Crt N gs) i k j l) ->
  (exists i k j l, (i < N)%nat /\ (k < N)%nat /\ (j < N)%nat /\ (l < N)%nat /\ A i k j l <> c0 /\ keep (A i k j l) = true) -> 0 <= rel <= 1 ->
  exists o, residual_operator keep N N A = Some o /\
    (not_small (euler_operator eps (truncate_rel rel o)) -> meq N (omat (jw_operator (euler_operator eps (truncate_rel rel o)))) (fmat (euler_operator eps (truncate_rel rel o))) ->
     0 < eps -> 32 * size4 N K2 * INR (length (truncate_rel rel o)) * eps < 1 ->
     exists gs', snd (euler_step 1 N occ eps layers (truncate_rel rel o)) = Some gs' /\
       fst (expect N (two_body N K2) (prepared Crt N gs')) < fst (expect N (two_body N K2) (prepared Crt N gs))).
Proof.
  intros HK Hk LT SL NS E HA EX HR. destruct (euler_energy N K2 A occ layers keep rel eps gs HK Hk LT SL NS E HA) as [o [EO [B P]]]. exists o. split; [exact EO|].
  intros N1 M1 Hp Hs. destruct (B N1 M1) as [gs' [E' D]]. exists gs'. split; [exact E'|]. specialize (P HR EX).
  set (T := truncate_rel rel o) in *. pose proof (wt_sq T) as W.
  match type of D with Rabs ?x <= _ => pose proof (Rle_abs x) as D1 end.
  assert (S0 : 0 <= size4 N K2). { pose proof (two_body_within N K2 (proj1 HK) (prepared Crt N gs) (prepared_norm Cx Crt Crt_sq crt_real N gs (acse_valid N occ layers gs LT SL E))). lra. }
  set (n := INR (length T)) in *. set (S := size4 N K2) in *.
  assert (D2 : 4 * S * (eps * eps) * (wt T * wt T) < eps * (sq T / 4)).
  { apply Rle_lt_trans with (4 * S * (eps * eps) * (2 * n * sq T)); [apply Rmult_le_compat_l; [nra|exact W]|].
    replace (4 * S * (eps * eps) * (2 * n * sq T)) with (eps * (sq T / 4) * (32 * S * n * eps)) by field. rewrite <- (Rmult_1_r (eps * (sq T / 4))) at 2.
    apply Rmult_lt_compat_l; [apply Rmult_lt_0_compat; lra|exact Hs]. }
  lra.
Qed.
(** The truncated residual operator of any state. *)
Theorem truncated_residual N (K2 A : tensor4) psi keep rel : real_symmetric K2 -> (forall x, keep (copp x) = keep x) ->
  (forall i k j l, (i < N)%nat -> (k < N)%nat -> (j < N)%nat -> (l < N)%nat -> A i k j l = residual_of N K2 psi i k j l) ->
  exists o, residual_operator keep N N A = Some o /\ (forall e, In e (truncate_rel rel o) -> length (fst e) = N /\ snd (snd e) = 0 /\ In e o /\ (0 <= rel -> forall e', In e' o -> rel * cabs (snd e') <= cabs (snd e))) /\
    (forall e, In e o -> (0 <= rel <= 1) -> (exists e', In e' o /\ rel * cabs (snd e') <= cabs (snd e) /\ forall e'', In e'' o -> cabs (snd e'') <= cabs (snd e')) -> In e (truncate_rel rel o)) /\
    (forall x y, length x = N -> length y = N -> cconj (fmat (truncate_rel rel o) y x) = copp (fmat (truncate_rel rel o) x y)) /\
    fst (expect N (comm N (two_body N K2) (fmat (truncate_rel rel o))) psi) = sq (truncate_rel rel o) / 4.
Proof.
  intros HK Hk HA. pose proof (A_sw1 N K2 psi A HK HA) as S1. pose proof (A_sw2 N K2 psi A HK HA) as S2.
  exists (oper N A keep). split; [exact (operator_is N A keep S1 S2)|]. rewrite (truncate_filter rel _ (oper_NoDup N A keep)).
  assert (EQ : 0 <= rel -> cabs (cmul ((rel, 0) : Cx) (max_coeff (oper N A keep))) = rel * cabs (max_coeff (oper N A keep))).
  { intro HR. generalize (max_coeff (oper N A keep)). intros [a b]. unfold cabs. cbn [Cx cmul Cmul fst snd]. replace ((rel * a - 0 * b) * (rel * a - 0 * b) + (rel * b + 0 * a) * (rel * b + 0 * a)) with ((rel * rel) * (a * a + b * b)) by ring.
    rewrite sqrt_mult_alt by nra. rewrite sqrt_square by lra. reflexivity. }
  set (thr := cabs (cmul ((rel, 0) : Cx) (max_coeff (oper N A keep)))). split; [|split; [|split]].
  - intros e I. split; [exact (T_sized N K2 psi A keep thr HK Hk HA e I)|]. apply filter_In in I. destruct I as [I C]. split; [|split; [exact I|]].
    + destruct e as [X c]. exact (proj1 (O_coeff N K2 psi A keep HK Hk HA X c I)).
    + intros HR e' I'. unfold cut in C. destruct (Rle_dec _ _) as [l|]; [|discriminate]. unfold thr in l. rewrite EQ in l by exact HR.
      assert (NE : oper N A keep <> []) by (intro Z; rewrite Z in I; destruct I). destruct (max_coeff_spec _ NE) as [_ MX]. specialize (MX e' I').
      apply Rle_trans with (rel * cabs (max_coeff (oper N A keep))); [apply Rmult_le_compat_l; [lra|exact MX]|exact l].
  - intros e I HR [e' [I' [H1 H2]]]. apply filter_In. split; [exact I|]. unfold cut. destruct (Rle_dec _ _) as [_|n]; [reflexivity|]. exfalso. apply n. unfold thr.
    assert (NE : oper N A keep <> []) by (intro Z; rewrite Z in I; destruct I). destruct (max_coeff_spec _ NE) as [[X IX] MX].
    rewrite EQ by lra. specialize (H2 _ IX). cbn [snd] in H2. apply Rle_trans with (rel * cabs (snd e')); [apply Rmult_le_compat_l; [lra|exact H2]|exact H1].
  - exact (T_anti N K2 psi A keep thr HK Hk HA).
  - exact (T_gradient N K2 psi A keep thr HK Hk HA).
Qed.
