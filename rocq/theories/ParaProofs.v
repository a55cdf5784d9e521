(** Proofs about the qubit-to-fermion transform. *)
From Coq Require Import Bool List Arith ZArith Ring Lia Setoid.
From Verif Require Import Coeff MatSpec MatLemmas KronLemmas PauliModel PauliProofs OperatorModel OperatorProofs TransformLin
  FockSpec FermiModel FermiProofs TransformModel TwoTerm JWProofs QubitProofs TaperSpec InvModel InvSpec InvProofs RdmSpec OpSpec CircuitSpec HamSpec QRdmSpec ParaModel.
Import ListNotations.
Local Open Scope nat_scope.

Section ParaProofs.
  Variable K : CoefRing.
  Add Ring KRing : (c_ring K).
  Local Open Scope coef_scope.
  Notation fo := (list (fstr * K)).
  Notation fwf := (fwf K).
  Hypothesis exact : forall x : K, small x = true -> x = 0.

  Definition mix (x : K) (w1 : list pauli) (y : K) (w2 : list pauli) : mat K :=
    madd (mscal x (pmat w1)) (mscal y (pmat w2)).

  Lemma chain_mix N x y : forall qjs (t : fo) w1 w2,
    (forall j, In j qjs -> (N - j - 1 - 1 < N)%nat) -> NoDup (map (fun j => N - j - 1 - 1)%nat qjs) ->
    (forall j, In j qjs -> nth (N - j - 1 - 1) w1 PI = PZ /\ nth (N - j - 1 - 1) w2 PI = PZ) ->
    length w1 = N -> length w2 = N -> fwf N t -> req N N (fmat t) (mix x w1 y w2) ->
    exists t', chain N qjs t = Some t' /\ fwf N t' /\
      req N N (fmat t') (mix x (fold_left (fun w j => upd (N - j - 1 - 1) PI w) qjs w1)
                             y (fold_left (fun w j => upd (N - j - 1 - 1) PI w) qjs w2)).
  Proof.
    induction qjs as [|j qjs IH]; intros t w1 w2 Hj HD Hz Hw1 Hw2 HW HM.
    - exists t. split; [reflexivity|]. split; assumption.
    - cbn [chain]. set (r := (N - j - 1 - 1)%nat). assert (Hr : (r < N)%nat) by (apply Hj; now left).
      destruct (f_op_mul_exact K exact N (f_two N r Hol Par 1 (- (1))) t) as [R [E [W M]]];
        [apply f_two_wf; [discriminate|exact Hr]|exact HW|].
      rewrite E. apply (IH R (upd r PI w1) (upd r PI w2)).
      + intros k Hk. apply Hj. now right.
      + inversion HD; assumption.
      + intros k Hk. apply NoDup_cons_iff in HD. destruct HD as [Hn ND].
        assert (NE : (N - k - 1 - 1 <> r)%nat) by (intro G; apply Hn; fold r; rewrite <- G; apply in_map_iff; exists k; auto).
        rewrite !nth_upd_ne by exact NE. apply Hz. now right.
      + now rewrite upd_length.
      + now rewrite upd_length.
      + exact W.
      + destruct (Hz j (or_introl eq_refl)) as [Z1 Z2]. fold r in Z1, Z2.
        pose proof (mul_one K N r PZ w1 Hw1 Hr) as P1. pose proof (mul_one K N r PZ w2 Hw2 Hr) as P2. rewrite Z1 in P1. rewrite Z2 in P2.
        intros a b Ha Hb. rewrite (M a b Ha Hb).
        transitivity (mmul N (pmat (one_letter N r PZ)) (mix x w1 y w2) a b).
        { apply mmul_meq; [exact (z_factor K N r Hr)|exact HM|exact Ha|exact Hb]. }
        unfold mix. unfold madd at 2, mscal at 3 4.
        pose proof (P1 a b Ha Hb) as Q1. pose proof (P2 a b Ha Hb) as Q2.
        unfold mscal in Q1 at 1. unfold mscal in Q2 at 1. cbn [pexp1 pmul1] in Q1, Q2.
        assert (D : mmul N (pmat (one_letter N r PZ)) (madd (mscal x (pmat w1)) (mscal y (pmat w2))) a b
                    = x * mmul N (pmat (one_letter N r PZ)) (pmat w1) a b + y * mmul N (pmat (one_letter N r PZ)) (pmat w2) a b).
        { unfold mmul. rewrite <- !sumbits_scal, <- sumbits_add. apply sumbits_ext. intros u Hu. unfold madd, mscal. ring. }
        rewrite D, Q1, Q2. unfold ipow. cbn. ring.
  Qed.

  Lemma single_fwf N q o (x : K) : (q < N)%nat -> fwf N [(single N q o, x)].
  Proof. intros H e [<-|[]]. cbn [fst]. now apply single_length. Qed.

  Lemma para_letter_spec N q o : (q < N)%nat -> (ladder o = false \/ q = 0%nat \/ q = (N - 1)%nat) ->
    exists t, para_letter (K := K) N q o = Some t /\ fwf N t /\ req N N (fmat t) (site K N q (local2 o)).
  Proof.
    intros Hq Hc. unfold para_letter. cbn [op_add_string op_get op_set fst snd]. cbv zeta.
    assert (T : forall r c, omat (@qubit_term K N q o) r c = site K N q (local2 o) r c) by (intros; apply qubit_term_mat).
    unfold qubit_term in T.
    destruct (ladder o) eqn:Lo.
    - assert (S : forall w, q = 0%nat \/ q = (N - 1)%nat ->
        fold_left (fun w j => upd (N - j - 1 - 1) PI w) (seq 0 q) (repeat PZ q ++ w :: repeat PI (N - q - 1)) = one_letter N q w).
      { intros w [->|E]; [reflexivity|]. destruct (Nat.eq_dec q 0) as [->|Hz]; [reflexivity|]. apply chain_string; lia. }
      destruct Hc as [Hc|Hc]; [discriminate|].
      destruct (chain_mix N chalf (ladder_c2 o) (seq 0 q) [(single N q o, 1)]
        (repeat PZ q ++ PX :: repeat PI (N - q - 1)) (repeat PZ q ++ PY :: repeat PI (N - q - 1))) as (t & E & W & M).
      + intros j Hj. apply in_seq in Hj. lia.
      + apply (NoDup_map_inj_in _ _ (fun j => N - j - 1 - 1)%nat); [|apply seq_NoDup].
        intros a b Ha Hb. apply in_seq in Ha. apply in_seq in Hb. lia.
      + intros j Hj. apply in_seq in Hj. destruct Hc as [->|Hc]; [lia|].
        rewrite !app_nth1 by (rewrite repeat_length; lia). split; apply nth_repeat_PZ; lia.
      + rewrite app_length. cbn [length]. rewrite !repeat_length. lia.
      + rewrite app_length. cbn [length]. rewrite !repeat_length. lia.
      + now apply single_fwf.
      + intros r c Hr Hd. cbn [fmat]. unfold mix, madd, mscal, mzero. rewrite single_mat.
        rewrite (jw_ladder_mat K o q (N - q - 1) r c Lo) by lia. ring.
      + exists t. split; [exact E|]. split; [exact W|]. rewrite M. rewrite !S by exact Hc.
        intros r c Hr Hd. rewrite <- T. rewrite two_term_eq by (apply prefix_ne; [reflexivity|discriminate]).
        rewrite !omat_cons. cbn [omat]. unfold mix, madd, mscal, mzero, one_letter. ring.
    - exists [(single N q o, 1)]. split; [reflexivity|]. split; [now apply single_fwf|].
      intros r c Hr Hd. rewrite <- T. rewrite two_term_eq by (apply prefix_ne; [reflexivity|discriminate]).
      rewrite !omat_cons. cbn [omat fmat]. unfold madd, mscal, mzero. rewrite single_mat.
      rewrite <- (number_mat K o q (N - q - 1) r c Lo) by lia. ring.
  Qed.

  Lemma site_mul N q (M : mat2 K) post : length post = (N - q - 1)%nat -> (q < N)%nat ->
    meq N (mmul N (site K N q M) (kron (repeat (pauli1 PI) q ++ pauli1 PI :: post)))
          (kron (repeat (pauli1 PI) q ++ M :: post)).
  Proof.
    intros Hp Hq r c Hr Hc. unfold site.
    rewrite kron_mul; [|rewrite app_length; cbn [length]; rewrite !repeat_length; lia|
      rewrite app_length; cbn [length]; rewrite repeat_length; lia|assumption|assumption].
    apply kron_eqk. rewrite zip2_app by reflexivity. apply eqk_app.
    - apply zip2_I_l. apply repeat_length.
    - cbn [zip2]. constructor; [apply mul2_I_r|]. apply zip2_I_l. exact Hp.
  Qed.

  (** Ladder letters on the first and the last qubit only. *)
  Definition at_ends (s : fstr) : Prop :=
    forall q o, nth_error s q = Some (Some o) -> ladder o = true -> q = 0%nat \/ q = (length s - 1)%nat.

  Lemma para_loop_spec N (c : K) : forall rs done new, at_ends (rev rs ++ done) -> length (rev rs ++ done) = N ->
    fwf N new -> req N N (fmat new) (mscal c (kron (repeat (pauli1 PI) (length rs) ++ map (olocal K) done))) ->
    exists R, para_loop N rs new = Some R /\ fwf N R /\ req N N (fmat R) (mscal c (kron (map (olocal K) (rev rs ++ done)))).
  Proof.
    induction rs as [|o rs IH]; intros done new HR HL HW HM.
    - exists new. split; [reflexivity|]. split; assumption.
    - cbn [rev] in HR, HL. rewrite <- app_assoc in HR, HL. cbn [app] in HR, HL. cbn [para_loop rev]. rewrite <- app_assoc. cbn [app].
      assert (Hl : (length rs + S (length done) = N)%nat) by (rewrite app_length, rev_length in HL; cbn in HL; exact HL).
      assert (Hq : (length rs < N)%nat) by lia.
      assert (ER : repeat (@pauli1 K PI) (length (o :: rs)) ++ map (olocal K) done = repeat (pauli1 PI) (length rs) ++ pauli1 PI :: map (olocal K) done).
      { cbn [length]. replace (S (length rs)) with (length rs + 1)%nat by lia. rewrite repeat_app, <- app_assoc. reflexivity. }
      rewrite ER in HM. destruct o as [o|].
      + destruct (para_letter_spec N (length rs) o Hq) as (t & E1 & W1 & M1).
        { destruct (ladder o) eqn:Lo; [|now left]. right. rewrite <- HL. apply (HR (length rs) o); [|exact Lo].
          rewrite <- (rev_length rs), nth_error_app2, Nat.sub_diag by lia. reflexivity. }
        rewrite E1. destruct (f_op_mul_exact K exact N t new W1 HW) as [R [E2 [W2 M2]]]. rewrite E2. apply IH; try assumption.
        intros a b Ha Hb. rewrite (M2 a b Ha Hb).
        transitivity (mmul N (site K N (length rs) (local2 o)) (mscal c (kron (repeat (pauli1 PI) (length rs) ++ pauli1 PI :: map (olocal K) done))) a b).
        { apply mmul_meq; [exact M1|exact HM|exact Ha|exact Hb]. }
        pose proof (site_mul N (length rs) (local2 o) (map (olocal K) done) ltac:(rewrite map_length; lia) Hq a b Ha Hb) as SM.
        unfold mscal at 2. cbn [map olocal]. rewrite <- SM. unfold mmul. rewrite <- sumbits_scal. apply sumbits_ext. intros u Hu. unfold mscal. ring.
      + apply IH; try assumption.
  Qed.

  Lemma para_string_spec (s : fstr) (c : K) : at_ends s ->
    exists R, para_string (s, c) = Some R /\ fwf (length s) R /\ req (length s) (length s) (fmat R) (mscal c (qstr_mat s)).
  Proof.
    intro HR. unfold para_string. cbn zeta. cbn [fst snd].
    destruct (para_loop_spec (length s) c (rev s) [] (op_add_string fstr_eqb [] (repeat None (length s), c))) as [R [E [W M]]].
    - rewrite rev_involutive, app_nil_r. exact HR.
    - now rewrite rev_involutive, app_nil_r.
    - cbn. intros e [<-|[]]. apply repeat_length.
    - cbn [op_add_string op_get op_set fst snd fmat]. intros r d Hr Hd. unfold madd, mscal, mzero.
      unfold fstr_mat. rewrite flat_repeat_None'. rewrite (fock_mat_nil K (length s) r d Hr Hd).
      cbn [map]. rewrite app_nil_r, rev_length. rewrite (kron_one K (length s) r d Hr Hd). ring.
    - exists R. rewrite rev_involutive, app_nil_r in M. split; [exact E|]. split; [exact W|].
      intros r d Hr Hd. rewrite (M r d Hr Hd). unfold mscal. now rewrite (qstr_kron K s r d Hr Hd).
  Qed.
  Lemma para_ops_spec n : forall (l : fo) new, (forall e, In e l -> length (fst e) = n /\ at_ends (fst e)) -> fwf n new ->
    exists R, para_ops l new = Some R /\ fwf n R /\ req n n (fmat R) (madd (fmat new) (qop_mat l)).
  Proof.
    induction l as [|[s c] l IH]; intros new HL HW.
    - exists new. split; [reflexivity|]. split; [exact HW|]. intros r d _ _. cbn. unfold madd, qop_mat. cbn. ring.
    - destruct (HL (s, c) (or_introl eq_refl)) as [Hs HR]. cbn [fst] in Hs, HR. destruct (para_string_spec s c HR) as [R [E [W M]]].
      cbn [para_ops]. rewrite E. rewrite Hs in W, M.
      set (F := fold_left (op_add_string fstr_eqb) R new).
      assert (HF : fwf n F).
      { intros e He. assert (G : In (fst e) (map fst F)) by (apply in_map; exact He).
        unfold F in G. apply (In_fst_fold_add K _ _ fstr_eqb_spec') in G.
        destruct G as [G|G]; apply in_map_iff in G; destruct G as [e' [E' G]]; rewrite <- E'; [now apply W|now apply HW]. }
      assert (HM : forall r d, fmat (op_add fstr_eqb new R) r d = fmat new r d + fmat R r d).
      { intros r d. rewrite !fmat_lin. unfold op_add. fold F.
        assert (Z : lin (fun k => fstr_mat k r d) (dropped F) = 0).
        { assert (S : forall e, In e (dropped F) -> small (snd e) = true) by (intros e He; eapply dropped_small; exact He).
          clear - S exact. induction (dropped F) as [|[k x] D IH]; [reflexivity|]. cbn. rewrite IH by (intros e He; apply S; now right).
          rewrite (exact x) by (apply (S (k, x)); now left). ring. }
        transitivity (lin (fun k => fstr_mat k r d) (op_clean F) + lin (fun k => fstr_mat k r d) (dropped F)); [rewrite Z; ring|].
        rewrite lin_clean. unfold F. rewrite (lin_fold_add K _ _ fstr_eqb_spec'). ring. }
      destruct (IH (op_add fstr_eqb new R)) as [Q [E2 [W2 M2]]]; [intros e He; apply HL; now right| |].
      { intros e He. apply HF. unfold op_add, op_clean in He. apply filter_In in He. tauto. }
      exists Q. split; [exact E2|]. split; [exact W2|]. rewrite M2. intros r d Hr Hd. unfold madd at 1. rewrite HM, (M r d Hr Hd).
      unfold qop_mat, madd, mscal. unfold sumK. cbn [map snd fst fold_right]. ring.
  Qed.
  Lemma para_operator_spec n (l : fo) : (forall e, In e l -> length (fst e) = n /\ at_ends (fst e)) ->
    exists R, para_operator l = Some R /\ fwf n R /\ req n n (fmat R) (qop_mat l).
  Proof.
    intro H. destruct (para_ops_spec n l [] H) as [R [E [W M]]]; [intros e []|].
    exists R. split; [exact E|]. split; [exact W|]. rewrite M. intros r c _ _. cbn. unfold madd, mzero. ring.
  Qed.
End ParaProofs.
