From Coq Require Import Bool List Arith ZArith Lia Setoid Morphisms.
From Verif Require Import Coeff MatSpec MatLemmas FockSpec PauliModel PauliProofs OperatorModel OperatorProofs FermiModel FermiProofs TransformModel TwoTerm JWProofs TransformLin InvModel InvSpec TaperSpec TaperProofs TaperProofs2.
Import ListNotations.

Lemma fstr_eqb_spec' : forall a b, fstr_eqb a b = true <-> a = b.
Proof.
  induction a as [|x a IH]; intros [|y b]; cbn; try (split; discriminate); [split; reflexivity|].
  rewrite andb_true_iff, IH. split.
  - intros [H ->]. destruct x as [[]|], y as [[]|]; try discriminate; reflexivity.
  - intro H. inversion H. subst. split; [|reflexivity]. destruct y as [[]|]; reflexivity.
Qed.
Lemma all_some_map : forall A B (f : A -> option B) (P : A -> B -> Prop) l, (forall x, In x l -> exists y, f x = Some y /\ P x y) ->
  exists r, all_some (map f l) = Some r /\ Forall2 P l r.
Proof.
  intros A B f P. induction l as [|x l IH]; intro H; [exists []; split; [reflexivity|constructor]|].
  destruct (H x (or_introl eq_refl)) as [y [E Py]]. destruct IH as [r [E' F]]; [intros z Hz; apply H; now right|].
  exists (y :: r). cbn. rewrite E, E'. split; [reflexivity|now constructor].
Qed.
Lemma all_some_app : forall A (l m : list (option A)) a b, all_some l = Some a -> all_some m = Some b -> all_some (l ++ m) = Some (a ++ b).
Proof.
  intros A. induction l as [|[x|] l IH]; intros m a b Hl Hm; cbn in *; [injection Hl as <-; exact Hm| |discriminate].
  destruct (all_some l) as [a'|]; [|discriminate]. injection Hl as <-. rewrite (IH m a' b eq_refl Hm). reflexivity.
Qed.

Section InvProofs.
  Variable K : CoefRing.
  Add Ring KRing : (c_ring K).
  Local Open Scope coef_scope.
  Notation fo := (list (fstr * K)).
  Definition fwf (n : nat) (o : fo) : Prop := forall e, In e o -> length (fst e) = n.
  Lemma fmat_lin (o : fo) r c : fmat o r c = lin (fun k => fstr_mat k r c) o.
  Proof. induction o as [|[k x] o IH]; cbn; [reflexivity|]. unfold madd, mscal. rewrite IH. reflexivity. Qed.
  Lemma fmat_app (o a : fo) r c : fmat (o ++ a) r c = fmat o r c + fmat a r c.
  Proof. rewrite !fmat_lin. apply lin_app. Qed.

  Lemma f_products_spec n (o a : fo) : fwf n o -> fwf n a ->
    exists l, f_products o a = Some l /\ fwf n l /\ req n n (fmat l) (mmul n (fmat o) (fmat a)).
  Proof.
    intros Ho Ha. unfold f_products. induction a as [|x a IH].
    - exists []. cbn. split; [reflexivity|]. split; [intros e []|]. intros r c Hr Hc. unfold mzero. unfold mmul. symmetry.
      rewrite (sumbits_ext _ _ _ (fun _ => 0 * 0)); [rewrite sumbits_scal; ring|]. intros. unfold mzero. ring.
    - destruct IH as [l [E [W M]]]; [intros e He; apply Ha; now right|].
      destruct (all_some_map _ _ (fun s => fermi_mul true s x) (fun s y => length (fst y) = n /\ req n n (mscal (snd y) (fstr_mat (fst y))) (mmul n (mscal (snd s) (fstr_mat (fst s))) (mscal (snd x) (fstr_mat (fst x))))) o) as [l' [E' F]].
      { intros s Hs. destruct (fermi_mul_spec K s x n (Ho s Hs) (Ha x (or_introl eq_refl))) as [t [c [E1 [E2 E3]]]].
        exists (t, c). split; [exact E1|]. split; [exact E2|exact E3]. }
      exists (l' ++ l). cbn [flat_map]. split; [now apply all_some_app|].
      assert (W' : fwf n l').
      { clear - F. intros e He. induction F as [|s y o l' [H _] F IH]; [destruct He|]. destruct He as [<-|He]; [exact H|now apply IH]. }
      split; [intros e He; apply in_app_or in He; destruct He; auto|].
      assert (M' : req n n (fmat l') (mmul n (fmat o) (mscal (snd x) (fstr_mat (fst x))))).
      { clear - F. induction F as [|s y o l' [_ H] F IH].
        - intros r c _ _. cbn. unfold mzero, mmul. symmetry. rewrite (sumbits_ext _ _ _ (fun _ => 0 * 0)); [rewrite sumbits_scal; ring|]. intros. unfold mzero. ring.
        - destruct s as [s z], y as [y w]. cbn [fst snd fmat] in *. rewrite H, IH, (r_add_l K n n n). reflexivity. }
      destruct x as [k z]. cbn [fst snd fmat] in *. rewrite (r_add_r K n n n), <- M, <- M'. intros r c _ _. apply fmat_app.
  Qed.
  Lemma f_op_mul_spec n (o a : fo) : fwf n o -> fwf n a ->
    exists R D, f_op_mul o a = Some R /\ fwf n R /\ (forall e, In e D -> small (snd e) = true) /\
      req n n (madd (fmat R) (fmat D)) (mmul n (fmat o) (fmat a)).
  Proof.
    intros Ho Ha. unfold f_op_mul. destruct (f_products_spec n o a Ho Ha) as [l [-> [W M]]].
    set (F := fold_left (op_add_string fstr_eqb) l []).
    assert (HP : forall f : fstr -> K, lin f F = lin f l).
    { intro f. unfold F. rewrite (lin_fold_add K _ _ fstr_eqb_spec'). cbn. ring. }
    assert (HW : fwf n F).
    { intros e He. assert (G : In (fst e) (map fst F)) by (apply in_map; exact He).
      unfold F in G. apply (In_fst_fold_add K _ _ fstr_eqb_spec') in G. destruct G as [G|[]].
      apply in_map_iff in G. destruct G as [e' [E G]]. rewrite <- E. now apply W. }
    exists (op_clean F), (dropped F). split; [reflexivity|]. split; [|split].
    - intros e He. unfold op_clean in He. apply filter_In in He. apply HW. tauto.
    - intros e He. eapply dropped_small; exact He.
    - rewrite <- M. intros r c _ _. unfold madd. rewrite !fmat_lin, lin_clean. apply HP.
  Qed.

  Hypothesis exact : forall x : K, small x = true -> x = 0.
  Lemma f_op_mul_exact n (o a : fo) : fwf n o -> fwf n a ->
    exists R, f_op_mul o a = Some R /\ fwf n R /\ req n n (fmat R) (mmul n (fmat o) (fmat a)).
  Proof.
    intros Ho Ha. destruct (f_op_mul_spec n o a Ho Ha) as [R [D [E [W [S M]]]]]. exists R. split; [exact E|]. split; [exact W|].
    rewrite <- M. intros r c _ _. unfold madd.
    assert (Z : fmat D r c = 0).
    { clear - S exact. induction D as [|[s x] D IH]; [reflexivity|]. cbn. unfold madd, mscal. rewrite IH by (intros e He; apply S; now right).
      rewrite (exact x) by (apply (S (s, x)); now left). ring. }
    rewrite Z. ring.
  Qed.

  (** ** Strings with one letter changed *)
  Lemma upd_length A j (x : A) l : length (upd j x l) = length l.
  Proof. revert j. induction l as [|y l IH]; intros [|j]; cbn; congruence. Qed.
  Lemma pmuls_one : forall r N w p, length w = N -> (r < N)%nat ->
    pmuls (one_letter N r p) w = upd r (pmul1 p (nth r w PI)) w /\ pexps (one_letter N r p) w = pexp1 p (nth r w PI).
  Proof.
    assert (Z : forall w, pmuls (repeat PI (length w)) w = w /\ pexps (repeat PI (length w)) w = 0%Z).
    { induction w as [|x w [I1 I2]]; [split; reflexivity|]. cbn [length repeat pmuls pexps]. rewrite I1, I2. split; [f_equal; destruct x; reflexivity|destruct x; reflexivity]. }
    induction r as [|r IH]; intros N [|x w] p Hw Hr; cbn in Hw; try lia.
    - unfold one_letter. cbn [repeat app pmuls pexps nth upd]. replace (N - 0 - 1)%nat with (length w) by lia. destruct (Z w) as [-> ->]. split; [reflexivity|lia].
    - destruct N as [|N]; [lia|]. injection Hw as Hw. destruct (IH N w p Hw ltac:(lia)) as [I1 I2]. unfold one_letter in *. cbn [repeat app pmuls pexps nth upd].
      replace (S N - S r - 1)%nat with (N - r - 1)%nat by lia. rewrite I1, I2. split; [f_equal; destruct x; reflexivity|destruct x; reflexivity].
  Qed.
  Lemma mul_one N r p w : length w = N -> (r < N)%nat ->
    req N N (mmul N (@pmat K (one_letter N r p)) (pmat w)) (mscal (ipow (pexp1 p (nth r w PI))) (pmat (upd r (pmul1 p (nth r w PI)) w))).
  Proof.
    intros Hw Hr. destruct (pmuls_one r N w p Hw Hr) as [E1 E2]. intros a b Ha Hb.
    rewrite <- (pmat_mul K (one_letter N r p) w N (one_letter_length _ _ _ Hr) Hw a b Ha Hb). now rewrite E1, E2.
  Qed.

  Lemma nth_upd_ne A (d x : A) : forall l i j, i <> j -> nth i (upd j x l) d = nth i l d.
  Proof. induction l as [|y l IH]; intros [|i] [|j] H; cbn; try reflexivity; try congruence. apply IH. congruence. Qed.
  Lemma nth_upd_eq A (d x : A) : forall l i, (i < length l)%nat -> nth i (upd i x l) d = x.
  Proof. induction l as [|y l IH]; intros [|i] H; cbn in *; try lia; [reflexivity|]. apply IH. lia. Qed.
  Lemma nth_repeat_PI k n : nth k (repeat PI n) PI = PI.
  Proof. revert k. induction n as [|n IH]; intros [|k]; try reflexivity. apply IH. Qed.
  Lemma nth_repeat_PZ k n : (k < n)%nat -> nth k (repeat PZ n) PI = PZ.
  Proof. revert k. induction n as [|n IH]; intros [|k] H; try lia; [reflexivity|]. apply IH. lia. Qed.
  Lemma NoDup_map_inj_in A B (f : A -> B) l : (forall x y, In x l -> In y l -> f x = f y -> x = y) -> NoDup l -> NoDup (map f l).
  Proof.
    intros Hf H. induction H as [|x l Hn ND IH]; [constructor|]. cbn. constructor.
    - intro G. apply in_map_iff in G. destruct G as [y [E G]]. apply Hn. rewrite <- (Hf y x); [exact G|now right|now left|exact E].
    - apply IH. intros y z Hy Hz. apply Hf; now right.
  Qed.

  (** ** The factors *)
  Lemma f_two_eq N q a b (x y : K) : a <> b -> f_two N q a b x y = [(single N q a, x); (single N q b, y)].
  Proof.
    intro H. unfold f_two, op_add_string. cbn [op_get op_set fst snd].
    destruct (fstr_eqb (single N q b) (single N q a)) eqn:E; [|reflexivity]. apply fstr_eqb_spec' in E. exfalso. unfold single in E.
    apply app_inv_head in E. congruence.
  Qed.
  Lemma single_length N q o : (q < N)%nat -> length (single N q o) = N.
  Proof. intro H. unfold single. rewrite app_length. cbn [length]. rewrite !repeat_length. lia. Qed.
  Lemma f_two_wf N q a b (x y : K) : a <> b -> (q < N)%nat -> fwf N (f_two N q a b x y).
  Proof. intros H Hq. rewrite f_two_eq by exact H. intros e [<-|[<-|[]]]; now apply single_length. Qed.
  Lemma single_mat N q o r c : fstr_mat (K := K) (single N q o) r c = fock_mat [(o, q)] r c.
  Proof. unfold fstr_mat, single. rewrite flat_repeat_None. cbn [flat]. rewrite flat_repeat_None'. now rewrite Nat.add_0_r. Qed.
  Lemma z_factor N q : (q < N)%nat -> req N N (fmat (f_two N q Hol Par 1 (- (1)))) (@pmat K (one_letter N q PZ)).
  Proof.
    intros Hq r c Hr Hc. rewrite f_two_eq by discriminate. cbn [fmat]. unfold madd, mscal, mzero. rewrite !single_mat.
    assert (Hh : (chalf + chalf : K) = 1) by apply chalf_dbl.
    rewrite <- (number_mat K Hol q (N - q - 1)), <- (number_mat K Par q (N - q - 1)) by (try reflexivity; lia). cbn [number_c2]. unfold one_letter.
    assert (H1 : (1 - chalf : K) = chalf) by apply one_minus_half. rewrite ?H1.
    transitivity ((chalf + chalf) * @pmat K (repeat PI q ++ PZ :: repeat PI (N - q - 1)) r c); [ring|rewrite Hh; ring].
  Qed.
  Lemma x_factor N q : (q < N)%nat -> req N N (fmat (f_two N q Cre Ann 1 1)) (@pmat K (repeat PZ q ++ PX :: repeat PI (N - q - 1))).
  Proof.
    intros Hq r c Hr Hc. rewrite f_two_eq by discriminate. cbn [fmat]. unfold madd, mscal, mzero. rewrite !single_mat.
    assert (Hh : (chalf + chalf : K) = 1) by apply chalf_dbl.
    rewrite <- (jw_ladder_mat K Cre q (N - q - 1)), <- (jw_ladder_mat K Ann q (N - q - 1)) by (try reflexivity; lia). cbn [ladder_c2].
    assert (H1 : (1 - chalf : K) = chalf) by apply one_minus_half. rewrite ?H1.
    transitivity ((chalf + chalf) * @pmat K (repeat PZ q ++ PX :: repeat PI (N - q - 1)) r c); [ring|rewrite Hh; ring].
  Qed.
  Lemma y_factor N q : (q < N)%nat -> req N N (fmat (f_two N q Cre Ann ci (- ci))) (@pmat K (repeat PZ q ++ PY :: repeat PI (N - q - 1))).
  Proof.
    intros Hq r c Hr Hc. rewrite f_two_eq by discriminate. cbn [fmat]. unfold madd, mscal, mzero. rewrite !single_mat.
    assert (Hh : (chalf + chalf : K) = 1) by apply chalf_dbl. assert (Ci : (ci * ci : K) = - (1)) by apply ci_sq.
    rewrite <- (jw_ladder_mat K Cre q (N - q - 1)), <- (jw_ladder_mat K Ann q (N - q - 1)) by (try reflexivity; lia). cbn [ladder_c2].
    assert (H1 : (1 - chalf : K) = chalf) by apply one_minus_half. rewrite ?H1.
    transitivity ((chalf + chalf) * @pmat K (repeat PZ q ++ PY :: repeat PI (N - q - 1)) r c); [ring [Ci]|rewrite Hh; ring].
  Qed.

  (** What the chain computes: Z on the positions N-2-qj. *)
  Lemma chain_spec N : forall qjs (t : fo) w, (forall j, In j qjs -> (N - j - 1 - 1 < N)%nat) -> NoDup (map (fun j => N - j - 1 - 1)%nat qjs) ->
    (forall j, In j qjs -> nth (N - j - 1 - 1) w PI = PZ) -> length w = N -> fwf N t -> req N N (fmat t) (@pmat K w) ->
    exists t', chain N qjs t = Some t' /\ fwf N t' /\
      req N N (fmat t') (pmat (fold_left (fun w j => upd (N - j - 1 - 1) PI w) qjs w)).
  Proof.
    induction qjs as [|j qjs IH]; intros t w Hj HD Hz Hw HW HM.
    - exists t. split; [reflexivity|]. split; assumption.
    - cbn [chain]. set (r := (N - j - 1 - 1)%nat). assert (Hr : (r < N)%nat) by (apply Hj; now left).
      destruct (f_op_mul_exact N (f_two N r Hol Par 1 (- (1))) t) as [R [E [W M]]]; [apply f_two_wf; [discriminate|exact Hr]|exact HW|].
      rewrite E. apply (IH R (upd r PI w)).
      + intros k Hk. apply Hj. now right.
      + inversion HD; assumption.
      + intros k Hk. apply NoDup_cons_iff in HD. destruct HD as [Hn ND].
        assert (NE : (N - k - 1 - 1 <> r)%nat) by (intro G; apply Hn; fold r; rewrite <- G; apply in_map_iff; exists k; auto).
        rewrite nth_upd_ne by exact NE. apply Hz. now right.
      + now rewrite upd_length.
      + exact W.
      + rewrite M, z_factor, HM by exact Hr. rewrite (mul_one N r PZ w Hw Hr). rewrite (Hz j (or_introl eq_refl) : nth r w PI = PZ).
        intros a b _ _. unfold mscal. cbn. unfold ipow. cbn. ring.
  Qed.
  Lemma chain_string N q p : (0 < q)%nat -> q = (N - 1)%nat -> fold_left (fun w j => upd (N - j - 1 - 1) PI w) (seq 0 q) (repeat PZ q ++ p :: repeat PI (N - q - 1)) = one_letter N q p.
  Proof.
    intros H0 Hq. set (w0 := repeat PZ q ++ p :: repeat PI (N - q - 1)).
    assert (L : forall js w, length (fold_left (fun w j => upd (N - j - 1 - 1) PI w) js w) = length w).
    { induction js as [|j js IH]; intro w; [reflexivity|]. cbn. rewrite IH. apply upd_length. }
    assert (G : forall js w k, nth k (fold_left (fun w j => upd (N - j - 1 - 1) PI w) js w) PI = if existsb (fun j => N - j - 1 - 1 =? k)%nat js then PI else nth k w PI).
    { induction js as [|j js IH]; intros w k; [reflexivity|]. cbn [fold_left existsb]. rewrite IH. destruct (existsb _ js); [now rewrite orb_true_r|]. rewrite orb_false_r.
      destruct (N - j - 1 - 1 =? k)%nat eqn:E.
      - apply Nat.eqb_eq in E. rewrite E. destruct (le_lt_dec (length w) k) as [Hl|Hl]; [apply nth_overflow; rewrite upd_length; exact Hl|now apply nth_upd_eq].
      - apply Nat.eqb_neq in E. apply nth_upd_ne. congruence. }
    assert (Lw : length w0 = N) by (unfold w0; rewrite app_length; cbn [length]; rewrite !repeat_length; lia).
    apply nth_ext with PI PI; [rewrite L, one_letter_length; lia|]. intros k Hk. rewrite L, Lw in Hk. rewrite G.
    destruct (Nat.eq_dec k q) as [->|NE].
    - assert (E : existsb (fun j => N - j - 1 - 1 =? q)%nat (seq 0 q) = false).
      { apply not_true_is_false. intro E. apply existsb_exists in E. destruct E as [j [Hj E]]. apply in_seq in Hj. apply Nat.eqb_eq in E. lia. }
      rewrite E, one_letter_nth by lia. unfold w0. rewrite app_nth2; rewrite repeat_length; [|lia]. now rewrite Nat.sub_diag.
    - assert (E : existsb (fun j => N - j - 1 - 1 =? k)%nat (seq 0 q) = true).
      { apply existsb_exists. exists (N - 2 - k)%nat. split; [apply in_seq; lia|apply Nat.eqb_eq; lia]. }
      rewrite E. unfold one_letter. rewrite app_nth1 by (rewrite repeat_length; lia). symmetry. apply nth_repeat_PI.
  Qed.
  Lemma letter_spec N q o : (q < N)%nat -> o <> PI -> (o = PZ \/ q = 0%nat \/ q = (N - 1)%nat) ->
    exists t, letter (K := K) N q o = Some (Some t) /\ fwf N t /\ req N N (fmat t) (pmat (one_letter N q o)).
  Proof.
    intros Hq Ho Hc.
    assert (C : forall p (t : fo), (q = 0%nat \/ q = (N - 1)%nat) -> fwf N t -> req N N (fmat t) (@pmat K (repeat PZ q ++ p :: repeat PI (N - q - 1))) ->
              exists t', option_map Some (chain N (seq 0 q) t) = Some (Some t') /\ fwf N t' /\ req N N (fmat t') (pmat (one_letter N q p))).
    { intros p t Hq' HW HM. destruct (Nat.eq_dec q 0) as [->|Hz].
      - exists t. split; [reflexivity|]. split; [exact HW|exact HM].
      - assert (Eq : q = (N - 1)%nat) by lia.
        destruct (chain_spec N (seq 0 q) t (repeat PZ q ++ p :: repeat PI (N - q - 1))) as [t' [E [W M]]]; try assumption.
        + intros j Hj. apply in_seq in Hj. lia.
        + apply (NoDup_map_inj_in _ _ (fun j => N - j - 1 - 1)%nat); [|apply seq_NoDup]. intros x y Hx Hy. apply in_seq in Hx. apply in_seq in Hy. lia.
        + intros j Hj. apply in_seq in Hj. rewrite app_nth1 by (rewrite repeat_length; lia). apply nth_repeat_PZ. lia.
        + rewrite app_length. cbn [length]. rewrite !repeat_length. lia.
        + exists t'. rewrite E. split; [reflexivity|]. split; [exact W|]. rewrite M, chain_string by lia. reflexivity. }
    destruct o; [contradiction| | |].
    - apply C; [destruct Hc as [Hc|Hc]; [discriminate|exact Hc]|apply f_two_wf; [discriminate|exact Hq]|now apply x_factor].
    - apply C; [destruct Hc as [Hc|Hc]; [discriminate|exact Hc]|apply f_two_wf; [discriminate|exact Hq]|now apply y_factor].
    - exists (f_two N q Hol Par 1 (- (1))). split; [reflexivity|]. split; [apply f_two_wf; [discriminate|exact Hq]|now apply z_factor].
  Qed.

  Definition reachable (s : list pauli) : Prop := forall q, (q < length s)%nat -> nth q s PI = PX \/ nth q s PI = PY -> q = 0%nat \/ q = (length s - 1)%nat.
  Lemma inverse_loop_spec N (c : K) : forall rs done new, reachable (rev rs ++ done) -> length (rev rs ++ done) = N ->
    fwf N new -> req N N (fmat new) (mscal c (pmat (repeat PI (length rs) ++ done))) ->
    exists R, inverse_loop N rs new = Some R /\ fwf N R /\ req N N (fmat R) (mscal c (pmat (rev rs ++ done))).
  Proof.
    induction rs as [|o rs IH]; intros done new HR HL HW HM.
    - exists new. split; [reflexivity|]. split; assumption.
    - cbn [rev] in HR, HL. rewrite <- app_assoc in HR, HL. cbn [app] in HR, HL. cbn [inverse_loop rev]. rewrite <- app_assoc. cbn [app].
      assert (Hl : (length rs + S (length done) = N)%nat) by (rewrite app_length, rev_length in HL; cbn in HL; exact HL).
      assert (Hq : (length rs < N)%nat) by lia.
      assert (No : nth (length rs) (rev rs ++ o :: done) PI = o) by (rewrite <- (rev_length rs), app_nth2, Nat.sub_diag by lia; reflexivity).
      assert (ER : repeat PI (length (o :: rs)) ++ done = repeat PI (length rs) ++ PI :: done).
      { cbn [length]. replace (S (length rs)) with (length rs + 1)%nat by lia. rewrite repeat_app, <- app_assoc. reflexivity. }
      rewrite ER in HM.
      destruct (pauli_eqb o PI) eqn:E.
      + apply pauli_eqb_spec in E. subst o. cbn [letter]. apply IH; assumption.
      + assert (Ho : o <> PI) by (intro G; apply pauli_eqb_spec in G; congruence).
        destruct (letter_spec N (length rs) o Hq Ho) as [t [E1 [W1 M1]]].
        { destruct o; [contradiction| | |now left]; right; rewrite <- HL; (apply HR; [rewrite HL; exact Hq|rewrite No; tauto]). }
        rewrite E1. destruct (f_op_mul_exact N t new W1 HW) as [R [E2 [W2 M2]]]. rewrite E2. apply IH; try assumption.
        rewrite M2, M1, HM, (r_scal_r K N N N).
        assert (Lw : length (repeat PI (length rs) ++ PI :: done) = N) by (rewrite app_length, repeat_length; cbn [length]; lia).
        assert (Nw : nth (length rs) (repeat PI (length rs) ++ PI :: done) PI = PI).
        { rewrite app_nth2; rewrite repeat_length; [|lia]. now rewrite Nat.sub_diag. }
        rewrite (mul_one N (length rs) o _ Lw Hq), Nw.
        assert (Eu : upd (length rs) (pmul1 o PI) (repeat PI (length rs) ++ PI :: done) = repeat PI (length rs) ++ o :: done).
        { clear. induction (length rs) as [|k IHk]; cbn; [f_equal; destruct o; reflexivity|now rewrite IHk]. }
        rewrite Eu. intros a b _ _. unfold mscal. destruct o; cbn; unfold ipow; cbn; ring.
  Qed.
  Lemma inverse_string_spec (s : list pauli) (c : K) : reachable s ->
    exists R, inverse_string (s, c) = Some R /\ fwf (length s) R /\ req (length s) (length s) (fmat R) (mscal c (pmat s)).
  Proof.
    intro HR. unfold inverse_string. cbn zeta. cbn [fst snd].
    destruct (inverse_loop_spec (length s) c (rev s) [] (op_add_string fstr_eqb [] (repeat None (length s), c))) as [R [E [W M]]].
    - rewrite rev_involutive, app_nil_r. exact HR.
    - now rewrite rev_involutive, app_nil_r.
    - cbn. intros e [<-|[]]. apply repeat_length.
    - cbn [op_add_string op_get op_set fst snd fmat]. intros r d Hr Hd. unfold madd, mscal, mzero.
      unfold fstr_mat. rewrite flat_repeat_None'. rewrite (fock_mat_nil K (length s) r d Hr Hd).
      rewrite app_nil_r, rev_length. rewrite (pmat_identity K (length s) r d Hr Hd). ring.
    - exists R. rewrite rev_involutive, app_nil_r in M. split; [exact E|]. split; assumption.
  Qed.
  Lemma inverse_ops_spec n : forall (l : list (list pauli * K)) new, (forall e, In e l -> length (fst e) = n /\ reachable (fst e)) -> fwf n new ->
    exists R, inverse_ops l new = Some R /\ fwf n R /\ req n n (fmat R) (madd (fmat new) (omat l)).
  Proof.
    induction l as [|[s c] l IH]; intros new HL HW.
    - exists new. split; [reflexivity|]. split; [exact HW|]. intros r d _ _. cbn. unfold madd, mzero. ring.
    - destruct (HL (s, c) (or_introl eq_refl)) as [Hs HR]. cbn [fst] in Hs, HR. destruct (inverse_string_spec s c HR) as [R [E [W M]]].
      cbn [inverse_ops]. rewrite E. rewrite Hs in W, M.
      set (F := fold_left (op_add_string fstr_eqb) R new).
      assert (HF : fwf n F).
      { intros e He. assert (G : In (fst e) (map fst F)) by (apply in_map; exact He).
        unfold F in G. apply (In_fst_fold_add K _ _ fstr_eqb_spec') in G.
        destruct G as [G|G]; apply in_map_iff in G; destruct G as [e' [E' G]]; rewrite <- E'; [now apply W|now apply HW]. }
      assert (HM : forall r d, fmat (op_add fstr_eqb new R) r d = fmat new r d + fmat R r d).
      { intros r d. rewrite !fmat_lin. unfold op_add. fold F.
        assert (Z : lin (fun k => fstr_mat k r d) (dropped F) = 0).
        { assert (S : forall e, In e (dropped F) -> small (snd e) = true) by (intros e He; eapply dropped_small; exact He).
          clear - S exact. induction (dropped F) as [|[k x] D IH]; [reflexivity|]. cbn. rewrite IH by (intros e He; apply S; now right).
          rewrite (exact x) by (apply (S (k, x)); now left). ring. }
        transitivity (lin (fun k => fstr_mat k r d) (op_clean F) + lin (fun k => fstr_mat k r d) (dropped F)); [rewrite Z; ring|].
        rewrite lin_clean. unfold F. rewrite (lin_fold_add K _ _ fstr_eqb_spec'). ring. }
      destruct (IH (op_add fstr_eqb new R)) as [Q [E2 [W2 M2]]]; [intros e He; apply HL; now right| |].
      { intros e He. apply HF. unfold op_add, op_clean in He. apply filter_In in He. tauto. }
      exists Q. split; [exact E2|]. split; [exact W2|]. rewrite M2. intros r d Hr Hd. unfold madd at 1. rewrite HM, (M r d Hr Hd).
      cbn [omat]. unfold madd. ring.
  Qed.
  Lemma inverse_operator_spec n (l : list (list pauli * K)) : (forall e, In e l -> length (fst e) = n /\ reachable (fst e)) ->
    exists R, inverse_operator l = Some R /\ fwf n R /\ req n n (fmat R) (omat l).
  Proof.
    intro H. destruct (inverse_ops_spec n l [] H) as [R [E [W M]]]; [intros e []|].
    exists R. split; [exact E|]. split; [exact W|]. rewrite M. intros r c _ _. cbn. unfold madd, mzero. ring.
  Qed.
End InvProofs.
