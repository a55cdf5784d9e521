(** Gates acting on Pauli strings. *)
From Coq Require Import Bool List Arith ZArith Lia Ring.
From Verif Require Import Coeff MatSpec MatLemmas KronLemmas FockSpec EncProofs CircuitSpec CircuitModel CircuitProofs CircuitProofs2 CircSpec2 CircProofs2
  PlanSpec PlanProofs3 ScModel.
Import ListNotations.

Section Carry.
  Variable K : CoefRing.
  Add Ring KRing : (c_ring K).
  Local Open Scope coef_scope.

  (** The matrix A turns the string s into the string t. *)
  Definition carries (N : nat) (A : mat K) (s t : list pauli) : Prop := meq N (mmul N A (pmat s)) (mmul N (pmat t) A).

  Lemma carries_comp N (A B : mat K) s t u : carries N A s t -> carries N B t u -> carries N (mmul N B A) s u.
  Proof.
    intros H1 H2. unfold carries in *.
    eapply meq_trans; [apply meq_sym, mmul_assoc|]. eapply meq_trans; [apply mmul_meq; [apply meq_refl|exact H1]|].
    eapply meq_trans; [apply mmul_assoc|]. eapply meq_trans; [apply mmul_meq; [exact H2|apply meq_refl]|]. apply meq_sym, mmul_assoc.
  Qed.
  Lemma carries_one N s : carries N mone s s.
  Proof. unfold carries. eapply meq_trans; [apply mmul_one_l|apply meq_sym, mmul_one_r]. Qed.
  Lemma carries_meq N (A B : mat K) s t : meq N A B -> carries N A s t -> carries N B s t.
  Proof.
    intros H C. unfold carries in *. eapply meq_trans; [apply mmul_meq; [apply meq_sym, H|apply meq_refl]|].
    eapply meq_trans; [exact C|]. apply mmul_meq; [apply meq_refl|exact H].
  Qed.

  Lemma split_nth (s : list pauli) : forall i, (i < length s)%nat -> s = firstn i s ++ nth i s PI :: skipn (S i) s.
  Proof. induction s as [|p s IH]; intros [|i] H; cbn in H; try lia; [reflexivity|]. cbn. f_equal. apply IH. lia. Qed.
  Lemma split_other s t i : length s = length t -> (forall j, j <> i -> nth j s PI = nth j t PI) ->
    firstn i s = firstn i t /\ skipn (S i) s = skipn (S i) t.
  Proof.
    revert t i. induction s as [|p s IH]; intros [|q t] i HL H; try discriminate; [destruct i; split; reflexivity|].
    destruct i as [|i].
    - split; [reflexivity|]. cbn. apply nth_ext with PI PI; [cbn in HL; lia|]. intros j _. apply (H (S j)). lia.
    - destruct (IH t i ltac:(cbn in HL; lia)) as [A B].
      { intros j Hj. apply (H (S j)). lia. }
      split; [|exact B]. cbn. rewrite A. f_equal. apply (H 0%nat). lia.
  Qed.
  Lemma kron_at1 N q m (pre : list (mat2 K)) x post : length pre = q -> N = (q + S (length post))%nat ->
    meq N (mmul N (kron (pre ++ x :: post)) (at1 N q m)) (kron (pre ++ mul2 x m :: post)).
  Proof.
    intros Hq HN. unfold at1. eapply meq_trans.
    - apply kron_mul; rewrite app_length; cbn [length]; rewrite ?repeat_length; lia.
    - intros r c Hr Hc. apply kron_eqk. rewrite zip2_app by (rewrite repeat_length; lia). apply eqk_app.
      + apply zip2_I_r. exact Hq.
      + cbn [zip2]. constructor; [intros a b; reflexivity|]. apply zip2_I_r. lia.
  Qed.
  Lemma at1_mul N q (m1 m2 : mat2 K) : (q < N)%nat -> meq N (mmul N (at1 N q m2) (at1 N q m1)) (at1 N q (mul2 m2 m1)).
  Proof. intro H. unfold at1 at 2. apply at1_kron; rewrite repeat_length; lia. Qed.
  Lemma at1_eq2 N q (m m' : mat2 K) : eq2 m m' -> meq N (at1 N q m) (at1 N q m').
  Proof. intros H r c _ _. apply kron_eqk. apply eqk_app; [apply eqk_refl|]. constructor; [exact H|apply eqk_refl]. Qed.

  Lemma at1_carries N i (m : mat2 K) s t : (i < N)%nat -> length s = N -> length t = N ->
    (forall j, j <> i -> nth j s PI = nth j t PI) ->
    eq2 (mul2 m (pauli1 (nth i s PI))) (mul2 (pauli1 (nth i t PI)) m) -> carries N (at1 N i m) s t.
  Proof.
    intros Hi Hs Ht Ho He. destruct (split_other s t i ltac:(congruence) Ho) as [F S].
    assert (Es := split_nth s i ltac:(lia)). assert (Et := split_nth t i ltac:(lia)). rewrite <- F, <- S in Et.
    set (pre := firstn i s) in *. set (post := skipn (Datatypes.S i) s) in *.
    assert (Lp : length pre = i) by (unfold pre; rewrite firstn_length; lia).
    assert (Lq : length post = (N - i - 1)%nat) by (unfold post; rewrite skipn_length; lia).
    assert (Ks : meq N (pmat s) (kron (map pauli1 pre ++ @pauli1 K (nth i s PI) :: map pauli1 post))).
    { intros r c _ _. rewrite pmat_kron, Es at 1. rewrite map_app. reflexivity. }
    assert (Kt : meq N (pmat t) (kron (map pauli1 pre ++ @pauli1 K (nth i t PI) :: map pauli1 post))).
    { intros r c _ _. rewrite pmat_kron, Et at 1. rewrite map_app. reflexivity. }
    unfold carries. eapply meq_trans; [apply mmul_meq; [apply meq_refl|exact Ks]|].
    eapply meq_trans; [apply at1_kron; rewrite map_length; lia|].
    apply meq_sym. eapply meq_trans; [apply mmul_meq; [exact Kt|apply meq_refl]|].
    eapply meq_trans; [apply kron_at1; rewrite map_length; lia|].
    intros r c _ _. apply kron_eqk. apply eqk_app; [apply eqk_refl|]. constructor; [|apply eqk_refl]. intros a b. symmetry. apply He.
  Qed.

  (** ** CNOT *)
  Fixpoint kprod (n : nat) (f : nat -> K) : K := match n with O => 1 | Datatypes.S k => kprod k f * f k end.
  Lemma kprod_ext n f g : (forall i, (i < n)%nat -> f i = g i) -> kprod n f = kprod n g.
  Proof. induction n as [|n IH]; intro H; [reflexivity|]. cbn. rewrite IH by (intros; apply H; lia). rewrite H by lia. reflexivity. Qed.
  Lemma kprod_take n f a : (a < n)%nat -> kprod n f = f a * kprod n (fun i => if (i =? a)%nat then 1 else f i).
  Proof.
    induction n as [|n IH]; intro H; [lia|]. cbn [kprod]. destruct (Nat.eq_dec a n) as [->|Hne].
    - rewrite Nat.eqb_refl. rewrite (kprod_ext n (fun i => if (i =? n)%nat then 1 else f i) f); [ring|].
      intros i Hi. rewrite (proj2 (Nat.eqb_neq i n)) by lia. reflexivity.
    - rewrite IH by lia. rewrite (proj2 (Nat.eqb_neq n a)) by lia. ring.
  Qed.
  Lemma kprod_shift n f : kprod (Datatypes.S n) f = f 0%nat * kprod n (fun i => f (Datatypes.S i)).
  Proof. induction n as [|n IH]; [cbn; ring|]. change (kprod (Datatypes.S (Datatypes.S n)) f) with (kprod (Datatypes.S n) f * f (Datatypes.S n)). rewrite IH. cbn. ring. Qed.
  Lemma pmat_kprod s : forall r c, length r = length s -> length c = length s ->
    @pmat K s r c = kprod (length s) (fun i => pauli1 (nth i s PI) (nth i r false) (nth i c false)).
  Proof.
    induction s as [|p s IH]; intros [|x r] [|y c] Hr Hc; try discriminate; [reflexivity|].
    cbn [length pmat]. rewrite kprod_shift. cbn [nth]. rewrite IH by (cbn in *; lia). reflexivity.
  Qed.
  Lemma kprod_two n f a b : (a < n)%nat -> (b < n)%nat -> a <> b ->
    kprod n f = f a * f b * kprod n (fun i => if (i =? a)%nat || (i =? b)%nat then 1 else f i).
  Proof.
    intros Ha Hb Hab. rewrite (kprod_take n f a Ha). rewrite (kprod_take n _ b Hb). rewrite (proj2 (Nat.eqb_neq b a)) by congruence.
    rewrite (kprod_ext n (fun i => if (i =? b)%nat then 1 else if (i =? a)%nat then 1 else f i) (fun i => if (i =? a)%nat || (i =? b)%nat then 1 else f i)); [ring|].
    intros i _. destruct (i =? a)%nat, (i =? b)%nat; reflexivity.
  Qed.

  (** A CNOT changes the letters p, q (control, target) into p', q' without a sign. *)
  Definition cx_letters (p q p' q' : pauli) : Prop := forall x y z w : bool,
    pauli1 p x y * pauli1 q (xorb z x) w = pauli1 p' x y * @pauli1 K q' z (xorb w y).
  Lemma cx_table p q p' q' : match p, q, p', q' with
    | PI, PI, PI, PI | PX, PI, PX, PX | PI, PX, PI, PX | PX, PX, PX, PI
    | PZ, PI, PZ, PI | PI, PZ, PZ, PZ | PZ, PZ, PI, PZ => True | _, _, _, _ => False end -> cx_letters p q p' q'.
  Proof. destruct p, q, p', q'; intros []; intros [] [] [] []; cbn [pauli1 xorb]; ring. Qed.

  Lemma pm_mmul N (P : mat K) f : (forall c, length c = N -> length (f c) = N) -> (forall c, length c = N -> f (f c) = c) ->
    meq N (mmul N (pm K f) P) (fun r c => P (f r) c).
  Proof.
    intros Hf Hi r c Hr Hc. unfold mmul, pm. rewrite (sumbits_ext K N _ (fun k => if bits_eqb k (f r) then P k c else 0)).
    - apply (sumbits_pick K N (f r) (fun k => P k c)). now apply Hf.
    - intros b Hb. replace (bits_eqb r (f b)) with (bits_eqb b (f r)); [destruct (bits_eqb b (f r)); ring|].
      apply eq_true_iff_eq. rewrite !bits_eqb_spec. split; intros ->; symmetry; now apply Hi.
  Qed.
  Lemma cx_nth a b n j : (b < length n)%nat -> nth j (cx_bits a b n) false = if Nat.eqb j b then xorb (nth b n false) (nth a n false) else nth j n false.
  Proof. apply cx_at. Qed.
  Lemma cx_carries (rt : K) N a b s t : (a < N)%nat -> (b < N)%nat -> a <> b -> length s = N -> length t = N ->
    (forall j, j <> a -> j <> b -> nth j s PI = nth j t PI) ->
    cx_letters (nth a s PI) (nth b s PI) (nth a t PI) (nth b t PI) -> carries N (gmat rt N (Gcx a b)) s t.
  Proof.
    intros Ha Hb Hab Hs Ht Ho HL. unfold carries. cbn [gmat]. change (fun r c : bits => if bits_eqb r (cx_bits a b c) then 1 else 0) with (pm K (cx_bits a b)).
    eapply meq_trans; [apply pm_mmul; [intros c Hc; rewrite cx_length; exact Hc|intros c Hc; apply cx_invol; [exact Hab|lia]]|].
    apply meq_sym. eapply meq_trans; [apply mmul_pm; intros c Hc; rewrite cx_length; exact Hc|].
    intros r c Hr Hc. rewrite !pmat_kprod by (rewrite ?cx_length; congruence). rewrite Hs, Ht.
    rewrite (kprod_two N _ a b Ha Hb Hab). rewrite (kprod_two N (fun i => pauli1 (nth i s PI) _ _) a b Ha Hb Hab).
    rewrite !cx_nth by lia. rewrite Nat.eqb_refl. rewrite (proj2 (Nat.eqb_neq a b)) by exact Hab.
    specialize (HL (nth a r false) (nth a c false) (nth b r false) (nth b c false)). rewrite <- HL. f_equal.
    apply kprod_ext. intros i Hi. destruct (Nat.eqb_spec i a); [reflexivity|]. destruct (Nat.eqb_spec i b); [reflexivity|].
    cbn [orb]. rewrite !cx_nth by lia. rewrite (proj2 (Nat.eqb_neq i b)) by assumption. rewrite Ho by assumption. reflexivity.
  Qed.

  (** ** The recorded gates *)
  Variable rt : K.
  Hypothesis rt_sq : rt * rt = chalf.
  Hypothesis rt_real : cconj rt = rt.

  Lemma rt2' : rt * rt + rt * rt = 1. Proof. rewrite rt_sq. apply chalf_dbl. Qed.
  Lemma i2' : (ci * ci : K) = - (1). Proof. apply ci_sq. Qed.

  Lemma si_carries N i s t : (i < N)%nat -> length s = N -> length t = N -> (forall j, j <> i -> nth j s PI = nth j t PI) ->
    match nth i s PI, nth i t PI with PI, PI | PZ, PZ | PY, PX => True | _, _ => False end ->
    carries N (cmat rt N (written rt (SSi i))) s t.
  Proof.
    intros Hi Hs Ht Ho Hl. cbn [written cmat gmat].
    apply carries_meq with (at1 N i (rz2 (rt, - rt))); [apply meq_sym, mmul_one_l|].
    apply at1_carries; try assumption.
    destruct (nth i s PI), (nth i t PI); try destruct Hl; intros [] []; unfold mul2, rz2, m2; cbn [fst snd pauli1]; try ring.
    - transitivity (ci * rt - (ci * ci) * rt); [ring|]. rewrite i2'. ring.
    - transitivity (- (ci * rt) - (ci * ci) * rt); [ring|]. rewrite i2'. ring.
  Qed.

  (** The product of the three gates. *)
  Definition hw : mat2 K := m2 (chalf * (1 - ci)) (chalf * (1 - ci)) (chalf * (1 - ci)) (- (chalf * (1 - ci))).
  Lemma hw_eq : eq2 (mul2 (rz2 (rt, rt)) (mul2 sx2 (rz2 (rt, rt)))) hw.
  Proof.
    assert (H : rt * rt * (1 + 1) = 1) by (transitivity (rt * rt + rt * rt); [ring|apply rt2']).
    assert (I := i2').
    intros [] []; unfold mul2, rz2, sx2, hw, m2; cbn [fst snd].
    - transitivity (rt * rt * (chalf * ((1 + ci) * ((1 + ci) * (1 + ci))))); [ring|].
      transitivity (rt * rt * (chalf * (1 + (1 + 1 + 1) * ci + (1 + 1 + 1) * (ci * ci) + ci * ci * ci))); [ring|]. rewrite I.
      transitivity (rt * rt * (1 + 1) * (- (chalf * (1 - ci)))); [ring|]. rewrite H. ring.
    - transitivity (rt * rt * (chalf * ((1 - ci) * (1 - ci * ci)))); [ring|]. rewrite I.
      transitivity (rt * rt * (1 + 1) * (chalf * (1 - ci))); [ring|]. rewrite H. ring.
    - transitivity (rt * rt * (chalf * ((1 - ci) * (1 - ci * ci)))); [ring|]. rewrite I.
      transitivity (rt * rt * (1 + 1) * (chalf * (1 - ci))); [ring|]. rewrite H. ring.
    - transitivity (rt * rt * (chalf * ((1 - ci) * (1 - ci * ci)))); [ring|]. rewrite I.
      transitivity (rt * rt * (1 + 1) * (chalf * (1 - ci))); [ring|]. rewrite H. ring.
  Qed.
  Lemma h_mat N i : (i < N)%nat -> meq N (cmat rt N (written rt (SH i))) (at1 N i hw).
  Proof.
    intro Hi. cbn [written cmat gmat].
    eapply meq_trans; [apply mmul_meq; [apply mmul_meq; [apply mmul_one_l|apply meq_refl]|apply meq_refl]|].
    eapply meq_trans; [apply mmul_meq; [apply at1_mul; exact Hi|apply meq_refl]|].
    eapply meq_trans; [apply at1_mul; exact Hi|]. apply at1_eq2. intros a b. rewrite <- hw_eq. unfold mul2. ring.
  Qed.
  Lemma h_carries N i s t : (i < N)%nat -> length s = N -> length t = N -> (forall j, j <> i -> nth j s PI = nth j t PI) ->
    match nth i s PI, nth i t PI with PI, PI | PX, PZ | PZ, PX => True | _, _ => False end ->
    carries N (cmat rt N (written rt (SH i))) s t.
  Proof.
    intros Hi Hs Ht Ho Hl. apply carries_meq with (at1 N i hw); [apply meq_sym, h_mat; exact Hi|].
    apply at1_carries; try assumption.
    destruct (nth i s PI), (nth i t PI); try destruct Hl; intros [] []; unfold mul2, hw, m2; cbn [fst snd pauli1]; ring.
  Qed.
  Lemma cx_gate_carries N a b s t : (a < N)%nat -> (b < N)%nat -> a <> b -> length s = N -> length t = N ->
    (forall j, j <> a -> j <> b -> nth j s PI = nth j t PI) ->
    cx_letters (nth a s PI) (nth b s PI) (nth a t PI) (nth b t PI) -> carries N (cmat rt N (written rt (SCx a b))) s t.
  Proof.
    intros. cbn [written cmat]. apply carries_meq with (gmat rt N (Gcx a b)); [apply meq_sym, mmul_one_l|]. now apply cx_carries.
  Qed.

  (** Circuits. *)
  Lemma circuit_app a b : circuit rt (a ++ b) = circuit rt a ++ circuit rt b.
  Proof. apply flat_map_app. Qed.
  Lemma carries_snoc N gs g s t u : carries N (cmat rt N (circuit rt gs)) s t -> carries N (cmat rt N (written rt g)) t u ->
    carries N (cmat rt N (circuit rt (gs ++ [g]))) s u.
  Proof.
    intros H1 H2. rewrite circuit_app. cbn [circuit flat_map app]. rewrite app_nil_r.
    apply carries_meq with (mmul N (cmat rt N (written rt g)) (cmat rt N (circuit rt gs))); [apply meq_sym, cmat_app|]. now apply carries_comp with t.
  Qed.
  Definition sgate_ok (N : nat) (g : sgate) : Prop :=
    match g with SSi i | SH i => (i < N)%nat | SCx a b => (a < N)%nat /\ (b < N)%nat /\ a <> b end.
  Lemma circuit_valid N gs : (forall g, In g gs -> sgate_ok N g) -> forall g, In g (circuit rt gs) -> valid N g.
  Proof.
    intros H g Hg. apply in_flat_map in Hg. destruct Hg as [x [Hx Hg]]. specialize (H x Hx).
    assert (R : real_angle (rt, rt) /\ real_angle (rt, - rt)).
    { unfold real_angle. cbn [fst snd]. rewrite cconj_opp, !rt_real. repeat split; try reflexivity; [exact rt2'|]. transitivity (rt * rt + rt * rt); [ring|exact rt2']. }
    destruct x; cbn in Hg, H; repeat match goal with H : _ \/ _ |- _ => destruct H as [<-|H] | H : False |- _ => destruct H end; split; cbn; auto; apply R.
  Qed.
  Lemma carried_average N gs s t (psi : bits -> K) : (forall g, In g gs -> sgate_ok N g) -> carries N (cmat rt N (circuit rt gs)) s t ->
    expect N (pmat s) psi = expect N (pmat t) (mvec N (cmat rt N (circuit rt gs)) psi).
  Proof.
    intros HO HC. set (U := cmat rt N (circuit rt gs)) in *.
    assert (HU : unitary N U) by (apply circuit_unitary; [exact rt_sq|exact rt_real|]; now apply circuit_valid).
    destruct HU as [HU _].
    transitivity (expect N (mmul N (madj U) (mmul N (pmat t) U)) psi).
    - apply expect_meq. apply meq_sym. eapply meq_trans; [apply mmul_meq; [apply meq_refl|apply meq_sym, HC]|].
      eapply meq_trans; [apply mmul_assoc|]. eapply meq_trans; [apply mmul_meq; [exact HU|apply meq_refl]|]. apply mmul_one_l.
    - rewrite expect_adj. unfold expect. apply sumbits_ext. intros b Hb. now rewrite mvec_mmul.
  Qed.
End Carry.
Arguments carries {_}.
