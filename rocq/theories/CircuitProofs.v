(** Proofs about circuits. *)
From Coq Require Import Bool List Arith ZArith Lia Ring.
From Verif Require Import Coeff MatSpec MatLemmas KronLemmas FockSpec EncProofs ParityProofs BKProofs CircuitSpec CircuitModel.
Import ListNotations.

Section Circuits.
  Variable K : CoefRing.
  Add Ring KRing : (c_ring K).
  Local Open Scope coef_scope.
  Variable rt : K.
  Hypothesis rt_sq : rt * rt = chalf.
  Notation I2 := (@pauli1 K PI).

  (** * Composition *)
  Lemma cmat_app N l m : meq N (cmat rt N (l ++ m)) (mmul N (cmat rt N m) (cmat rt N l)).
  Proof.
    induction l as [|g l IH]; cbn [app cmat].
    - apply meq_sym, mmul_one_r.
    - eapply meq_trans; [apply mmul_meq; [apply IH|apply meq_refl]|]. apply meq_sym, mmul_assoc.
  Qed.

  Lemma at1_kron N q m (pre : list (mat2 K)) x post : length pre = q -> N = (q + S (length post))%nat ->
    meq N (mmul N (at1 N q m) (kron (pre ++ x :: post))) (kron (pre ++ mul2 m x :: post)).
  Proof.
    intros Hq HN. unfold at1. eapply meq_trans.
    - apply kron_mul; rewrite app_length; cbn [length]; rewrite ?repeat_length; lia.
    - intros r c Hr Hc. apply kron_eqk. rewrite zip2_app by (rewrite repeat_length; lia). apply eqk_app.
      + apply zip2_I_l. exact Hq.
      + cbn [zip2]. constructor; [intros a b; reflexivity|]. apply zip2_I_l. lia.
  Qed.

  (** Product of the matrices of a list of gates on one qubit. *)
  Definition m2prod (l : list (mat2 K)) : mat2 K := fold_left (fun acc m => mul2 m acc) l I2.

  Lemma mul2_eq2 (A A' B B' : mat2 K) : eq2 A A' -> eq2 B B' -> eq2 (mul2 A B) (mul2 A' B').
  Proof. intros H1 H2 a b. unfold mul2. rewrite !H1, !H2. reflexivity. Qed.

  (** A string of per-qubit gate lists. *)
  Section PerQubit.
    Variable emit : nat -> pauli -> list (gate K).
    Variable m : pauli -> mat2 K.
    Fixpoint emits (n0 : nat) (s : list pauli) : list (gate K) :=
      match s with [] => [] | p :: s' => emit n0 p ++ emits (S n0) s' end.
    Hypothesis emit_ok : forall N q p pre x post, length pre = q -> N = (q + S (length post))%nat ->
      meq N (mmul N (cmat rt N (emit q p)) (kron (pre ++ x :: post))) (kron (pre ++ mul2 (m p) x :: post)).

    Lemma emits_from s : forall (pre : list (mat2 K)) N, N = (length pre + length s)%nat ->
      meq N (mmul N (cmat rt N (emits (length pre) s)) (kron (pre ++ repeat I2 (length s)))) (kron (pre ++ map m s)).
    Proof.
      induction s as [|p s IH]; intros pre N HN; cbn [emits map repeat length].
      - cbn. apply mmul_one_l.
      - cbn [length] in HN.
        eapply meq_trans. { apply mmul_meq; [apply cmat_app|apply meq_refl]. }
        eapply meq_trans. { apply meq_sym, mmul_assoc. }
        eapply meq_trans.
        { apply mmul_meq; [apply meq_refl|]. apply (emit_ok N (length pre) p pre I2); [reflexivity|]. rewrite repeat_length. lia. }
        pose proof (IH (pre ++ [mul2 (m p) I2]) N ltac:(rewrite app_length; cbn [length]; lia)) as H.
        rewrite app_length, Nat.add_1_r in H. rewrite <- !app_assoc in H. cbn [app] in H.
        eapply meq_trans; [exact H|].
        intros r c Hr Hc. apply kron_eqk. apply eqk_app; [apply eqk_refl|].
        constructor; [apply mul2_I_r|apply eqk_refl].
    Qed.
    Lemma emits_kron s : meq (length s) (cmat rt (length s) (emits 0 s)) (kron (map m s)).
    Proof.
      eapply meq_trans; [|apply (emits_from s []); reflexivity]. cbn [length app].
      eapply meq_trans; [apply meq_sym, mmul_one_r|]. apply mmul_meq; [apply meq_refl|apply meq_sym, kron_one].
    Qed.
  End PerQubit.

  (** One to three single-qubit gates. *)
  Definition single_gate (g : nat -> gate K) (m : mat2 K) : Prop := forall N q, gmat rt N (g q) = at1 N q m.
  Lemma emit0 N pre (x : mat2 K) post m : N = (length pre + S (length post))%nat -> eq2 m I2 ->
    meq N (mmul N (cmat rt N []) (kron (pre ++ x :: post))) (kron (pre ++ mul2 m x :: post)).
  Proof.
    intros HN HM. cbn [cmat]. eapply meq_trans; [apply mmul_one_l|]. intros r c _ _. apply kron_eqk.
    apply eqk_app; [apply eqk_refl|]. constructor; [|apply eqk_refl].
    intros a b. rewrite (mul2_eq2 m I2 x x) by (auto; intros ? ?; reflexivity). symmetry. apply mul2_I_l.
  Qed.
  Lemma emit_cons N q g m0 l (m' m : mat2 K) pre x post : length pre = q -> N = (q + S (length post))%nat ->
    gmat rt N g = at1 N q m0 ->
    (forall x, meq N (mmul N (cmat rt N l) (kron (pre ++ x :: post))) (kron (pre ++ mul2 m' x :: post))) ->
    eq2 m (mul2 m' m0) ->
    meq N (mmul N (cmat rt N (g :: l)) (kron (pre ++ x :: post))) (kron (pre ++ mul2 m x :: post)).
  Proof.
    intros Hq HN Hg HL HM. cbn [cmat]. rewrite Hg.
    eapply meq_trans; [apply meq_sym, mmul_assoc|].
    eapply meq_trans; [apply mmul_meq; [apply meq_refl|apply (at1_kron N q m0 pre x post Hq HN)]|].
    eapply meq_trans; [apply HL|]. intros r c _ _. apply kron_eqk. apply eqk_app; [apply eqk_refl|].
    constructor; [|apply eqk_refl]. intros a b. rewrite (mul2_eq2 m (mul2 m' m0) x x HM) by (intros ? ?; reflexivity).
    unfold mul2. ring.
  Qed.

  Ltac emit_tac := first [apply emit0; [|intros [|] [|]; cbn; ring] | eapply emit_cons; [| |reflexivity|intro|]].

  Lemma Ci : (ci * ci : K) = - (1). Proof. apply ci_sq. Qed.
  Lemma half2 : (chalf + chalf : K) = 1. Proof. apply chalf_dbl. Qed.
  Lemma rt2 : rt * rt + rt * rt = 1. Proof. rewrite rt_sq. apply half2. Qed.

  Definition basis2 (p : pauli) : mat2 K :=
    match p with PX => h2 rt | PY => mul2 (h2 rt) sdg2 | _ => I2 end.
  Definition unbasis2 (p : pauli) : mat2 K :=
    match p with PX => h2 rt | PY => mul2 s2 (h2 rt) | _ => I2 end.

  Lemma eq2_refl (A : mat2 K) : eq2 A A. Proof. intros a b. reflexivity. Qed.

  Lemma pauli_op_fwd N q p pre x post : length pre = q -> N = (q + S (length post))%nat ->
    meq N (mmul N (cmat rt N (pauli_op q p false)) (kron (pre ++ x :: post))) (kron (pre ++ mul2 (basis2 p) x :: post)).
  Proof.
    intros Hq HN. destruct p; cbn [pauli_op basis2].
    - apply emit0; [lia|apply eq2_refl].
    - eapply emit_cons; [exact Hq|exact HN|reflexivity|intro; apply emit0; [lia|apply eq2_refl]|].
      intros a b. symmetry. apply mul2_I_l.
    - eapply emit_cons; [exact Hq|exact HN|reflexivity| |apply eq2_refl].
      intro. eapply emit_cons; [exact Hq|exact HN|reflexivity|intro; apply emit0; [lia|apply eq2_refl]|].
      intros a b. symmetry. apply mul2_I_l.
    - apply emit0; [lia|apply eq2_refl].
  Qed.
  Lemma pauli_op_inv N q p pre x post : length pre = q -> N = (q + S (length post))%nat ->
    meq N (mmul N (cmat rt N (pauli_op q p true)) (kron (pre ++ x :: post))) (kron (pre ++ mul2 (unbasis2 p) x :: post)).
  Proof.
    intros Hq HN. destruct p; cbn [pauli_op unbasis2].
    - apply emit0; [lia|apply eq2_refl].
    - eapply emit_cons; [exact Hq|exact HN|reflexivity|intro; apply emit0; [lia|apply eq2_refl]|].
      intros a b. symmetry. apply mul2_I_l.
    - eapply emit_cons; [exact Hq|exact HN|reflexivity| |apply eq2_refl].
      intro. eapply emit_cons; [exact Hq|exact HN|reflexivity|intro; apply emit0; [lia|apply eq2_refl]|].
      intros a b. symmetry. apply mul2_I_l.
    - apply emit0; [lia|apply eq2_refl].
  Qed.

  Lemma active_emits inv s : forall n0,
    flat_map (fun e => @pauli_op K (fst e) (snd e) inv) (active n0 s) = emits (fun q p => pauli_op q p inv) n0 s.
  Proof.
    induction s as [|p s IH]; intro n0; [reflexivity|]. cbn [active emits].
    destruct p; cbn [flat_map fst snd]; rewrite IH; reflexivity.
  Qed.
  Lemma basis_emits s n0 : @basis_gates K n0 s = emits (fun q p => pauli_op q p false) n0 s.
  Proof. revert n0. induction s as [|p s IH]; intro n0; [reflexivity|]. cbn [basis_gates emits]. rewrite IH. reflexivity. Qed.

  Ltac rt_one := transitivity (rt * rt + rt * rt); [ring [Ci]|exact rt2].
  Lemma unbasis_basis p : eq2 (mul2 (unbasis2 p) (basis2 p)) I2.
  Proof.
    pose proof Ci as Ci.
    destruct p; intros [|] [|]; unfold unbasis2, basis2, mul2, h2, s2, sdg2, m2; cbn [pauli1]; try (ring [Ci]); rt_one.
  Qed.
  Lemma unbasis_z_basis p : eq2 (mul2 (unbasis2 p) (mul2 (pauli1 (zletter p)) (basis2 p))) (pauli1 p).
  Proof.
    pose proof Ci as Ci.
    destruct p; intros [|] [|]; unfold unbasis2, basis2, mul2, h2, s2, sdg2, m2; cbn [pauli1 zletter]; try (ring [Ci]);
      try rt_one.
    - transitivity (ci * (rt * rt + rt * rt)); [ring [Ci]|]. rewrite rt2. ring.
    - transitivity (- ci * (rt * rt + rt * rt)); [ring [Ci]|]. rewrite rt2. ring.
  Qed.

  (** * Permutation and diagonal matrices *)
  Definition pm (f : bits -> bits) : mat K := fun r c => if bits_eqb r (f c) then 1 else 0.
  Definition dg (f : bits -> bool) : mat K := fun r c => if bits_eqb r c then sgn (f c) else 0.
  Lemma mmul_pm N (A : mat K) f : (forall c, length c = N -> length (f c) = N) ->
    meq N (mmul N A (pm f)) (fun r c => A r (f c)).
  Proof.
    intros Hf r c Hr Hc. unfold mmul, pm.
    rewrite (sumbits_ext K N _ (fun k => if bits_eqb k (f c) then A r k else 0)).
    - apply (sumbits_pick K N (f c) (fun k => A r k)). apply Hf. exact Hc.
    - intros b Hb. destruct (bits_eqb b (f c)); ring.
  Qed.
  Lemma mmul_dg N (A : mat K) f : meq N (mmul N A (dg f)) (fun r c => A r c * sgn (f c)).
  Proof.
    intros r c Hr Hc. unfold mmul, dg.
    rewrite (sumbits_ext K N _ (fun k => if bits_eqb k c then A r k * sgn (f c) else 0)).
    - apply (sumbits_pick K N c (fun k => A r k * sgn (f c))). exact Hc.
    - intros b Hb. destruct (bits_eqb b c); ring.
  Qed.

  Lemma cx_length a b n : length (cx_bits a b n) = length n.
  Proof.
    unfold cx_bits. rewrite app_length. rewrite <- (firstn_skipn b n) at 3. rewrite app_length. f_equal.
    destruct (skipn b n); reflexivity.
  Qed.
  Lemma cx_upd a b n : b < length n -> cx_bits a b n = upd b (xorb (at_ n b) (at_ n a)) n.
  Proof.
    unfold cx_bits, at_. generalize (nth a n false) as x. revert n. induction b as [|b IH]; intros [|y n] x H; cbn in H; try lia.
    - reflexivity.
    - cbn [firstn skipn app nth upd]. rewrite IH by lia. reflexivity.
  Qed.
  Lemma cx_at a b n j : b < length n -> at_ (cx_bits a b n) j = if Nat.eqb j b then xorb (at_ n b) (at_ n a) else at_ n j.
  Proof. intro H. rewrite cx_upd by exact H. apply at_upd. exact H. Qed.
  Lemma cx_invol a b n : a <> b -> b < length n -> cx_bits a b (cx_bits a b n) = n.
  Proof.
    intros H Hb. apply at_ext; [rewrite !cx_length; reflexivity|]. intros j Hj.
    rewrite cx_at by (rewrite cx_length; exact Hb). rewrite !cx_at by exact Hb. rewrite Nat.eqb_refl.
    destruct (Nat.eqb_spec a b); [contradiction|]. destruct (Nat.eqb_spec j b) as [->|D]; [|reflexivity].
    destruct (at_ n b), (at_ n a); reflexivity.
  Qed.
  Lemma cx_sq N a b : a <> b -> b < N -> meq N (mmul N (gmat rt N (Gcx a b)) (gmat rt N (Gcx a b))) mone.
  Proof.
    intros H Hb. cbn [gmat]. fold (pm (cx_bits a b)). eapply meq_trans; [apply mmul_pm; intros c Hc; rewrite cx_length; exact Hc|].
    intros r c Hr Hc. unfold pm, mone. rewrite cx_invol by (auto; lia). reflexivity.
  Qed.

  (** * The CNOT ladder *)
  Fixpoint lam (ind : list nat) (n : bits) : bits :=
    match ind with
    | a :: (b :: _) as t => lam t (cx_bits a b n)
    | _ => n
    end.
  Lemma lam_length ind : forall n, length (lam ind n) = length n.
  Proof. induction ind as [|a [|b t] IH]; intro n; try reflexivity. cbn [lam]. cbn [lam] in IH. rewrite IH. apply cx_length. Qed.
  Lemma ladder_mat N ind : meq N (cmat rt N (ladder_cx ind)) (pm (lam ind)).
  Proof.
    induction ind as [|a [|b t] IH]; try (intros r c _ _; reflexivity).
    change (ladder_cx (a :: b :: t)) with (@Gcx K a b :: ladder_cx (b :: t)). cbn [cmat].
    eapply meq_trans; [apply mmul_meq; [apply IH|apply meq_refl]|]. cbn [gmat]. fold (pm (cx_bits a b)).
    eapply meq_trans; [apply mmul_pm; intros c Hc; rewrite cx_length; exact Hc|]. intros r c _ _. reflexivity.
  Qed.
  Lemma lam_last ind d : forall n, NoDup ind -> ind <> [] -> (forall i, In i ind -> i < length n) ->
    at_ (lam ind n) (last ind d) = xlist (at_ n) ind.
  Proof.
    induction ind as [|a [|b t] IH]; intros n ND NE B; [contradiction|cbn [lam last xlist fold_right]; symmetry; apply xorb_false_r|].
    change (lam (a :: b :: t) n) with (lam (b :: t) (cx_bits a b n)). change (last (a :: b :: t) d) with (last (b :: t) d).
    inversion ND as [|? ? Na ND']; subst. inversion ND' as [|? ? Nb ND'']; subst.
    assert (Hb : b < length n) by (apply B; right; left; reflexivity).
    rewrite IH; [|exact ND'|discriminate|intros i Hi; rewrite cx_length; apply B; right; exact Hi].
    change (xlist (at_ (cx_bits a b n)) (b :: t)) with (xorb (at_ (cx_bits a b n) b) (xlist (at_ (cx_bits a b n)) t)).
    change (xlist (at_ n) (a :: b :: t)) with (xorb (at_ n a) (xorb (at_ n b) (xlist (at_ n) t))).
    rewrite cx_at, Nat.eqb_refl by exact Hb. rewrite (xlist_ext (at_ (cx_bits a b n)) (at_ n) t).
    - destruct (at_ n a), (at_ n b), (xlist (at_ n) t); reflexivity.
    - intros i Hi. rewrite cx_at by exact Hb. destruct (Nat.eqb_spec i b); [subst; contradiction|reflexivity].
  Qed.
  Lemma rev_ladder N (l : list (gate K)) : (forall g, In g l -> exists a b, g = Gcx a b /\ a <> b /\ b < N) ->
    meq N (mmul N (cmat rt N (rev l)) (cmat rt N l)) mone.
  Proof.
    induction l as [|g l IH]; intro H; [apply mmul_one_l|]. cbn [rev cmat].
    destruct (H g (or_introl eq_refl)) as [a [b [-> [Hab Hb]]]].
    assert (G : meq N (cmat rt N [Gcx a b]) (gmat rt N (Gcx a b))) by (cbn [cmat]; apply mmul_one_l).
    eapply meq_trans; [apply mmul_meq; [apply cmat_app|apply meq_refl]|].
    eapply meq_trans; [apply mmul_meq; [apply mmul_meq; [exact G|apply meq_refl]|apply meq_refl]|].
    eapply meq_trans; [apply meq_sym, mmul_assoc|].
    eapply meq_trans; [apply mmul_meq; [apply meq_refl|apply mmul_assoc]|].
    eapply meq_trans; [apply mmul_meq; [apply meq_refl|apply mmul_meq; [apply IH; intros g Hg; apply H; right; exact Hg|apply meq_refl]]|].
    eapply meq_trans; [apply mmul_meq; [apply meq_refl|apply mmul_one_l]|]. apply cx_sq; assumption.
  Qed.
  Lemma ladder_gates N ind : NoDup ind -> (forall i, In i ind -> i < N) ->
    forall g : gate K, In g (ladder_cx ind) -> exists a b, g = Gcx a b /\ a <> b /\ b < N /\ a < N.
  Proof.
    induction ind as [|a [|b t] IH]; intros ND B g H; [destruct H|destruct H|].
    change (ladder_cx (a :: b :: t)) with (@Gcx K a b :: ladder_cx (b :: t)) in H. inversion ND as [|? ? Na ND']; subst. destruct H as [<-|H].
    - exists a, b. split; [reflexivity|]. split; [intros ->; apply Na; left; reflexivity|].
      split; apply B; [right; left|left]; reflexivity.
    - apply (IH ND'); [intros i Hi; apply B; right; exact Hi|exact H].
  Qed.

  (** * Z strings *)
  Lemma sgn_xorb a b : @sgn K (xorb a b) = sgn a * sgn b.
  Proof. destruct a, b; cbn; ring. Qed.
  Lemma zstring_mat s : meq (length s) (pmat (map zletter s)) (dg (outcome_parity s)).
  Proof.
    induction s as [|p s IH]; intros [|a r] [|b c] Hr Hc; try discriminate; [unfold dg; cbn; reflexivity|].
    cbn in Hr, Hc. cbn [map pmat]. rewrite IH by lia. unfold dg. cbn [bits_eqb outcome_parity]. rewrite sgn_xorb.
    destruct p, a, b; cbn; destruct (bits_eqb r c); ring.
  Qed.
  Lemma active_bounds s : forall n0 e, In e (active n0 s) -> n0 <= fst e < n0 + length s.
  Proof.
    induction s as [|p s IH]; intros n0 e H; [destruct H|]. cbn [active] in H. cbn [length].
    destruct p; try (destruct H as [<-|H]; [cbn; lia|]); apply IH in H; lia.
  Qed.
  Lemma active_NoDup s : forall n0, NoDup (map fst (active n0 s)).
  Proof.
    induction s as [|p s IH]; intro n0; [constructor|]. cbn [active].
    destruct p; [apply IH| | |]; cbn [map fst]; (constructor; [|apply IH]);
      intro C; apply in_map_iff in C; destruct C as [e [E He]]; apply active_bounds in He; lia.
  Qed.
  Lemma active_zpar s : forall pre c, length c = length s ->
    xlist (at_ (pre ++ c)) (map fst (active (length pre) s)) = outcome_parity s c.
  Proof.
    induction s as [|p s IH]; intros pre [|b c] H; try discriminate; [reflexivity|].
    cbn [outcome_parity]. specialize (IH (pre ++ [b]) c ltac:(cbn in H; lia)).
    rewrite app_length, Nat.add_1_r, <- app_assoc in IH. cbn [app] in IH.
    assert (A : at_ (pre ++ b :: c) (length pre) = b) by (unfold at_; rewrite app_nth2, Nat.sub_diag by lia; reflexivity).
    cbn [active]. destruct p; cbn [map fst]; try (unfold xlist; cbn [fold_right]; fold (xlist (at_ (pre ++ b :: c)) (map fst (active (S (length pre)) s))); rewrite A);
      rewrite IH; cbn [pauli_eqb negb andb]; try reflexivity. destruct (outcome_parity s c); reflexivity.
  Qed.

  (** * Rotations *)
  Lemma kron_at1_diag N q (t : angle K) : q < N ->
    meq N (at1 N q (rz2 t)) (madd (mscal (fst t) mone) (mscal (- (ci * snd t)) (dg (fun c => at_ c q)))).
  Proof.
    intro Hq. unfold at1. remember (N - q - 1)%nat as k. assert (HN : N = (q + S k)%nat) by lia. clear Heqk Hq. subst N.
    induction q as [|q IH]; intros [|a r] [|b c] Hr Hc; try discriminate; cbn in Hr, Hc.
    - cbn [repeat app kron]. rewrite (kron_one K k) by lia. unfold madd, mscal, dg, mone, at_. cbn [bits_eqb nth].
      destruct a, b; cbn [rz2 m2 sgn Bool.eqb andb]; destruct (bits_eqb r c); ring.
    - cbn [repeat app kron Nat.add]. rewrite IH by lia. unfold madd, mscal, dg, mone, at_. cbn [bits_eqb nth].
      destruct a, b; cbn [pauli1 Bool.eqb andb]; destruct (bits_eqb r c); ring.
  Qed.

  Lemma madd_meq n (A A' B B' : mat K) : meq n A A' -> meq n B B' -> meq n (madd A B) (madd A' B').
  Proof. intros H1 H2 r c Hr Hc. unfold madd. rewrite H1, H2 by assumption. reflexivity. Qed.
  Lemma mscal_meq n x (A A' : mat K) : meq n A A' -> meq n (mscal x A) (mscal x A').
  Proof. intros H r c Hr Hc. unfold mscal. rewrite H by assumption. reflexivity. Qed.

  Lemma zip2_map {A} (f g : A -> mat2 K) l : zip2 K (map f l) (map g l) = map (fun x => mul2 (f x) (g x)) l.
  Proof. induction l as [|x l IH]; [reflexivity|]. cbn. rewrite IH. reflexivity. Qed.
  Lemma eqk_map {A} (f g : A -> mat2 K) l : (forall x, eq2 (f x) (g x)) -> eqk K (map f l) (map g l).
  Proof. intro H. induction l as [|x l IH]; constructor; auto. Qed.
  Lemma kron_map_mul {A} (f g : A -> mat2 K) l :
    meq (length l) (mmul (length l) (kron (map f l)) (kron (map g l))) (kron (map (fun x => mul2 (f x) (g x)) l)).
  Proof. rewrite <- zip2_map. apply kron_mul; apply map_length. Qed.
  Lemma kron_map_eq {A} (f g : A -> mat2 K) l : (forall x, eq2 (f x) (g x)) -> meq (length l) (kron (map f l)) (kron (map g l)).
  Proof. intros H r c _ _. apply kron_eqk, eqk_map, H. Qed.

  Definition unb (s : list pauli) : mat K := kron (map unbasis2 s).
  Definition bas (s : list pauli) : mat K := kron (map basis2 s).

  Lemma unb_bas s : meq (length s) (mmul (length s) (unb s) (bas s)) mone.
  Proof.
    eapply meq_trans; [apply kron_map_mul|]. eapply meq_trans; [apply kron_map_eq; intro x; apply unbasis_basis|].
    eapply meq_trans; [|apply kron_one]. intros r c _ _. apply kron_eqk. clear. induction s as [|p s IH]; constructor; [apply eq2_refl|exact IH].
  Qed.
  Lemma unb_z_bas s : meq (length s) (mmul (length s) (unb s) (mmul (length s) (pmat (map zletter s)) (bas s))) (pmat s).
  Proof.
    assert (P : forall t : list pauli, meq (length t) (@pmat K t) (kron (map pauli1 t))) by (intros t r c _ _; apply pmat_kron).
    eapply meq_trans.
    { apply mmul_meq; [apply meq_refl|]. eapply meq_trans.
      - apply mmul_meq; [|apply meq_refl]. rewrite <- (map_length zletter s) at 1. apply P.
      - rewrite map_map. apply kron_map_mul. }
    eapply meq_trans; [apply kron_map_mul|]. eapply meq_trans; [apply kron_map_eq; intro x; apply unbasis_z_basis|].
    apply meq_sym, P.
  Qed.

  Lemma last_In {A} (l : list A) d : l <> [] -> In (last l d) l.
  Proof. induction l as [|a [|b t] IH]; intro H; [contradiction|left; reflexivity|]. right. apply IH. discriminate. Qed.
  Lemma core_rotation N s (t : angle K) q0 : length s = N -> active 0 s <> [] ->
    let ind := map fst (active 0 s) in
    meq N (mmul N (cmat rt N (rev (ladder_cx ind))) (mmul N (gmat rt N (Grz t (last ind q0))) (cmat rt N (ladder_cx ind))))
          (madd (mscal (fst t) mone) (mscal (- (ci * snd t)) (pmat (map zletter s)))).
  Proof.
    intros Hs NE ind.
    assert (ND : NoDup ind) by apply active_NoDup.
    assert (NI : ind <> []) by (unfold ind; destruct (active 0 s); [contradiction|discriminate]).
    assert (B : forall i, In i ind -> i < N).
    { intros i Hi. apply in_map_iff in Hi. destruct Hi as [e [<- He]]. apply active_bounds in He. lia. }
    assert (Hl : last ind q0 < N).
    { apply B, last_In, NI. }
    assert (RV : meq N (mmul N (cmat rt N (rev (ladder_cx ind))) (cmat rt N (ladder_cx ind))) mone).
    { apply rev_ladder. intros g Hg. destruct (ladder_gates N ind ND B g Hg) as [a [b [E [X [Y _]]]]]. exists a, b. auto. }
    set (L := cmat rt N (ladder_cx ind)) in *. set (L' := cmat rt N (rev (ladder_cx ind))) in *.
    assert (ZL : meq N (mmul N (dg (fun c => at_ c (last ind q0))) L) (mmul N L (pmat (map zletter s)))).
    { eapply meq_trans; [apply mmul_meq; [apply meq_refl|apply ladder_mat]|].
      eapply meq_trans; [apply mmul_pm; intros c Hc; rewrite lam_length; exact Hc|].
      apply meq_sym. eapply meq_trans.
      { apply mmul_meq; [apply ladder_mat|]. rewrite <- Hs. apply zstring_mat. }
      eapply meq_trans; [apply mmul_dg|]. intros r c Hr Hc. unfold pm, dg.
      rewrite lam_last by (auto; rewrite Hc; exact B).
      replace (outcome_parity s c) with (xlist (at_ c) ind) by (apply (active_zpar s []); lia).
      destruct (bits_eqb r (lam ind c)); ring. }
    cbn [gmat].
    eapply meq_trans; [apply mmul_meq; [apply meq_refl|apply mmul_meq; [apply kron_at1_diag; exact Hl|apply meq_refl]]|].
    eapply meq_trans; [apply mmul_meq; [apply meq_refl|apply mmul_add_l]|].
    eapply meq_trans; [apply mmul_add_r|]. apply madd_meq.
    - eapply meq_trans; [apply mmul_meq; [apply meq_refl|apply mmul_scal_l]|].
      eapply meq_trans; [apply mmul_scal_r|]. apply mscal_meq.
      eapply meq_trans; [apply mmul_meq; [apply meq_refl|apply mmul_one_l]|]. exact RV.
    - eapply meq_trans; [apply mmul_meq; [apply meq_refl|apply mmul_scal_l]|].
      eapply meq_trans; [apply mmul_scal_r|]. apply mscal_meq.
      eapply meq_trans; [apply mmul_meq; [apply meq_refl|exact ZL]|].
      eapply meq_trans; [apply mmul_assoc|].
      eapply meq_trans; [apply mmul_meq; [exact RV|apply meq_refl]|]. apply mmul_one_l.
  Qed.

  Lemma gadget_gen s (t : angle K) q0 : active 0 s <> [] ->
    let N := length s in let a := active 0 s in let ind := map fst a in
    meq N (cmat rt N (flat_map (fun e => pauli_op (fst e) (snd e) false) a ++ ladder_cx ind ++ [Grz t (last ind q0)]
            ++ rev (ladder_cx ind) ++ flat_map (fun e => pauli_op (fst e) (snd e) true) a))
          (madd (mscal (fst t) mone) (mscal (- (ci * snd t)) (pmat s))).
  Proof.
    intros NE N a ind. unfold a. rewrite !active_emits. fold a.
    assert (E1 : meq N (cmat rt N (emits (fun q p => pauli_op q p false) 0 s)) (bas s)) by (apply emits_kron, pauli_op_fwd).
    assert (E2 : meq N (cmat rt N (emits (fun q p => pauli_op q p true) 0 s)) (unb s)) by (apply emits_kron, pauli_op_inv).
    eapply meq_trans; [apply cmat_app|].
    eapply meq_trans; [apply mmul_meq; [|exact E1]|].
    { eapply meq_trans; [apply cmat_app|]. apply mmul_meq; [|apply meq_refl].
      eapply meq_trans; [apply cmat_app|]. apply mmul_meq; [|cbn [cmat]; apply mmul_one_l].
      eapply meq_trans; [apply cmat_app|]. apply mmul_meq; [exact E2|apply meq_refl]. }
    eapply meq_trans.
    { apply mmul_meq; [|apply meq_refl]. eapply meq_trans; [apply mmul_meq; [apply meq_sym, mmul_assoc|apply meq_refl]|].
      eapply meq_trans; [apply meq_sym, mmul_assoc|]. apply mmul_meq; [apply meq_refl|].
      eapply meq_trans; [apply meq_sym, mmul_assoc|]. apply (core_rotation N s t q0 eq_refl NE). }
    eapply meq_trans; [apply mmul_meq; [apply mmul_add_r|apply meq_refl]|].
    eapply meq_trans; [apply mmul_add_l|]. apply madd_meq.
    - eapply meq_trans; [apply mmul_meq; [apply mmul_scal_r|apply meq_refl]|].
      eapply meq_trans; [apply mmul_scal_l|]. apply mscal_meq.
      eapply meq_trans; [apply mmul_meq; [apply mmul_one_r|apply meq_refl]|]. apply unb_bas.
    - eapply meq_trans; [apply mmul_meq; [apply mmul_scal_r|apply meq_refl]|].
      eapply meq_trans; [apply mmul_scal_l|]. apply mscal_meq.
      eapply meq_trans; [apply meq_sym, mmul_assoc|]. apply unb_z_bas.
  Qed.

  Lemma active_nil s n0 : (exists p, In p s /\ p <> PI) -> active n0 s <> [].
  Proof.
    revert n0. induction s as [|x s IH]; intros n0 [p [Hp Np]]; [destruct Hp|]. cbn [active].
    destruct x; try discriminate. apply IH. exists p. destruct Hp as [<-|Hp]; [contradiction|auto].
  Qed.

  Lemma gadget_exact s (v : angle K) : (exists p, In p s /\ p <> PI) ->
    meq (length s) (cmat rt (length s) (pauli_gadget v s))
      (madd (mscal (cos_of v) mone) (mscal (ci * sin_of v) (pmat s))).
  Proof.
    intro H. pose proof (active_nil s 0 H) as NE.
    assert (F : meq (length s) (madd (mscal (fst (scaled v)) mone) (mscal (- (ci * snd (scaled v))) (pmat s)))
                  (madd (mscal (cos_of v) mone) (mscal (ci * sin_of v) (pmat s)))).
    { intros r c _ _. unfold madd, mscal, scaled, cos_of, sin_of. cbn [fst snd]. ring. }
    destruct s as [|p [|p' s]]; [destruct H as [p [[] _]]| |].
    - eapply meq_trans; [|exact F]. destruct p; [exfalso; destruct H as [p [[<-|[]] N]]; apply N; reflexivity| | |];
        cbn [pauli_gadget cmat gmat length]; (eapply meq_trans; [apply mmul_one_l|]); intros [|a [|x1 r1]] [|b [|x2 r2]] Hr Hc; try discriminate;
        unfold at1, madd, mscal, mone; cbn [repeat app Nat.sub kron pmat bits_eqb]; destruct a, b;
        cbn [rx2 ry2 rz2 m2 pauli1 Bool.eqb andb]; try ring; pose proof Ci as Ci; ring [Ci].
    - eapply meq_trans; [|exact F]. unfold pauli_gadget. destruct (active 0 (p :: p' :: s)) as [|[q0 x] a] eqn:E; [contradiction|].
      rewrite <- E. apply gadget_gen. rewrite E. discriminate.
  Qed.
  Lemma gadget_identity s (v : angle K) : (forall p, In p s -> p = PI) -> pauli_gadget v s = [].
  Proof.
    intro H. assert (A : forall n0, active n0 s = []).
    { induction s as [|x s IH]; intro n0; [reflexivity|]. cbn [active]. rewrite (H x (or_introl eq_refl)).
      apply IH. intros p Hp. apply H. right. exact Hp. }
    destruct s as [|p [|p' s]]; [reflexivity| |].
    - rewrite (H p (or_introl eq_refl)). reflexivity.
    - unfold pauli_gadget. rewrite A. reflexivity.
  Qed.
  Lemma in_pauli_op q p inv (g : gate K) N : In g (pauli_op q p inv) -> q < N -> gate_ok N g /\ is_cx g = false.
  Proof.
    intros H Hq. destruct p, inv; cbn in H; repeat (destruct H as [<-|H]; [split; [exact Hq|reflexivity]|]); destruct H.
  Qed.
  Lemma gadget_ok s (v : angle K) : forall g, In g (pauli_gadget v s) -> gate_ok (length s) g.
  Proof.
    intros g H. destruct s as [|p [|p' s]].
    - destruct H.
    - destruct p; cbn in H; try (destruct H as [<-|[]]; cbn; lia). destruct H.
    - unfold pauli_gadget in H. destruct (active 0 (p :: p' :: s)) as [|[q0 x] a] eqn:E; [destruct H|]. rewrite <- E in H.
      set (t := p :: p' :: s) in *.
      assert (B : forall i, In i (map fst (active 0 t)) -> i < length t).
      { intros i Hi. apply in_map_iff in Hi. destruct Hi as [e [<- He]]. apply active_bounds in He. lia. }
      assert (FM : forall inv g, In g (flat_map (fun e => pauli_op (fst e) (snd e) inv) (active 0 t)) -> gate_ok (K := K) (length t) g).
      { intros inv g0 Hg. apply in_flat_map in Hg. destruct Hg as [e [He Hg]]. eapply in_pauli_op; [exact Hg|]. apply B. apply in_map. exact He. }
      assert (LG : forall g, In g (ladder_cx (map fst (active 0 t))) -> gate_ok (K := K) (length t) g).
      { intros g0 Hg. destruct (ladder_gates (length t) _ (active_NoDup t 0) B g0 Hg) as [a0 [b0 [-> [X [Y Z]]]]]. cbn. auto. }
      rewrite !in_app_iff in H. destruct H as [H|[H|[[<-|[]]|[H|H]]]].
      + eapply FM. exact H.
      + apply LG. exact H.
      + cbn [gate_ok]. apply B, last_In. rewrite E. discriminate.
      + apply LG. apply in_rev. exact H.
      + eapply FM. exact H.
  Qed.
End Circuits.
