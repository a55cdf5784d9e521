(** Singlet states: the 2-RDM is determined by its alpha-beta block. *)
From Coq Require Import Bool List Arith Lia Ring.
From Verif Require Import Coeff MatSpec MatLemmas FockSpec OpSpec CircuitSpec CircuitProofs2 FermiModel FermiProofs AdjProofs InvModel RdmModel RdmSpec RdmFock RdmProofs
  TaperSpec TaperProofs TaperProofs2 HamModel HamSpec HamProofs HamProofs2 HamProofs3 RdmObjModel RdmObjSpec RdmObjProofs2 RdmObjProofs3 RdmObjProofs4.
Import ListNotations.

Section Singlet.
  Variable K : CoefRing.
  Add Ring KRing : (c_ring K).
  Local Open Scope coef_scope.
  Notation tensor4 := (nat -> nat -> nat -> nat -> K).
  Notation fm := (@fock_mat K).
  Notation dl := (delta K).
  Notation gen := (list (K * (nat * nat))).

  Lemma mvec_zero R (A : mat K) (phi : bits -> K) r : (forall x, length x = R -> phi x = 0) -> mvec R A phi r = 0.
  Proof.
    intro H. unfold mvec. rewrite (sumbits_ext _ _ _ (fun _ => 0 * 0)); [rewrite sumbits_scal; ring|]. intros x Hx. rewrite (H x Hx). ring.
  Qed.
  Lemma expect_right R (A B : mat K) psi : (forall x, length x = R -> mvec R B psi x = 0) -> expect R (mmul R A B) psi = 0.
  Proof.
    intro H. unfold expect. rewrite (sumbits_ext _ _ _ (fun _ => 0 * 0)); [rewrite sumbits_scal; ring|]. intros x _. rewrite mvec_mmul, mvec_zero by exact H. ring.
  Qed.
  Lemma expect_left R (A B : mat K) psi : (forall x, length x = R -> mvec R (madj A) psi x = 0) -> expect R (mmul R A B) psi = 0.
  Proof.
    intro H. rewrite <- (cconj_inv K (expect R (mmul R A B) psi)), <- expect_adj. rewrite (expect_ext K R _ _ psi (madj_mul K R A B)), (expect_right R (madj B) (madj A) psi H). apply cconj_0.
  Qed.

  (** One-body operators and their commutators with words. *)
  Definition one_body_op (G : gen) : mat K := fun x y => over G (fun g => fst g * fm [(Cre, fst (snd g)); (Ann, snd (snd g))] x y).
  Section Ward.
    Variable R : nat.
    Variable psi : bits -> K.
    Variable G : gen.
    Notation F w := (expect R (fm w) psi).
    Hypothesis HG : forall g, In g G -> (snd (snd g) < R)%nat.
    Definition step (l : list (fop * nat)) (o : fop) (c : nat) (m : list (fop * nat)) : K :=
      match o with
      | Cre => over G (fun g => dl (snd (snd g)) c * (fst g * F (l ++ (Cre, fst (snd g)) :: m)))
      | _ => - over G (fun g => dl (fst (snd g)) c * (fst g * F (l ++ (Ann, snd (snd g)) :: m)))
      end.
    Fixpoint dsum (l W : list (fop * nat)) : K := match W with [] => 0 | (o, c) :: m => step l o c m + dsum (l ++ [(o, c)]) m end.
    Definition ladder_word (W : list (fop * nat)) : Prop := forall o c, In (o, c) W -> (o = Cre \/ o = Ann) /\ (c < R)%nat.

    Lemma pass_cre l a b c m : (b < R)%nat -> F (l ++ (Cre, a) :: (Ann, b) :: (Cre, c) :: m) = dl b c * F (l ++ (Cre, a) :: m) + F (l ++ (Cre, c) :: (Cre, a) :: (Ann, b) :: m).
    Proof.
      intro Hb. rewrite <- expect_scal, <- expect_madd. apply expect_ext. intros x y Hx Hy. unfold madd, mscal.
      assert (C := car_word K R (l ++ [(Cre, a)]) b c m x y Hy Hb). rewrite <- !app_assoc in C. cbn [app] in C. rewrite C.
      rewrite (word_swap K Cre x l c a ((Ann, b) :: m) y (or_introl eq_refl)). ring.
    Qed.
    Lemma pass_ann l a b c m : (c < R)%nat -> F (l ++ (Cre, a) :: (Ann, b) :: (Ann, c) :: m) = - (dl a c) * F (l ++ (Ann, b) :: m) + F (l ++ (Ann, c) :: (Cre, a) :: (Ann, b) :: m).
    Proof.
      intro Hc. rewrite <- expect_scal, <- expect_madd. apply expect_ext. intros x y Hx Hy. unfold madd, mscal.
      assert (W := word_swap K Ann x (l ++ [(Cre, a)]) b c m y (or_intror eq_refl)). rewrite <- !app_assoc in W. cbn [app] in W. rewrite W.
      rewrite (car_word K R l c a ((Ann, b) :: m) x y Hy Hc). replace (dl c a) with (dl a c) by (unfold delta; now rewrite Nat.eqb_sym). ring.
    Qed.
    Lemma pass_word : forall W l, ladder_word W ->
      over G (fun g => fst g * F (l ++ (Cre, fst (snd g)) :: (Ann, snd (snd g)) :: W)) = over G (fun g => fst g * F (l ++ W ++ [(Cre, fst (snd g)); (Ann, snd (snd g))])) + dsum l W.
    Proof.
      induction W as [|[o c] W IH]; intros l HW; [cbn [app dsum]; ring|].
      assert (HW' : ladder_word W) by (intros o' c' H; apply HW; now right).
      specialize (IH (l ++ [(o, c)]) HW'). cbn [dsum].
      rewrite (over_ext K G (fun g => fst g * F (l ++ ((o, c) :: W) ++ [(Cre, fst (snd g)); (Ann, snd (snd g))])) (fun g => fst g * F ((l ++ [(o, c)]) ++ W ++ [(Cre, fst (snd g)); (Ann, snd (snd g))])))
        by (intros; rewrite <- app_assoc; reflexivity).
      transitivity (step l o c W + (over G (fun g => fst g * F ((l ++ [(o, c)]) ++ W ++ [(Cre, fst (snd g)); (Ann, snd (snd g))])) + dsum (l ++ [(o, c)]) W)); [|ring].
      rewrite <- IH. destruct (HW o c (or_introl eq_refl)) as [[-> | ->] Hc]; cbn [step].
      - rewrite <- over_add. apply over_ext. intros [w [a b]] Hg. cbn [fst snd]. rewrite <- app_assoc. cbn [app]. rewrite (pass_cre l a b c W) by exact (HG _ Hg). ring.
      - transitivity (- (1) * over G (fun g => dl (fst (snd g)) c * (fst g * F (l ++ (Ann, snd (snd g)) :: W))) + over G (fun g => fst g * F ((l ++ [(Ann, c)]) ++ (Cre, fst (snd g)) :: (Ann, snd (snd g)) :: W))); [|ring].
        rewrite <- over_scal, <- over_add. apply over_ext. intros [w [a b]] Hg. cbn [fst snd]. rewrite <- app_assoc. cbn [app]. rewrite (pass_ann l a b c W) by exact Hc. ring.
    Qed.
    Lemma ward W : ladder_word W -> (forall x, length x = R -> mvec R (one_body_op G) psi x = 0) -> (forall x, length x = R -> mvec R (madj (one_body_op G)) psi x = 0) -> dsum [] W = 0.
    Proof.
      intros HW H1 H2. assert (P := pass_word W [] HW). cbn [app] in P.
      assert (L : over G (fun g => fst g * F ((Cre, fst (snd g)) :: (Ann, snd (snd g)) :: W)) = 0).
      { rewrite <- (expect_left R (one_body_op G) (fm W) psi H2).
        transitivity (expect R (fun x y => over G (fun g => mscal (fst g) (fm ([(Cre, fst (snd g)); (Ann, snd (snd g))] ++ W)) x y)) psi).
        - rewrite expect_over. apply over_ext. intros g _. now rewrite expect_scal.
        - apply expect_ext. intros x y Hx Hy. unfold one_body_op.
          rewrite (mmul_over_l K R G (fun g => mscal (fst g) (fm [(Cre, fst (snd g)); (Ann, snd (snd g))]))). apply over_ext. intros g _.
          rewrite (mmul_scal_l K R _ _ _ x y Hx Hy). unfold mscal. f_equal. now apply fock_mat_app. }
      assert (L' : over G (fun g => fst g * F (W ++ [(Cre, fst (snd g)); (Ann, snd (snd g))])) = 0).
      { rewrite <- (expect_right R (fm W) (one_body_op G) psi H1).
        transitivity (expect R (fun x y => over G (fun g => mscal (fst g) (fm (W ++ [(Cre, fst (snd g)); (Ann, snd (snd g))])) x y)) psi).
        - rewrite expect_over. apply over_ext. intros g _. now rewrite expect_scal.
        - apply expect_ext. intros x y Hx Hy. unfold one_body_op.
          rewrite (mmul_over_r K R G (fun g => mscal (fst g) (fm [(Cre, fst (snd g)); (Ann, snd (snd g))]))). apply over_ext. intros g _.
          rewrite (mmul_scal_r K R _ _ _ x y Hx Hy). unfold mscal. f_equal. now apply fock_mat_app. }
      rewrite L, L' in P. transitivity (0 + dsum [] W); [ring|]. symmetry. exact P.
    Qed.
  End Ward.

  (** ** Singlets on N spatial orbitals, spin up first *)
  Variable N : nat.
  Notation R := (2 * N)%nat.
  Variable psi : bits -> K.
  Hypothesis Hs : singlet K N psi.
  Notation rho c1 c2 a1 a2 := (rdm_of R psi [c1%nat; c2%nat] [a1%nat; a2%nat]).
  Definition Gp : gen := map (fun p => (1, (p, N + p)%nat)) (seq 0 N).
  Definition Gz : gen := map (fun p => (1, (p, p))) (seq 0 N) ++ map (fun p => (- (1), (N + p, N + p)%nat)) (seq 0 N).

  Lemma prs_in p : In p (spin_pairs N) <-> exists i, (i < N)%nat /\ p = (i, N + i)%nat.
  Proof. unfold spin_pairs. rewrite in_map_iff. split; intros [i [A B]]; exists i; [apply in_seq in B|]; (split; [lia || now symmetry|]); try now symmetry. apply in_seq. lia. Qed.
  Lemma Gp_plus x y : length x = R -> length y = R -> one_body_op Gp x y = S_plus R (spin_pairs N) x y.
  Proof.
    intros Hx Hy. unfold one_body_op, Gp, S_plus, spin_pairs. rewrite !over_map. apply over_ext. intros p _. cbn [fst snd].
    unfold cre, ann. rewrite (word2 K R _ _ x y Hx Hy). ring.
  Qed.
  Lemma adj_word a b x y : length x = R -> length y = R -> madj (fm [(Cre, a); (Ann, b)]) x y = fm [(Cre, b); (Ann, a)] x y.
  Proof. intros Hx Hy. symmetry. exact (fock_mat_adj K [(Cre, a); (Ann, b)] R x y Hx Hy). Qed.
  Lemma adj_over {A} (l : list A) (M : A -> mat K) x y : madj (fun x y => over l (fun a => M a x y)) x y = over l (fun a => madj (M a) x y).
  Proof.
    unfold madj. induction l as [|a l IH]; cbn [over fold_right]; [apply cconj_0|]. rewrite cconj_add. f_equal. exact IH.
  Qed.
  Lemma Gp_minus x y : length x = R -> length y = R -> madj (one_body_op Gp) x y = S_minus R (spin_pairs N) x y.
  Proof.
    intros Hx Hy. unfold one_body_op. rewrite (adj_over Gp (fun g => mscal (fst g) (fm [(Cre, fst (snd g)); (Ann, snd (snd g))]))). unfold Gp, S_minus, spin_pairs. rewrite !over_map.
    apply over_ext. intros p _. cbn [fst snd]. unfold cre, ann. rewrite (word2 K R _ _ x y Hx Hy), <- (adj_word _ _ x y Hx Hy). unfold madj, mscal. rewrite cconj_mul, cconj_1. ring.
  Qed.
  Lemma Gz_sz x y : one_body_op Gz x y = S_z (spin_pairs N) x y + S_z (spin_pairs N) x y.
  Proof.
    rewrite Sz_words, two_half. unfold one_body_op, Gz, spin_pairs. rewrite over_app, !over_map, <- over_add. apply over_ext. intros p _. cbn [fst snd]. ring.
  Qed.
  Lemma pairs_good : good_pairs R (spin_pairs N).
  Proof. intros p Hp. apply prs_in in Hp. destruct Hp as [i [Hi ->]]. cbn [fst snd]. lia. Qed.
  Lemma mvec_ext2 (A B : mat K) r : length r = R -> (forall x y, length x = R -> length y = R -> A x y = B x y) -> mvec R A psi r = mvec R B psi r.
  Proof. intros Hr H. apply mvec_meq; [intros x y Hx Hy; now apply H|exact Hr]. Qed.
  Lemma Gp_kill r : length r = R -> mvec R (one_body_op Gp) psi r = 0.
  Proof. intro Hr. rewrite (mvec_ext2 _ (S_plus R (spin_pairs N)) r Hr Gp_plus). now apply Hs. Qed.
  Lemma Gp_kill' r : length r = R -> mvec R (madj (one_body_op Gp)) psi r = 0.
  Proof. intro Hr. rewrite (mvec_ext2 _ (S_minus R (spin_pairs N)) r Hr Gp_minus). now apply Hs. Qed.
  Lemma Gz_kill r : length r = R -> mvec R (one_body_op Gz) psi r = 0.
  Proof.
    intro Hr. assert (C := spin_comm K R (spin_pairs N) pairs_good).
    assert (N1 : NoDup (map fst (spin_pairs N))) by (unfold spin_pairs; rewrite map_map; cbn [fst]; rewrite map_id; apply seq_NoDup).
    assert (N2 : NoDup (map snd (spin_pairs N))).
    { unfold spin_pairs. rewrite map_map. cbn [snd]. apply NoDup_inj_map; [intros; lia|apply seq_NoDup]. }
    specialize (C N1 N2).
    rewrite (mvec_ext2 _ (madd (mmul R (S_plus R (spin_pairs N)) (S_minus R (spin_pairs N))) (mscal (- (1)) (mmul R (S_minus R (spin_pairs N)) (S_plus R (spin_pairs N))))) r Hr).
    - transitivity (mvec R (mmul R (S_plus R (spin_pairs N)) (S_minus R (spin_pairs N))) psi r + - (1) * mvec R (mmul R (S_minus R (spin_pairs N)) (S_plus R (spin_pairs N))) psi r).
      + unfold mvec, madd, mscal. rewrite <- sumbits_scal, <- sumbits_add. apply sumbits_ext. intros. ring.
      + rewrite !mvec_mmul, !mvec_zero by apply Hs. ring.
    - intros x y Hx Hy. rewrite Gz_sz. specialize (C x y Hx Hy). unfold madd in C. unfold madd, mscal. rewrite C. ring.
  Qed.
  Lemma Gz_kill' r : length r = R -> mvec R (madj (one_body_op Gz)) psi r = 0.
  Proof.
    intro Hr. rewrite (mvec_ext2 _ (one_body_op Gz) r Hr); [now apply Gz_kill|]. intros x y Hx Hy. unfold one_body_op.
    rewrite (adj_over Gz (fun g => mscal (fst g) (fm [(Cre, fst (snd g)); (Ann, snd (snd g))]))). apply over_ext. intros g Hg.
    assert (E : cconj (fst g) = fst g /\ fst (snd g) = snd (snd g)).
    { unfold Gz in Hg. apply in_app_or in Hg. destruct Hg as [Hg | Hg]; apply in_map_iff in Hg; destruct Hg as [p [<- _]]; cbn [fst snd]; (split; [|reflexivity]); [apply cconj_1|].
      rewrite cconj_opp. now rewrite cconj_1. }
    destruct E as [E1 E2]. transitivity (cconj (fst g) * madj (fm [(Cre, fst (snd g)); (Ann, snd (snd g))]) x y); [unfold madj, mscal; apply cconj_mul|].
    rewrite adj_word by assumption. now rewrite E1, E2.
  Qed.
  Lemma lw c1 c2 a1 a2 : (c1 < R)%nat -> (c2 < R)%nat -> (a1 < R)%nat -> (a2 < R)%nat -> ladder_word R [(Cre, c1); (Cre, c2); (Ann, a2); (Ann, a1)].
  Proof. intros ? ? ? ? o c H. destruct H as [E | [E | [E | [E | []]]]]; injection E as <- <-; auto. Qed.
  Notation hi c := (hit N N c).
  Notation lo c := (hit N 0 c).
  Notation sel := (sel K).
  Lemma raised c1 c2 a1 a2 : (c1 < R)%nat -> (c2 < R)%nat -> (a1 < R)%nat -> (a2 < R)%nat ->
    sel (hi c1) (rho (c1 - N)%nat c2 a1 a2) + sel (hi c2) (rho c1 (c2 - N)%nat a1 a2) - sel (lo a2) (rho c1 c2 a1 (N + a2)%nat) - sel (lo a1) (rho c1 c2 (N + a1)%nat a2) = 0.
  Proof.
    intros H1 H2 H3 H4. assert (W := ward R psi Gp). 
    assert (HG : forall g, In g Gp -> (snd (snd g) < R)%nat) by (intros g Hg; apply in_map_iff in Hg; destruct Hg as [p [<- Hp]]; apply in_seq in Hp; cbn [fst snd]; lia).
    specialize (W HG _ (lw c1 c2 a1 a2 H1 H2 H3 H4) Gp_kill Gp_kill'). cbn [dsum step app] in W. unfold Gp in W. rewrite !over_map in W. cbn [fst snd] in W.
    change (over (seq 0 N)) with (@upto K N) in W.
    rewrite (upto_delta_shift K N N c1 (fun p => 1 * expect R (fm [(Cre, p); (Cre, c2); (Ann, a2); (Ann, a1)]) psi)) in W.
    rewrite (upto_delta_shift K N N c2 (fun p => 1 * expect R (fm [(Cre, c1); (Cre, p); (Ann, a2); (Ann, a1)]) psi)) in W.
    assert (A2 := upto_delta_shift K N 0 a2 (fun p => 1 * expect R (fm [(Cre, c1); (Cre, c2); (Ann, (N + p)%nat); (Ann, a1)]) psi)).
    assert (A1 := upto_delta_shift K N 0 a1 (fun p => 1 * expect R (fm [(Cre, c1); (Cre, c2); (Ann, a2); (Ann, (N + p)%nat)]) psi)).
    cbn [Nat.add] in A1, A2. rewrite A1, A2 in W. rewrite !Nat.sub_0_r in W. unfold rdm_of, rdm_letters. cbn [rev map app].
    unfold RdmObjProofs4.sel. unfold hit. rewrite !Nat.sub_0_r. eapply eq_trans; [|exact W].
    destruct ((N <=? c1)%nat && (c1 - N <? N)%nat), ((N <=? c2)%nat && (c2 - N <? N)%nat), ((0 <=? a2)%nat && (a2 <? N)%nat), ((0 <=? a1)%nat && (a1 <? N)%nat); ring.
  Qed.
  Lemma weight c1 c2 a1 a2 : (c1 < R)%nat -> (c2 < R)%nat -> (a1 < R)%nat -> (a2 < R)%nat ->
    let z c := sel (lo c) 1 - sel (hi c) 1 in (z c1 + z c2 - z a2 - z a1) * rho c1 c2 a1 a2 = 0.
  Proof.
    intros H1 H2 H3 H4. cbn zeta. assert (W := ward R psi Gz).
    assert (HG : forall g, In g Gz -> (snd (snd g) < R)%nat).
    { intros g Hg. apply in_app_or in Hg. destruct Hg as [Hg | Hg]; apply in_map_iff in Hg; destruct Hg as [p [<- Hp]]; apply in_seq in Hp; cbn [fst snd]; lia. }
    specialize (W HG _ (lw c1 c2 a1 a2 H1 H2 H3 H4) Gz_kill Gz_kill'). cbn [dsum step app] in W. unfold Gz in W. rewrite !over_app, !over_map in W. cbn [fst snd] in W.
    change (over (seq 0 N)) with (@upto K N) in W.
    assert (S0 : forall c (f : nat -> K), upto N (fun p => dl p c * f p) = sel (lo c) (f c)).
    { intros c f. assert (A := upto_delta_shift K N 0 c f). cbn [Nat.add] in A. rewrite A. unfold RdmObjProofs4.sel, hit. now rewrite !Nat.sub_0_r. }
    assert (S1 : forall c (f : nat -> K), upto N (fun p => dl (N + p) c * f p) = sel (hi c) (f (c - N)%nat)) by (intros; apply upto_delta_shift).
    rewrite (S0 c1 (fun p => 1 * expect R (fm [(Cre, p); (Cre, c2); (Ann, a2); (Ann, a1)]) psi)) in W.
    rewrite (S1 c1 (fun p => - (1) * expect R (fm [(Cre, (N + p)%nat); (Cre, c2); (Ann, a2); (Ann, a1)]) psi)) in W.
    rewrite (S0 c2 (fun p => 1 * expect R (fm [(Cre, c1); (Cre, p); (Ann, a2); (Ann, a1)]) psi)) in W.
    rewrite (S1 c2 (fun p => - (1) * expect R (fm [(Cre, c1); (Cre, (N + p)%nat); (Ann, a2); (Ann, a1)]) psi)) in W.
    rewrite (S0 a2 (fun p => 1 * expect R (fm [(Cre, c1); (Cre, c2); (Ann, p); (Ann, a1)]) psi)) in W.
    rewrite (S1 a2 (fun p => - (1) * expect R (fm [(Cre, c1); (Cre, c2); (Ann, (N + p)%nat); (Ann, a1)]) psi)) in W.
    rewrite (S0 a1 (fun p => 1 * expect R (fm [(Cre, c1); (Cre, c2); (Ann, a2); (Ann, p)]) psi)) in W.
    rewrite (S1 a1 (fun p => - (1) * expect R (fm [(Cre, c1); (Cre, c2); (Ann, a2); (Ann, (N + p)%nat)]) psi)) in W.
    assert (B : forall c, hi c = true -> (N + (c - N) = c)%nat) by (intros c Hc; unfold hit in Hc; apply andb_true_iff in Hc; destruct Hc as [Hc _]; apply Nat.leb_le in Hc; lia).
    unfold rdm_of, rdm_letters. cbn [rev map app]. eapply eq_trans; [|exact W]. clear -B. unfold RdmObjProofs4.sel.
    destruct (hi c1) eqn:E1; [rewrite (B c1 E1)|]; destruct (hi c2) eqn:E2; try rewrite (B c2 E2); destruct (hi a2) eqn:E3; try rewrite (B a2 E3); destruct (hi a1) eqn:E4; try rewrite (B a1 E4);
    destruct (lo c1), (lo c2), (lo a2), (lo a1); ring.
  Qed.
  Lemma half_zero2 (x : K) : (1 + 1) * x = 0 -> x = 0.
  Proof. intro H. transitivity (chalf * ((1 + 1) * x)); [|rewrite H; ring]. transitivity ((chalf + chalf) * x); [rewrite (chalf_dbl K)|]; ring. Qed.
  Lemma hit_loN i : (i < N)%nat -> lo i = true /\ hi i = false.
  Proof. apply hit_lo. Qed.
  Lemma hit_hiN i : (i < N)%nat -> lo (N + i) = false /\ hi (N + i) = true.
  Proof. apply hit_hi. Qed.
  Lemma swap_c c1 c2 a1 a2 : rho c1 c2 a1 a2 = - rho c2 c1 a1 a2.
  Proof. exact (rdm_antisym_cre K R psi [] c1 c2 [] [a1; a2]). Qed.
  Lemma swap_a c1 c2 a1 a2 : rho c1 c2 a1 a2 = - rho c1 c2 a2 a1.
  Proof. exact (rdm_antisym_ann K R psi [] a1 a2 [] [c1; c2]). Qed.
  Definition ab i k j l : K := rho i (N + k)%nat j (N + l)%nat.
  Section FourIndices.
    Variables i k j l : nat.
    Hypotheses (Hi : (i < N)%nat) (Hk : (k < N)%nat) (Hj : (j < N)%nat) (Hl : (l < N)%nat).
    Lemma sub_add n : (N + n - N = n)%nat. Proof. lia. Qed.
    Ltac tidy H := repeat rewrite sub_add in H; cbn [RdmObjProofs4.sel] in H.
    (* i up, k down; both annihilators up *)
    Lemma w_aa : rho i k j l = ab i k j l - ab i k l j.
    Proof.
      assert (W := raised i (N + k) j l ltac:(lia) ltac:(lia) ltac:(lia) ltac:(lia)).
      rewrite (proj2 (hit_loN i Hi)), (proj2 (hit_hiN k Hk)), (proj1 (hit_loN j Hj)), (proj1 (hit_loN l Hl)) in W. tidy W. unfold ab.
      rewrite (swap_a i (N + k) (N + j) l) in W. transitivity (rho i k j l - 0); [ring|]. rewrite <- W. ring.
    Qed.
    Lemma w_aa' : rho i k j l = ab k i l j - ab k i j l.
    Proof.
      assert (W := raised (N + i) k j l ltac:(lia) ltac:(lia) ltac:(lia) ltac:(lia)).
      rewrite (proj2 (hit_hiN i Hi)), (proj2 (hit_loN k Hk)), (proj1 (hit_loN j Hj)), (proj1 (hit_loN l Hl)) in W. tidy W. unfold ab.
      rewrite (swap_c (N + i) k j (N + l)), (swap_c (N + i) k (N + j) l), (swap_a k (N + i) (N + j) l) in W. transitivity (rho i k j l - 0); [ring|]. rewrite <- W. ring.
    Qed.
    Lemma w_bb : rho (N + i) (N + k) (N + j) (N + l) = ab i k j l - ab k i j l.
    Proof.
      assert (W := raised (N + i) (N + k) j (N + l) ltac:(lia) ltac:(lia) ltac:(lia) ltac:(lia)).
      rewrite (proj2 (hit_hiN i Hi)), (proj2 (hit_hiN k Hk)), (proj1 (hit_loN j Hj)), (proj1 (hit_hiN l Hl)) in W. tidy W. unfold ab.
      rewrite (swap_c (N + i) k j (N + l)) in W. transitivity (rho (N + i) (N + k) (N + j) (N + l) + 0); [ring|]. rewrite <- W. ring.
    Qed.
    Lemma w_bb' : rho (N + i) (N + k) (N + j) (N + l) = ab k i l j - ab i k l j.
    Proof.
      assert (W := raised (N + i) (N + k) (N + j) l ltac:(lia) ltac:(lia) ltac:(lia) ltac:(lia)).
      rewrite (proj2 (hit_hiN i Hi)), (proj2 (hit_hiN k Hk)), (proj1 (hit_hiN j Hj)), (proj1 (hit_loN l Hl)) in W. tidy W. unfold ab.
      rewrite (swap_a i (N + k) (N + j) l), (swap_c (N + i) k (N + j) l), (swap_a k (N + i) (N + j) l) in W. transitivity (rho (N + i) (N + k) (N + j) (N + l) + 0); [ring|]. rewrite <- W. ring.
    Qed.
    (** Exchanging the spins changes nothing. *)
    Lemma ab_sym : ab i k j l = ab k i l j.
    Proof.
      assert (A := w_aa). rewrite w_aa' in A. assert (B := w_bb). rewrite w_bb' in B.
      assert (D : (1 + 1) * (ab i k j l - ab k i l j) = 0).
      { transitivity ((ab i k j l - ab i k l j) - (ab k i l j - ab k i j l) + ((ab i k j l - ab k i j l) - (ab k i l j - ab i k l j))); [ring|]. rewrite <- A, <- B. ring. }
      apply half_zero2 in D. transitivity ((ab i k j l - ab k i l j) + ab k i l j); [ring|]. rewrite D. ring.
    Qed.
  End FourIndices.
  Lemma singlet_aa i k j l : (i < N)%nat -> (k < N)%nat -> (j < N)%nat -> (l < N)%nat -> rho i k j l = ab i k j l - ab k i j l.
  Proof. intros Hi Hk Hj Hl. rewrite (w_aa i k j l), (ab_sym i k l j) by assumption. reflexivity. Qed.

  Lemma split_index x : (x < R)%nat -> (x < N)%nat \/ exists i, (i < N)%nat /\ x = (N + i)%nat.
  Proof. intro H. destruct (Nat.lt_ge_cases x N) as [L | L]; [now left|right]. exists (x - N)%nat. lia. Qed.
  Lemma from_ab_ext r (f g : tensor4) x y z t : (forall i k j l, (i < r)%nat -> (k < r)%nat -> (j < r)%nat -> (l < r)%nat -> f i k j l = g i k j l) -> from_ab r f x y z t = from_ab r g x y z t.
  Proof.
    intro E. rewrite !from_ab_get. cbn beta zeta.
    assert (B : forall s a, hit r s a = true -> (a - s < r)%nat) by (intros s a Hh; unfold hit in Hh; apply andb_true_iff in Hh; now apply Nat.ltb_lt).
    assert (Q : forall s1 s2 s3 s4 (u v : K), ((x - s1 < r)%nat -> (y - s2 < r)%nat -> (z - s3 < r)%nat -> (t - s4 < r)%nat -> u = v) ->
       sel (hit r s1 x && hit r s2 y && hit r s3 z && hit r s4 t) u = sel (hit r s1 x && hit r s2 y && hit r s3 z && hit r s4 t) v).
    { intros s1 s2 s3 s4 u v H. destruct (hit r s1 x && hit r s2 y && hit r s3 z && hit r s4 t) eqn:M; [|reflexivity]. cbn [RdmObjProofs4.sel].
      rewrite !andb_true_iff in M. destruct M as [[[M1 M2] M3] M4]. apply H; now apply B. }
    repeat match goal with |- (_ + _ = _ + _)%K => apply (f_equal2 cadd) end; apply Q; rewrite ?Nat.sub_0_r; intros; rewrite ?E by assumption; reflexivity.
  Qed.
  Lemma singlet_rebuild x y z t : (x < R)%nat -> (y < R)%nat -> (z < R)%nat -> (t < R)%nat ->
    from_ab N (antisymmetric_block N (seq 0 N) (seq N N) (rho2 K R psi)) x y z t = rho2 K R psi x y z t.
  Proof.
    intros Hx Hy Hz Ht. rewrite (from_ab_ext N _ ab) by (intros; rewrite ab_block_spec by assumption; reflexivity).
    assert (ZZ : forall u v : K, u = 0 -> v = 0 -> u = v) by (intros; congruence).
    unfold rho2.
    destruct (split_index x Hx) as [Lx | [i [Hi ->]]]; [assert (Hi := Lx); set (i := x) in *|]; (destruct (split_index y Hy) as [Ly | [k [Hk ->]]]; [assert (Hk := Ly); set (k := y) in *|]);
    (destruct (split_index z Hz) as [Lz | [j [Hj ->]]]; [assert (Hj := Lz); set (j := z) in *|]); (destruct (split_index t Ht) as [Lt | [l [Hl ->]]]; [assert (Hl := Lt); set (l := t) in *|]);
    destruct (from_ab_blocks K N ab i k j l Hi Hk Hj Hl) as [B1 [B2 [B3 [B4 [_ [_ [B7 [B8 [B9 [B10 [B11 [B12 [B13 [B14 [B15 B16]]]]]]]]]]]]]]];
    destruct (from_ab_blocks K N ab k i j l Hk Hi Hj Hl) as [_ [_ [_ [_ [B5 [B6 _]]]]]];
    first [ rewrite B1; symmetry; apply singlet_aa; assumption
          | rewrite B2; symmetry; apply w_bb; assumption
          | rewrite B3; reflexivity
          | rewrite B4, ab_sym by assumption; unfold ab; rewrite (D_swap_both K R psi); reflexivity
          | rewrite B5; unfold ab; rewrite (swap_c (N + i)); reflexivity
          | rewrite B6; rewrite (ab_sym k i j l) by assumption; unfold ab; rewrite (swap_a i (N + k) (N + j) l); reflexivity
          | idtac ].
    all: apply ZZ; [first [exact B7|exact B8|exact B9|exact B10|exact B11|exact B12|exact B13|exact B14|exact B15|exact B16]|].
    all: match goal with |- rdm_of _ _ [?c1; ?c2] [?a1; ?a2] = 0 => assert (W := weight c1 c2 a1 a2 Hx Hy Hz Ht); cbn beta zeta in W end.
    all: rewrite ?(proj1 (hit_loN i Hi)), ?(proj2 (hit_loN i Hi)), ?(proj1 (hit_loN k Hk)), ?(proj2 (hit_loN k Hk)), ?(proj1 (hit_loN j Hj)), ?(proj2 (hit_loN j Hj)), ?(proj1 (hit_loN l Hl)), ?(proj2 (hit_loN l Hl)),
      ?(proj1 (hit_hiN i Hi)), ?(proj2 (hit_hiN i Hi)), ?(proj1 (hit_hiN k Hk)), ?(proj2 (hit_hiN k Hk)), ?(proj1 (hit_hiN j Hj)), ?(proj2 (hit_hiN j Hj)), ?(proj1 (hit_hiN l Hl)), ?(proj2 (hit_hiN l Hl)) in W;
      cbn [RdmObjProofs4.sel] in W.
    all: first
      [ apply half_zero2; eapply eq_trans; [|exact W]; ring
      | apply half_zero2; transitivity (- (0 : K)); [rewrite <- W; ring|ring]
      | apply half_zero2; apply half_zero2; eapply eq_trans; [|exact W]; ring
      | apply half_zero2; apply half_zero2; transitivity (- (0 : K)); [rewrite <- W; ring|ring] ].
  Qed.
End Singlet.
