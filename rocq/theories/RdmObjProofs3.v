(** The computed spin numbers are the expectation values of S^2 and S_z. *)
From Coq Require Import Bool List Arith Lia Ring.
From Verif Require Import Coeff MatSpec MatLemmas FockSpec OpSpec CircuitSpec FermiModel FermiProofs AdjProofs InvModel RdmModel RdmSpec RdmFock RdmProofs
  TaperSpec TaperProofs TaperProofs2 HamModel HamSpec HamProofs HamProofs2 HamProofs3 RdmObjModel RdmObjProofs2.
Import ListNotations.

Section Spin.
  Variable K : CoefRing.
  Add Ring KRing : (c_ring K).
  Local Open Scope coef_scope.
  Notation tensor4 := (nat -> nat -> nat -> nat -> K).
  Notation tensor2 := (nat -> nat -> K).
  Notation fm := (@fock_mat K).
  Notation dl := (delta K).

  Lemma half_zero (x : K) : x = - x -> x = 0.
  Proof. intro H. transitivity (chalf * (x + x)); [rewrite <- (two_half K x) at 1; ring|]. rewrite H at 2. ring. Qed.
  Lemma rdm_same R (psi : bits -> K) x c : rdm_of R psi [x; x] c = 0.
  Proof. apply half_zero. exact (rdm_antisym_cre K R psi [] x x [] c). Qed.
  Lemma expect_over {A} R (l : list A) (M : A -> mat K) psi : expect R (fun x y => over l (fun a => M a x y)) psi = over l (fun a => expect R (M a) psi).
  Proof. symmetry. apply (lsum_expect K R l M psi). Qed.
  Lemma expect_word2 R (psi : bits -> K) p q : expect R (fm [(Cre, p); (Ann, q)]) psi = rdm_of R psi [p] [q].
  Proof. reflexivity. Qed.
  (** <a+_a a_b a+_c a_d> in terms of the RDMs. *)
  Lemma expect_word4 R (psi : bits -> K) a b c d : (b < R)%nat ->
    expect R (fm [(Cre, a); (Ann, b); (Cre, c); (Ann, d)]) psi = dl b c * rdm_of R psi [a] [d] - rdm_of R psi [a; c] [d; b].
  Proof.
    intro Hb. transitivity (expect R (madd (mscal (dl b c) (fm [(Cre, a); (Ann, d)])) (mscal (- (1)) (fm [(Cre, a); (Cre, c); (Ann, b); (Ann, d)]))) psi).
    - apply expect_ext. intros x y Hx Hy. assert (C := car_word K R [(Cre, a)] b c [(Ann, d)] x y Hy Hb). cbn [app] in C. rewrite C. unfold madd, mscal. ring.
    - rewrite expect_madd, !expect_scal. unfold rdm_of. cbn [rdm_letters rev map app]. ring.
  Qed.
  Lemma Sz_words l x y : @S_z K l x y = chalf * over l (fun p => fm [(Cre, fst p); (Ann, fst p)] x y - fm [(Cre, snd p); (Ann, snd p)] x y).
  Proof.
    rewrite (over_ext K l _ (fun p => 1 * fm [(Cre, fst p); (Ann, fst p)] x y + (- (1)) * fm [(Cre, snd p); (Ann, snd p)] x y)) by (intros; ring).
    rewrite over_add. rewrite <- (over_map K fst l (fun i => 1 * fm [(Cre, i); (Ann, i)] x y)), <- (over_map K snd l (fun i => - (1) * fm [(Cre, i); (Ann, i)] x y)).
    rewrite !over_par. unfold S_z, diag. destruct (bits_eqb x y); ring.
  Qed.
  Lemma expect_Sz R l (psi : bits -> K) : expect R (S_z l) psi = over l (fun e => chalf * rdm_of R psi [fst e] [fst e] - chalf * rdm_of R psi [snd e] [snd e]).
  Proof.
    transitivity (expect R (fun x y => over l (fun p => madd (mscal chalf (fm [(Cre, fst p); (Ann, fst p)])) (mscal (- chalf) (fm [(Cre, snd p); (Ann, snd p)])) x y)) psi).
    - apply expect_ext. intros x y _ _. rewrite Sz_words, <- over_scal. apply over_ext. intros. unfold madd, mscal. ring.
    - rewrite expect_over. apply over_ext. intros p _. rewrite expect_madd, !expect_scal, !expect_word2. ring.
  Qed.
  Lemma expect_SpSm R l (psi : bits -> K) : good_pairs R l -> NoDup (map snd l) ->
    expect R (mmul R (S_plus R l) (S_minus R l)) psi
    = over l (fun p => rdm_of R psi [fst p] [fst p]) - over l (fun p => over l (fun q => rdm_of R psi [fst q; snd p] [fst p; snd q])).
  Proof.
    intros G ND. transitivity (expect R (fun x y => over l (fun p => (fun x y => over l (fun q => fm [(Cre, fst p); (Ann, snd p); (Cre, snd q); (Ann, fst q)] x y)) x y)) psi).
    - apply expect_ext. intros x y Hx Hy. unfold S_plus at 1. rewrite (mmul_over_l K R l (fun p => mmul R (cre (fst p)) (ann (snd p)))). apply over_ext. intros p _.
      unfold S_minus. rewrite (mmul_over_r K R l (fun p => mmul R (cre (snd p)) (ann (fst p)))). apply over_ext. intros q _. now apply word22.
    - rewrite expect_over. rewrite (over_ext K l _ (fun p => rdm_of R psi [fst p] [fst p] + over l (fun q => - (1) * rdm_of R psi [fst p; snd q] [fst q; snd p]))).
      + rewrite over_add. rewrite (over_swap K l l (fun p q => - (1) * rdm_of R psi [fst p; snd q] [fst q; snd p])).
        transitivity (over l (fun p => rdm_of R psi [fst p] [fst p]) + - (1) * over l (fun p => over l (fun q => rdm_of R psi [fst q; snd p] [fst p; snd q]))); [|ring].
        f_equal. rewrite <- over_scal. apply over_ext. intros p _. rewrite <- over_scal. reflexivity.
      + intros p Hp. rewrite expect_over.
        rewrite (over_ext K l _ (fun q => dl (snd p) (snd q) * rdm_of R psi [fst p] [fst q] + - (1) * rdm_of R psi [fst p; snd q] [fst q; snd p])).
        * rewrite over_add. f_equal. exact (over_delta_key K snd l (fun q => rdm_of R psi [fst p] [fst q]) p ND Hp).
        * intros q _. rewrite expect_word4 by exact (proj2 (G p Hp)). ring.
  Qed.
  (** <n_x n_y>. *)
  Lemma expect_nn R (psi : bits -> K) x y : (x < R)%nat -> expect R (fm [(Cre, x); (Ann, x); (Cre, y); (Ann, y)]) psi = dl x y * rdm_of R psi [x] [y] + rdm_of R psi [x; y] [x; y].
  Proof. intro H. rewrite expect_word4 by exact H. rewrite (D_swap_ann K R psi x y x y). ring. Qed.
  Lemma expect_Sz2 R l (psi : bits -> K) : good_pairs R l -> NoDup (map fst l ++ map snd l) ->
    expect R (mmul R (S_z l) (S_z l)) psi
    = quarter * over l (fun p => rdm_of R psi [fst p] [fst p] + rdm_of R psi [snd p] [snd p])
      + quarter * over l (fun p => over l (fun q => rdm_of R psi [fst p; fst q] [fst p; fst q] + rdm_of R psi [snd p; snd q] [snd p; snd q]
           - rdm_of R psi [snd p; fst q] [snd p; fst q] - rdm_of R psi [fst p; snd q] [fst p; snd q])).
  Proof.
    intros G ND. set (n := fun x => fm [(Cre, x); (Ann, x)]).
    transitivity (expect R (mscal quarter (fun x y => over l (fun p => (fun x y => over l (fun q =>
       madd (madd (fm [(Cre, fst p); (Ann, fst p); (Cre, fst q); (Ann, fst q)]) (fm [(Cre, snd p); (Ann, snd p); (Cre, snd q); (Ann, snd q)]))
            (mscal (- (1)) (madd (fm [(Cre, snd p); (Ann, snd p); (Cre, fst q); (Ann, fst q)]) (fm [(Cre, fst p); (Ann, fst p); (Cre, snd q); (Ann, snd q)]))) x y)) x y))) psi).
    - apply expect_ext. intros x y Hx Hy.
      assert (W : forall a b, mmul R (n a) (n b) x y = fm [(Cre, a); (Ann, a); (Cre, b); (Ann, b)] x y).
      { intros a b. symmetry. exact (fock_mat_app K R [(Cre, a); (Ann, a)] [(Cre, b); (Ann, b)] x y Hx Hy). }
      transitivity (mmul R (mscal chalf (fun x y => over l (fun p => madd (n (fst p)) (mscal (- (1)) (n (snd p))) x y))) (mscal chalf (fun x y => over l (fun p => madd (n (fst p)) (mscal (- (1)) (n (snd p))) x y))) x y).
      { unfold mmul. apply sumbits_ext. intros k _. f_equal; unfold mscal; rewrite Sz_words; f_equal; apply over_ext; intros; unfold madd, n; ring. }
      set (B := fun x y => over l (fun p => madd (n (fst p)) (mscal (- (1)) (n (snd p))) x y)).
      rewrite (mmul_scal_l K R chalf B (mscal chalf B) x y Hx Hy). unfold mscal at 1. rewrite (mmul_scal_r K R chalf B B x y Hx Hy). unfold mscal at 1.
      transitivity (quarter * mmul R B B x y); [unfold quarter; ring|]. unfold mscal at 1. f_equal.
      unfold B at 1. rewrite (mmul_over_l K R l (fun p => madd (n (fst p)) (mscal (- (1)) (n (snd p))))). apply over_ext. intros p _.
      unfold B. rewrite (mmul_over_r K R l (fun p => madd (n (fst p)) (mscal (- (1)) (n (snd p))))). apply over_ext. intros q _.
      rewrite (mmul_add_l K R _ _ _ x y Hx Hy). unfold madd at 1. rewrite (mmul_scal_l K R _ _ _ x y Hx Hy). unfold mscal at 2.
      rewrite !(mmul_add_r K R _ _ _ x y Hx Hy). unfold madd at 1 2. rewrite !(mmul_scal_r K R _ _ _ x y Hx Hy). unfold mscal. unfold madd. rewrite !W. ring.
    - rewrite expect_scal, expect_over. transitivity (quarter * (over l (fun p => rdm_of R psi [fst p] [fst p] + rdm_of R psi [snd p] [snd p])
      + over l (fun p => over l (fun q => rdm_of R psi [fst p; fst q] [fst p; fst q] + rdm_of R psi [snd p; snd q] [snd p; snd q]
           - rdm_of R psi [snd p; fst q] [snd p; fst q] - rdm_of R psi [fst p; snd q] [fst p; snd q])))); [|ring].
      f_equal. rewrite <- over_add. apply over_ext. intros p Hp. rewrite expect_over.
      assert (Nf := NoDup_app_l _ _ ND). assert (Ns := NoDup_app_r _ _ ND).
      rewrite (over_ext K l _ (fun q => (dl (fst p) (fst q) * rdm_of R psi [fst p] [fst q] + dl (snd p) (snd q) * rdm_of R psi [snd p] [snd q]) +
         (rdm_of R psi [fst p; fst q] [fst p; fst q] + rdm_of R psi [snd p; snd q] [snd p; snd q]
           - rdm_of R psi [snd p; fst q] [snd p; fst q] - rdm_of R psi [fst p; snd q] [fst p; snd q]))).
      + rewrite !over_add. f_equal. f_equal.
        * exact (over_delta_key K fst l (fun q => rdm_of R psi [fst p] [fst q]) p Nf Hp).
        * exact (over_delta_key K snd l (fun q => rdm_of R psi [snd p] [snd q]) p Ns Hp).
      + intros q Hq. rewrite expect_madd, expect_scal, !expect_madd, !expect_nn by (apply (G p Hp)).
        assert (E1 : dl (snd p) (fst q) = 0).
        { unfold delta. destruct (Nat.eqb_spec (snd p) (fst q)) as [E | _]; [|reflexivity]. exfalso.
          apply (NoDup_app_disj _ _ (snd p) ND); [now apply in_map|]. rewrite E. now apply in_map. }
        assert (E2 : dl (fst p) (snd q) = 0).
        { unfold delta. destruct (Nat.eqb_spec (fst p) (snd q)) as [E | _]; [|reflexivity]. exfalso.
          apply (NoDup_app_disj _ _ (snd q) ND); [now apply in_map|]. rewrite <- E. now apply in_map. }
        rewrite E1, E2. ring.
  Qed.

  (** ** The code's numbers *)
  Lemma indices_in (l : list (nat * nat)) n : good_pairs n l -> forall us : list ((nat * nat * nat * nat) * K),
    (forall a b c d v, In ((a, b, c, d), v) us -> exists p q, In p l /\ In q l /\ forall x, In x [a; b; c; d] -> In x [fst p; snd p; fst q; snd q]) ->
    indices_ok n us = true /\ forall a b c d v, In ((a, b, c, d), v) us -> (a < n /\ b < n /\ c < n /\ d < n)%nat.
  Proof.
    intros G us H. assert (W : forall a b c d v, In ((a, b, c, d), v) us -> (a < n /\ b < n /\ c < n /\ d < n)%nat).
    { intros a b c d v Hu. destruct (H a b c d v Hu) as [p [q [Hp [Hq Hx]]]]. destruct (G p Hp) as [? ?]. destruct (G q Hq) as [? ?].
      assert (L : forall x, In x [a; b; c; d] -> (x < n)%nat) by (intros x Hi; destruct (Hx x Hi) as [<- | [<- | [<- | [<- | []]]]]; assumption).
      repeat split; apply L; cbn; auto. }
    split; [|exact W]. unfold indices_ok. apply forallb_forall. intros [[[[a b] c] d] v] Hu. destruct (W a b c d v Hu) as [? [? [? ?]]].
    apply below_spec. intros x [<- | [<- | [<- | [<- | []]]]]; assumption.
  Qed.
  Lemma active_pairs a b : within a b -> good_pairs (norb a b) (combine (active a) (active b)).
  Proof. intros W [x y] H. cbn [fst snd]. exact (in_combine_range a b x y W H). Qed.

  Lemma Sz_spec a b (psi : bits -> K) : paired a b -> within a b -> NoDup (active a ++ active b) ->
    Sz (rho1 K (norb a b) psi) a b = Some (expect (norb a b) (S_z (combine (active a) (active b))) psi).
  Proof.
    intros P W ND. unfold Sz. destruct (Sz_mat_spec K a b (rho1 K (norb a b) psi) P W ND) as [m [E T]]. rewrite E. cbn [option_map]. f_equal. rewrite T, expect_Sz. reflexivity.
  Qed.
  Lemma S2_spec a b (psi : bits -> K) : paired a b -> within a b -> NoDup (active a ++ active b) ->
    S2 (rho2 K (norb a b) psi) (rho1 K (norb a b) psi) a b = Some (expect (norb a b) (S_squared (norb a b) (combine (active a) (active b))) psi).
  Proof.
    intros P W ND. set (R := norb a b). set (l := combine (active a) (active b)).
    assert (La : length (active a) = length (active b)) by apply P.
    assert (F1 : map fst l = active a) by now apply map_fst_combine. assert (F2 : map snd l = active b) by now apply map_snd_combine.
    assert (G : good_pairs R l) by now apply active_pairs.
    assert (Ba : below R (active a) = true) by (apply below_spec; intros x Hx; apply W, in_or_app; now left).
    assert (Bb : below R (active b) = true) by (apply below_spec; intros x Hx; apply W, in_or_app; now right).
    assert (Na := NoDup_app_l _ _ ND). assert (Nb := NoDup_app_r _ _ ND).
    assert (Nl : NoDup l) by (apply (NoDup_map_inv fst); now rewrite F1).
    destruct (Sz_mat_spec K a b (rho1 K R psi) P W ND) as [m [Em Tm]]. fold R l in Tm.
    unfold S2, get_SpSm_mat, get_Sz2_mat. rewrite (spin_loop_spec a b P), Em. fold R l.
    destruct (indices_in l R G (map spsm_step (list_prod l l))) as [I1 J1].
    { intros x y z t v H. apply in_map_iff in H. destruct H as [[[pa pb] [qa qb]] [E H]]. apply in_prod_iff in H. destruct H as [Hp Hq]. cbn [spsm_step] in E. injection E as <- <- <- <- <-.
      exists (pa, pb), (qa, qb). split; [exact Hp|]. split; [exact Hq|]. cbn. tauto. }
    destruct (indices_in l R G (flat_map sz2_step (list_prod l l))) as [I2 J2].
    { intros x y z t v H. apply in_flat_map in H. destruct H as [[[pa pb] [qa qb]] [H E]]. apply in_prod_iff in H. destruct H as [Hp Hq]. cbn [sz2_step] in E.
      exists (pa, pb), (qa, qb). split; [exact Hp|]. split; [exact Hq|]. destruct E as [E | [E | [E | [E | []]]]]; injection E as <- <- <- <- <-; cbn; tauto. }
    rewrite I1, I2, Ba, Bb. cbn [andb]. f_equal.
    assert (Gp := active_pairs a b W).
    rewrite (expect_ext K R _ _ psi (proj2 (meq_req K R _ _) (S_squared_eq K R l G ltac:(now rewrite F1) ltac:(now rewrite F2)))).
    rewrite !expect_madd, expect_scal.
    rewrite expect_SpSm by (assumption || now rewrite F2). rewrite expect_Sz2 by (assumption || now rewrite F1, F2). rewrite expect_Sz.
    fold (rho1 K R psi) in *.
    assert (T1 : observable R (fold_left (fun t u => set4 u t) (map spsm_step (list_prod l l)) zero4) (rho2 K R psi) = - over l (fun p => over l (fun q => rdm_of R psi [fst q; snd p] [fst p; snd q]))).
    { rewrite (observable_ext K R _ (apply_all (map spsm_step (list_prod l l)) zero4)).
      - rewrite (observable_apply K R (rho2 K R psi) _ _ J1), observable_zero, over_map, over_prod.
        transitivity (0 + - (1) * over l (fun p => over l (fun q => rdm_of R psi [fst q; snd p] [fst p; snd q]))); [|ring]. f_equal. rewrite <- over_scal. apply over_ext. intros [pa pb] _. rewrite <- over_scal. apply over_ext. intros [qa qb] _. reflexivity.
      - apply set4_adds; [|reflexivity]. rewrite map_map. apply NoDup_inj_map; [|now apply NoDup_list_prod].
        intros [[pa pb] [qa qb]] [[pa' pb'] [qa' qb']] _ _ E. cbn in E. now injection E as -> -> -> ->. }
    assert (T2 : trace2 R (fold_left (fun t p => set2 p p 1 t) (active a) zero2) (rho1 K R psi) = over l (fun p => rdm_of R psi [fst p] [fst p])).
    { rewrite (trace2_ext K R _ (fold_left (fun t p => add2 p p 1 t) (active a) zero2)) by (intros; apply set2_adds; [exact Na|reflexivity]).
      rewrite trace2_adds by (apply below_spec; exact Ba). rewrite trace2_zero, <- F1, over_map. transitivity (over l (fun p => 1 * rdm_of R psi [fst p] [fst p])); [unfold rho1; ring|].
      apply over_ext. intros; ring. }
    assert (T3 : trace2 R (fold_left (fun t p => add2 p p quarter t) (active b) (fold_left (fun t p => add2 p p quarter t) (active a) zero2)) (rho1 K R psi)
       = quarter * over l (fun p => rdm_of R psi [fst p] [fst p] + rdm_of R psi [snd p] [snd p])).
    { rewrite trace2_adds by (apply below_spec; exact Bb). rewrite trace2_adds by (apply below_spec; exact Ba). rewrite trace2_zero, <- F1, <- F2, !over_map, over_add, !over_scal. unfold rho1. ring. }
    assert (T4 : observable R (apply_all (flat_map sz2_step (list_prod l l)) zero4) (rho2 K R psi) =
       quarter * over l (fun p => over l (fun q => rdm_of R psi [fst p; fst q] [fst p; fst q] + rdm_of R psi [snd p; snd q] [snd p; snd q]
           - rdm_of R psi [snd p; fst q] [snd p; fst q] - rdm_of R psi [fst p; snd q] [fst p; snd q]))).
    { rewrite (observable_apply K R (rho2 K R psi) _ _ J2), observable_zero, over_flat_map, over_prod.
      transitivity (0 + quarter * over l (fun p => over l (fun q => rdm_of R psi [fst p; fst q] [fst p; fst q] + rdm_of R psi [snd p; snd q] [snd p; snd q]
           - rdm_of R psi [snd p; fst q] [snd p; fst q] - rdm_of R psi [fst p; snd q] [fst p; snd q]))); [|ring]. f_equal.
      rewrite <- over_scal. apply over_ext. intros [pa pb] _. rewrite <- over_scal. apply over_ext. intros [qa qb] _. cbn [sz2_step over fold_right fst snd]. unfold rho2.
      assert (Z : forall x y : nat, (if Nat.eqb x y then 0 else quarter) * rdm_of R psi [x; y] [x; y] = quarter * rdm_of R psi [x; y] [x; y]).
      { intros x y. destruct (Nat.eqb_spec x y) as [-> | _]; [rewrite rdm_same; ring|reflexivity]. }
      rewrite !Z. ring. }
    rewrite T1, T2, T3, T4, Tm. unfold rho1. ring.
  Qed.
End Spin.
