(** Cumulants and the reconstruction of the 3-RDM. *)
From Coq Require Import Bool List Arith Lia Ring Sorted Permutation.
From Verif Require Import Coeff MatSpec MatLemmas FockSpec OpSpec CircuitSpec FermiModel FermiProofs AdjProofs RdmModel RdmSpec RdmEnum RdmPerm RdmFock RdmBuild RdmProofs RdmWedge
  HamSpec HamProofs HamProofs2 RdmObjModel RdmObjSpec RdmObjProofs3.
Import ListNotations.

Section Cumulant.
  Variable K : CoefRing.
  Add Ring KRing : (c_ring K).
  Local Open Scope coef_scope.
  Notation T := (tensor K).
  Notation fm := (@fock_mat K).
  Notation dl := (delta K).

  Lemma minors_alternating r w (D : T) : w * (1 + 1) = 1 -> alternating 2 (wedge r 1 1 w D D).
  Proof.
    intros W c a Lc La Nz.
    assert (Z : ~ (NoDup c /\ NoDup a) -> wedge r 1 1 w D D (c ++ a) = 0).
    { intro H. unfold wedge.
      assert (ND : forall (f : list nat -> list nat) n, (forall x, In x (nonzero r 1 D) -> length (f x) = 1%nat) ->
         In n (wedge_terms (map f (nonzero r 1 D)) (map f (nonzero r 1 D))) -> NoDup n /\ length n = 2%nat).
      { intros f n Hf Hn. apply wedge_terms_In in Hn. destruct Hn as [x [y [Hx [Hy [-> [E _]]]]]]. apply in_map_iff in Hx, Hy. destruct Hx as [x' [<- Hx]], Hy as [y' [<- Hy]].
        assert (L1 := Hf _ Hx). assert (L2 := Hf _ Hy). destruct (f x') as [|p [|? ?]]; try discriminate. destruct (f y') as [|q [|? ?]]; try discriminate.
        cbn in E. rewrite !orb_false_r in E. apply Nat.eqb_neq in E. split; [|reflexivity]. cbn. constructor; [cbn; intros [-> | []]; now apply E|]. constructor; [auto|constructor]. }
      assert (LF : forall x, In x (nonzero r 1 D) -> length (firstn 1 x) = 1%nat) by (intros x Hx; apply nonzero_In in Hx as [L _]; rewrite firstn_length; lia).
      assert (LS : forall x, In x (nonzero r 1 D) -> length (skipn 1 x) = 1%nat) by (intros x Hx; apply nonzero_In in Hx as [L _]; rewrite skipn_length; lia).
      rewrite (fold_keep K (fun i t => fold_left _ _ t) (c ++ a)); [reflexivity|]. intros i t Hi. destruct (ND _ _ LF Hi) as [Ni Li].
      rewrite (fold_keep K (fun j t => fold_left _ _ t) (c ++ a)); [reflexivity|]. intros j t' Hj. destruct (ND _ _ LS Hj) as [Nj Lj].
      rewrite (fold_keep K (fun e t => fold_left _ _ t) (c ++ a)); [reflexivity|]. intros [q sq] t'' Hq.
      rewrite (fold_keep K (fun e t => tset _ _ t) (c ++ a)); [reflexivity|]. intros [p sp] t3 Hp. cbn [fst snd]. apply tset_miss. intro E.
      apply uperm_Perm in Hq, Hp. apply app_inj_len in E; [|rewrite Lc, <- (Permutation_length Hq); now symmetry]. destruct E as [-> ->]. apply H.
      split; [exact (Permutation_NoDup Hq Ni)|exact (Permutation_NoDup Hp Nj)]. }
    destruct (ListDec.NoDup_dec Nat.eq_dec c) as [N1 | N1]; [|exfalso; apply Nz, Z; tauto].
    destruct (ListDec.NoDup_dec Nat.eq_dec a) as [N2 | N2]; [|exfalso; apply Nz, Z; tauto]. now split.
  Qed.

  Notation minor D i k j l := (D [i; j] * D [k; l] - D [i; l] * D [k; j]).
  Lemma wsum21 (A D : T) i j k l m n : 
    (forall x y z t, In x [i; j; k] -> In y [i; j; k] -> In z [l; m; n] -> In t [l; m; n] -> A [x; y; z; t] = minor D x y z t) ->
    wsum K 2 A D [i; j; k] [l; m; n] = (1 + 1 + 1) * ((1 + 1) * (1 + 1)) * det3 D i j k l m n.
  Proof.
    intro H. unfold wsum. rewrite !uperm3. cbn [lsum fold_right fst snd firstn skipn app xorb sgn]. rewrite !H by (cbn; auto). unfold det3, det2. ring.
  Qed.
  Lemma ceq_dec (x : K) : x = 0 \/ x <> 0.
  Proof. destruct (ceqb x 0) eqn:E; [left; now apply ceqb_spec|right]. intro H. apply (ceqb_spec K) in H. congruence. Qed.
  Lemma some_nonzero3 (x y z : K) : (x <> 0 \/ y <> 0 \/ z <> 0) \/ (x = 0 /\ y = 0 /\ z = 0).
  Proof. destruct (ceq_dec x), (ceq_dec y), (ceq_dec z); tauto. Qed.

  Lemma triple_product r w v (D : T) i j k l m n : w * (1 + 1) = 1 -> v * ((1 + 1 + 1) * ((1 + 1) * (1 + 1))) = 1 ->
    (i < r)%nat -> (j < r)%nat -> (k < r)%nat -> (l < r)%nat -> (m < r)%nat -> (n < r)%nat ->
    wedge r 2 1 v (wedge r 1 1 w D D) D [i; j; k; l; m; n] = det3 D i j k l m n.
  Proof.
    intros W V Hi Hj Hk Hl Hm Hn. set (A := wedge r 1 1 w D D).
    assert (HA : forall x y z t, (x < r)%nat -> (y < r)%nat -> (z < r)%nat -> (t < r)%nat -> A [x; y; z; t] = minor D x y z t) by (intros; now apply wedge_square).
    assert (E : forall i j k l m n, (i < r)%nat -> (j < r)%nat -> (k < r)%nat -> (l < r)%nat -> (m < r)%nat -> (n < r)%nat -> wedge_of r 2 1 v A D [i; j; k] [l; m; n] = det3 D i j k l m n).
    { clear -HA V. intros i j k l m n Hi Hj Hk Hl Hm Hn. rewrite wedge_of_wsum by (repeat constructor; assumption || cbn; lia). rewrite wsum21.
      - transitivity ((v * ((1 + 1 + 1) * ((1 + 1) * (1 + 1)))) * det3 D i j k l m n); [ring|]. rewrite V. ring.
      - intros x y z t Hx Hy Hz Ht. apply HA; [destruct Hx as [<- | [<- | [<- | []]]]|destruct Hy as [<- | [<- | [<- | []]]]|destruct Hz as [<- | [<- | [<- | []]]]|destruct Ht as [<- | [<- | [<- | []]]]]; assumption. }
    rewrite <- (E i j k l m n) by assumption.
    assert (F2 : forall x y, (x < r)%nat -> (y < r)%nat -> Forall (fun z => z < r)%nat [x; y]) by (intros; repeat constructor; assumption).
    assert (F1 : forall x, (x < r)%nat -> Forall (fun z => z < r)%nat [x]) by (intros; repeat constructor; assumption).
    apply (wedge_spec K r 2 1 v A D [i; j; k] [l; m; n]); try lia; try reflexivity; try (repeat constructor; assumption); [now apply minors_alternating|apply alternating1|].
    clear -E HA F1 F2. intros s t _ _ Ls Lt Fs Ft Nz. destruct s as [|i [|j [|k [|? ?]]]]; try discriminate. destruct t as [|l [|m [|n [|? ?]]]]; try discriminate.
    inversion_clear Fs as [|? ? Hi Fs']. inversion_clear Fs' as [|? ? Hj Fs'']. inversion_clear Fs'' as [|? ? Hk _].
    inversion_clear Ft as [|? ? Hl Ft']. inversion_clear Ft' as [|? ? Hm Ft'']. inversion_clear Ft'' as [|? ? Hn _].
    rewrite E in Nz by assumption. cbn [firstn skipn]. repeat split; try (now apply F2); try (now apply F1).
    - destruct (some_nonzero3 (minor D i j l m) (minor D i j l n) (minor D i j m n)) as [[H | [H | H]] | [Z1 [Z2 Z3]]].
      + exists [l; m]. split; [reflexivity|]. split; [now apply F2|]. cbn [app]. now rewrite HA.
      + exists [l; n]. split; [reflexivity|]. split; [now apply F2|]. cbn [app]. now rewrite HA.
      + exists [m; n]. split; [reflexivity|]. split; [now apply F2|]. cbn [app]. now rewrite HA.
      + exfalso. apply Nz. transitivity (D [k; l] * minor D i j m n - D [k; m] * minor D i j l n + D [k; n] * minor D i j l m); [unfold det3, det2; ring|]. rewrite Z1, Z2, Z3. ring.
    - destruct (some_nonzero3 (D [k; l]) (D [k; m]) (D [k; n])) as [[H | [H | H]] | [Z1 [Z2 Z3]]].
      + exists [l]. split; [reflexivity|]. split; [now apply F1|exact H].
      + exists [m]. split; [reflexivity|]. split; [now apply F1|exact H].
      + exists [n]. split; [reflexivity|]. split; [now apply F1|exact H].
      + exfalso. apply Nz. unfold det3, det2. rewrite Z1, Z2, Z3. ring.
    - destruct (some_nonzero3 (minor D i j l m) (minor D i k l m) (minor D j k l m)) as [[H | [H | H]] | [Z1 [Z2 Z3]]].
      + exists [i; j]. split; [reflexivity|]. split; [now apply F2|]. cbn [app]. now rewrite HA.
      + exists [i; k]. split; [reflexivity|]. split; [now apply F2|]. cbn [app]. now rewrite HA.
      + exists [j; k]. split; [reflexivity|]. split; [now apply F2|]. cbn [app]. now rewrite HA.
      + exfalso. apply Nz. transitivity (D [i; n] * minor D j k l m - D [j; n] * minor D i k l m + D [k; n] * minor D i j l m); [unfold det3, det2; ring|]. rewrite Z1, Z2, Z3. ring.
    - destruct (some_nonzero3 (D [i; n]) (D [j; n]) (D [k; n])) as [[H | [H | H]] | [Z1 [Z2 Z3]]].
      + exists [i]. split; [reflexivity|]. split; [now apply F1|exact H].
      + exists [j]. split; [reflexivity|]. split; [now apply F1|exact H].
      + exists [k]. split; [reflexivity|]. split; [now apply F1|exact H].
      + exfalso. apply Nz. unfold det3, det2. rewrite Z1, Z2, Z3. ring.
  Qed.

  (** ** Determinants *)
  Section Det.
    Variables (R : nat) (occ : list nat).
    Notation x0 := (det_state R occ).
    Notation psi := (@basis_vec K x0).
    Notation F w := (expect R (fm w) psi).
    Hypothesis Hocc : forall z, In z occ -> (z < R)%nat.
    Lemma F_last o i W : fock1 o i x0 = None -> F (W ++ [(o, i)]) = 0.
    Proof.
      intro H. rewrite basis_expect by apply det_state_length. unfold fock_mat, pmap_mat. rewrite fock_app. cbn [fock]. rewrite H. reflexivity.
    Qed.
    Lemma occ_bit i : (i < R)%nat -> nth i x0 false = true <-> In i occ.
    Proof. intro H. rewrite det_state_nth. apply Nat.ltb_lt in H. rewrite H. cbn [andb]. apply existsb_eqb_In. Qed.
    Lemma fock1_none o i x : (o = Cre /\ nth i x false = true) \/ (o = Ann /\ nth i x false = false) -> fock1 o i x = None.
    Proof.
      intro H. unfold fock1. destruct (nth_error x i) as [b|] eqn:E; [|reflexivity]. rewrite (nth_error_nth _ _ false E) in H. destruct H as [[-> ->] | [-> ->]]; reflexivity.
    Qed.
    Lemma rdm_unocc c i a : (i < R)%nat -> ~ In i occ -> rdm_of R psi (i :: c) a = 0.
    Proof.
      intros Hi N. rewrite rdm_herm. unfold rdm_of, rdm_letters. cbn [rev]. rewrite map_app, app_assoc. cbn [map]. rewrite F_last; [apply cconj_0|]. apply fock1_none. right. split; [reflexivity|].
      apply not_true_iff_false. now rewrite (occ_bit i Hi).
    Qed.
    Lemma F_cre i W : In i occ -> F (W ++ [(Cre, i)]) = 0.
    Proof. intro H. apply F_last, fock1_none. left. split; [reflexivity|]. apply occ_bit; auto. Qed.
    Lemma move_cre l i c m : F (l ++ (Cre, i) :: (Cre, c) :: m) = - F (l ++ (Cre, c) :: (Cre, i) :: m).
    Proof.
      transitivity (- (1) * F (l ++ (Cre, c) :: (Cre, i) :: m)); [|ring]. rewrite <- expect_scal. apply expect_ext. intros x y _ _. unfold mscal.
      rewrite (word_swap K Cre x l i c m y (or_introl eq_refl)). ring.
    Qed.
    Lemma move_ann l i c m : (c < R)%nat -> F (l ++ (Cre, i) :: (Ann, c) :: m) = dl i c * F (l ++ m) - F (l ++ (Ann, c) :: (Cre, i) :: m).
    Proof.
      intro Hc. transitivity (dl i c * F (l ++ m) + - (1) * F (l ++ (Ann, c) :: (Cre, i) :: m)); [|ring]. rewrite <- !expect_scal, <- expect_madd. apply expect_ext. intros x y _ Hy. unfold madd, mscal.
      rewrite (car_word K R l c i m x y Hy Hc). replace (dl c i) with (dl i c) by (unfold delta; now rewrite Nat.eqb_sym). ring.
    Qed.
    Ltac ap t := let M := fresh in assert (M := t); cbn [app] in M; rewrite M; clear M.
    Definition d1 (i j : nat) : K := rdm_of R psi [i] [j].
    Lemma psi_norm : F [] = 1.
    Proof. rewrite basis_expect by apply det_state_length. unfold fock_mat, pmap_mat. cbn. now rewrite bits_eqb_refl. Qed.
    Lemma d1_occ i j : In i occ -> (j < R)%nat -> d1 i j = dl i j.
    Proof.
      intros Hi Hj. unfold d1, rdm_of, rdm_letters. cbn [rev map app]. ap (move_ann [] i j [] Hj). ap (F_cre i [(Ann, j)] Hi). rewrite psi_norm. ring.
    Qed.
    Lemma d1_unocc i j : (i < R)%nat -> ~ In i occ -> d1 i j = 0.
    Proof. intros Hi N. exact (rdm_unocc [] i [j] Hi N). Qed.
    Lemma rdm2_det i k j l : (i < R)%nat -> (j < R)%nat -> (l < R)%nat -> rdm_of R psi [i; k] [j; l] = d1 i j * d1 k l - d1 i l * d1 k j.
    Proof.
      intros Hi Hj Hl. destruct (in_dec Nat.eq_dec i occ) as [Ho | N].
      - rewrite !(d1_occ i) by assumption. unfold d1, rdm_of, rdm_letters. cbn [rev map app].
        ap (move_cre [] i k [(Ann, l); (Ann, j)]). ap (move_ann [(Cre, k)] i l [(Ann, j)] Hl). ap (move_ann [(Cre, k); (Ann, l)] i j [] Hj).
        ap (F_cre i [(Cre, k); (Ann, l); (Ann, j)] Ho). ring.
      - rewrite rdm_unocc by assumption. rewrite !(fun b => d1_unocc i b Hi N). ring.
    Qed.
    Lemma rdm3_det i j k l m n : (i < R)%nat -> (j < R)%nat -> (l < R)%nat -> (m < R)%nat -> (n < R)%nat ->
      rdm_of R psi [i; j; k] [l; m; n] = det3 (fun e => match e with [a; b] => d1 a b | _ => 0 end) i j k l m n.
    Proof.
      intros Hi Hj Hl Hm Hn. unfold det3, det2. rewrite <- (rdm2_det j k m n), <- (rdm2_det j k l n), <- (rdm2_det j k l m) by assumption. destruct (in_dec Nat.eq_dec i occ) as [Ho | N].
      - rewrite !(d1_occ i) by assumption. unfold rdm_of, rdm_letters. cbn [rev map app].
        ap (move_cre [] i j [(Cre, k); (Ann, n); (Ann, m); (Ann, l)]). ap (move_cre [(Cre, j)] i k [(Ann, n); (Ann, m); (Ann, l)]).
        ap (move_ann [(Cre, j); (Cre, k)] i n [(Ann, m); (Ann, l)] Hn). ap (move_ann [(Cre, j); (Cre, k); (Ann, n)] i m [(Ann, l)] Hm). ap (move_ann [(Cre, j); (Cre, k); (Ann, n); (Ann, m)] i l [] Hl).
        ap (F_cre i [(Cre, j); (Cre, k); (Ann, n); (Ann, m); (Ann, l)] Ho). ring.
      - rewrite rdm_unocc by assumption. rewrite !(fun b => d1_unocc i b Hi N). ring.
    Qed.
  End Det.

  (** ** The code's cumulant and reconstruction *)
  Lemma half_two : (chalf : K) * (1 + 1) = 1.
  Proof. transitivity (chalf + chalf : K); [ring|apply chalf_dbl]. Qed.
  Lemma cumulant_spec r w (D : T) i k j l : (i < r)%nat -> (k < r)%nat -> (j < r)%nat -> (l < r)%nat ->
    let G := fun a b => w * sumK (map (fun x => D [a; x; b; x]) (seq 0 r)) in
    cumulant r w D [i; k; j; l] = D [i; k; j; l] - (G i j * G k l - G i l * G k j).
  Proof.
    intros Hi Hk Hj Hl. cbn zeta. unfold cumulant, tmap2. rewrite wedge_square by (assumption || apply half_two).
    assert (C : forall a b, reduce_order 2 r w D [a; b] = w * sumK (map (fun x => D [a; x; b; x]) (seq 0 r))) by (intros a b; exact (reduce_order_contract K 2 r w D [a] [b] (or_introl eq_refl) eq_refl eq_refl)).
    now rewrite !C.
  Qed.
  Section HF.
    Variables (na nb R : nat) (alp bet : list nat) (w : K).
    Notation occ := (firstn na alp ++ firstn nb bet).
    Hypothesis (Hocc : forall z, In z occ -> (z < R)%nat) (ND : NoDup occ) (L2 : (2 <= length occ)%nat) (Hw : ofnat (length occ - 1) * w = 1).
    Notation D2 := (@build_hf K 2 na nb alp bet).
    Notation D1 := (reduce_order 2 R w D2).
    Lemma D1_eq a b : D1 [a; b] = d1 R occ a b.
    Proof.
      assert (W : ofnat (length occ - 2 + 1) * w = 1) by (replace (length occ - 2 + 1)%nat with (length occ - 1)%nat by lia; exact Hw).
      assert (E := reduce_hf K 2 na nb alp bet R w (or_introl eq_refl) ND Hocc L2 W [a] [b] eq_refl eq_refl). cbn [app] in E.
      rewrite E.
      exact (hf_is_determinant K 1 na nb alp bet R [a] [b] ltac:(lia) Hocc eq_refl eq_refl).
    Qed.
    Lemma D2_eq i k j l : (i < R)%nat -> (k < R)%nat -> (j < R)%nat -> (l < R)%nat -> D2 [i; k; j; l] = minor D1 i k j l.
    Proof.
      intros Hi Hk Hj Hl. rewrite !D1_eq. rewrite <- rdm2_det by assumption. exact (hf_is_determinant K 2 na nb alp bet R [i; k] [j; l] ltac:(lia) Hocc eq_refl eq_refl).
    Qed.
    Lemma cumulant_hf i k j l : (i < R)%nat -> (k < R)%nat -> (j < R)%nat -> (l < R)%nat -> cumulant R w D2 [i; k; j; l] = 0.
    Proof. intros Hi Hk Hj Hl. unfold cumulant, tmap2. rewrite wedge_square by (assumption || apply half_two). rewrite D2_eq by assumption. ring. Qed.
    Lemma nonzero_none p (t : T) : (forall x, length x = (2 * p)%nat -> Forall (fun i => i < R)%nat x -> t x = 0) -> nonzero R p t = [].
    Proof.
      intro H. destruct (nonzero R p t) as [|x l] eqn:E; [reflexivity|]. exfalso. assert (Hx : In x (nonzero R p t)) by (rewrite E; now left).
      apply nonzero_In in Hx as [L [Fx N]]. apply N. now apply H.
    Qed.
    Lemma reconstruct_hf Ne twelfth i j k l m n : (3 <= Ne)%nat -> twelfth * ((1 + 1 + 1) * ((1 + 1) * (1 + 1))) = 1 ->
      (i < R)%nat -> (j < R)%nat -> (k < R)%nat -> (l < R)%nat -> (m < R)%nat -> (n < R)%nat ->
      reconstruct2 R Ne w twelfth D2 [i; j; k; l; m; n] = @build_hf K 3 na nb alp bet [i; j; k; l; m; n].
    Proof.
      intros HN Ht Hi Hj Hk Hl Hm Hn. unfold reconstruct2. replace (Ne <? 3)%nat with false by (symmetry; apply Nat.ltb_ge; lia). cbn zeta. unfold tmap2 at 1.
      rewrite triple_product by (assumption || apply half_two).
      assert (Z : wedge R 2 1 twelfth (tmap2 csub D2 (wedge R 1 1 chalf D1 D1)) D1 [i; j; k; l; m; n] = 0).
      { unfold wedge at 1. rewrite (nonzero_none 2 (tmap2 csub D2 (wedge R 1 1 chalf D1 D1))); [reflexivity|].
        intros x Lx Fx. destruct x as [|a [|b [|c [|d [|? ?]]]]]; try discriminate. inversion_clear Fx as [|? ? Ha Fx1]. inversion_clear Fx1 as [|? ? Hb Fx2]. inversion_clear Fx2 as [|? ? Hc Fx3]. inversion_clear Fx3 as [|? ? Hd _].
        exact (cumulant_hf a b c d Ha Hb Hc Hd). }
      rewrite Z. rewrite (hf_is_determinant K 3 na nb alp bet R [i; j; k] [l; m; n] ltac:(lia) Hocc eq_refl eq_refl : build_hf 3 na nb alp bet [i; j; k; l; m; n] = _).
      rewrite rdm3_det by assumption. unfold det3, det2. rewrite !D1_eq. ring.
    Qed.
  End HF.
  Lemma reconstruct_covered R Ne w twelfth (D : T) i j k l m n : (3 <= Ne)%nat -> twelfth * ((1 + 1 + 1) * ((1 + 1) * (1 + 1))) = 1 ->
    let D1 := reduce_order 2 R w D in
    (forall c a, length c = 2%nat -> length a = 2%nat -> cumulant R w D (c ++ a) <> 0 -> NoDup c /\ NoDup a) ->
    covers K R 2 1 twelfth (cumulant R w D) D1 ->
    (i < R)%nat -> (j < R)%nat -> (k < R)%nat -> (l < R)%nat -> (m < R)%nat -> (n < R)%nat ->
    reconstruct2 R Ne w twelfth D [i; j; k; l; m; n] = det3 D1 i j k l m n + (1 + 1 + 1) * wedge_of R 2 1 twelfth (cumulant R w D) D1 [i; j; k] [l; m; n].
  Proof.
    intros HN Ht D1 Al Cv Hi Hj Hk Hl Hm Hn. unfold reconstruct2. replace (Ne <? 3)%nat with false by (symmetry; apply Nat.ltb_ge; lia). cbn zeta. unfold tmap2 at 1. fold D1.
    rewrite triple_product by (assumption || apply half_two). fold (cumulant R w D).
    rewrite (wedge_spec K R 2 1 twelfth (cumulant R w D) D1 [i; j; k] [l; m; n] ltac:(lia) ltac:(lia) Al (alternating1 K D1) Cv eq_refl eq_refl ltac:(repeat constructor; assumption) ltac:(repeat constructor; assumption)
      : wedge R 2 1 twelfth (tmap2 csub D (wedge R 1 1 chalf D1 D1)) D1 [i; j; k; l; m; n] = _).
    ring.
  Qed.
End Cumulant.
