From Coq Require Import Bool List Arith Lia Setoid Morphisms.
From Verif Require Import Coeff MatSpec MatLemmas FockSpec OpSpec PauliModel PauliProofs OperatorModel OperatorProofs FermiModel FermiProofs AdjProofs
  TransformModel TwoTerm JWProofs TransformLin CircuitSpec RdmSpec RdmFock InvModel InvSpec TaperSpec TaperProofs TaperProofs2 InvProofs HamModel HamSpec HamProofs.
Import ListNotations.

Section HamProofs2.
  Variable K : CoefRing.
  Add Ring KRing : (c_ring K).
  Local Open Scope coef_scope.
  Notation fm := (@fock_mat K).
  Notation fo := (list (fstr * K)).

  Lemma fock1_hol x m : (x < length m)%nat -> fock1 Hol x m = if nth x m false then None else Some (false, m).
  Proof.
    unfold fock1. revert x. induction m as [|b m IH]; intros [|x] H; cbn in H; try lia.
    - destruct b; reflexivity.
    - specialize (IH x ltac:(lia)). simpl in *. destruct (nth_error m x) as [b0|]; [|destruct (nth x m false); [reflexivity|discriminate]].
      destruct b0; simpl in *; destruct (nth x m false); try reflexivity; try discriminate. injection IH as IH. rewrite IH. reflexivity.
  Qed.
  Definition delta (i j : nat) : K := if Nat.eqb i j then 1 else 0.
  (** Anticommutation inside a word. *)
  Lemma car_word N l b c m x y : length y = N -> (b < N)%nat ->
    fm (l ++ (Ann, b) :: (Cre, c) :: m) x y = delta b c * fm (l ++ m) x y - fm (l ++ (Cre, c) :: (Ann, b) :: m) x y.
  Proof.
    intros Hy Hb. unfold delta. destruct (Nat.eqb_spec b c) as [<- |N1].
    - unfold fock_mat, pmap_mat. rewrite !fock_app, !fock_cons.
      destruct (fock m y) as [[s z]|] eqn:E; [|cbn; ring]. assert (Hz : length z = N) by (apply fock_length in E; congruence). cbn [bindo].
      assert (P : forall o1 o2, bindo (bindo (flipo s (fock1 o2 b z)) (fock1 o1 b)) (fock l) = bindo (flipo s (bindo (fock1 o2 b z) (fock1 o1 b))) (fock l)) by (intros; now rewrite bindo_flipo).
      assert (A1 := fock1_same Ann Cre b z). assert (A2 := fock1_same Cre Ann b z). cbn [merge_table] in A1, A2. rewrite fock1_hol in A1 by lia. rewrite fock1_par in A2.
      change (match fock1 Cre b z with Some (s', m') => Some (xorb s s', m') | None => None end) with (flipo s (fock1 Cre b z)) in *.
      change (match fock1 Ann b z with Some (s', m') => Some (xorb s s', m') | None => None end) with (flipo s (fock1 Ann b z)) in *.
      rewrite !P, A1, A2. destruct (nth b z false); cbn [flipo bindo]; rewrite ?xorb_false_r; cbn [bindo]; destruct (fock l z) as [[s1 z1]|]; cbn; try ring; destruct (bits_eqb z1 x); ring.
    - rewrite (fock_mat_rel K true (l ++ (Ann, b) :: (Cre, c) :: m) (l ++ (Cre, c) :: (Ann, b) :: m)); [unfold sgn; ring|].
      apply fock_rel_app. apply (fock_swap Ann b Cre c m N1).
  Qed.
  Lemma word_swap o x' l a b m y : (o = Cre \/ o = Ann) -> fm (l ++ (o, a) :: (o, b) :: m) x' y = - fm (l ++ (o, b) :: (o, a) :: m) x' y.
  Proof.
    intro Ho. rewrite (fock_mat_rel K true (l ++ (o, a) :: (o, b) :: m) (l ++ (o, b) :: (o, a) :: m)); [unfold sgn; ring|].
    apply fock_rel_app. now apply fock_swap_same.
  Qed.

  (** ** Spin *)
  Lemma word22 N a b c d : meq N (mmul N (mmul N (@cre K a) (ann b)) (mmul N (cre c) (ann d))) (fm [(Cre, a); (Ann, b); (Cre, c); (Ann, d)]).
  Proof.
    apply meq_req. assert (A := fock_mat_app K N [(Cre, a); (Ann, b)] [(Cre, c); (Ann, d)]).
    assert (B := word2 K N (Cre, a) (Ann, b)). assert (C := word2 K N (Cre, c) (Ann, d)). apply meq_req in A, B, C. unfold cre, ann. rewrite B, C. symmetry. exact A.
  Qed.
  Lemma comm_word N a b c d x y : length y = N -> (b < N)%nat -> (d < N)%nat ->
    fm [(Cre, a); (Ann, b); (Cre, c); (Ann, d)] x y - fm [(Cre, c); (Ann, d); (Cre, a); (Ann, b)] x y
    = delta b c * fm [(Cre, a); (Ann, d)] x y - delta d a * fm [(Cre, c); (Ann, b)] x y.
  Proof.
    intros Hy Hb Hd. assert (A := car_word N [(Cre, a)] b c [(Ann, d)] x y Hy Hb). assert (B := car_word N [(Cre, c)] d a [(Ann, b)] x y Hy Hd).
    assert (C := word_swap Cre x [] a c [(Ann, b); (Ann, d)] y ltac:(auto)). assert (D := word_swap Ann x [(Cre, c); (Cre, a)] d b [] y ltac:(auto)).
    cbn [app] in A, B, C, D. rewrite A, B, C, D. ring.
  Qed.
  Lemma mmul_over_l {A} N (l : list A) (f : A -> mat K) (B : mat K) r c : mmul N (fun x y => over l (fun a => f a x y)) B r c = over l (fun a => mmul N (f a) B r c).
  Proof.
    unfold mmul. induction l as [|a l IH]; cbn [over fold_right].
    - rewrite (sumbits_ext _ _ _ (fun _ => 0 * 0)); [rewrite sumbits_scal; ring|]. intros; ring.
    - fold (over l (fun a => sumbits N (fun k => f a r k * B k c))). rewrite <- IH, <- sumbits_add. apply sumbits_ext. intros. unfold over. ring.
  Qed.
  Lemma mmul_over_r {A} N (l : list A) (f : A -> mat K) (B : mat K) r c : mmul N B (fun x y => over l (fun a => f a x y)) r c = over l (fun a => mmul N B (f a) r c).
  Proof.
    unfold mmul. induction l as [|a l IH]; cbn [over fold_right].
    - rewrite (sumbits_ext _ _ _ (fun _ => 0 * 0)); [rewrite sumbits_scal; ring|]. intros; ring.
    - fold (over l (fun a => sumbits N (fun k => B r k * f a k c))). rewrite <- IH, <- sumbits_add. apply sumbits_ext. intros. unfold over. ring.
  Qed.
  Lemma over_delta_key {A} (key : A -> nat) (l : list A) (g : A -> K) p : NoDup (map key l) -> In p l -> over l (fun p' => delta (key p) (key p') * g p') = g p.
  Proof.
    induction l as [|q l IH]; intros ND Hp; [destruct Hp|]. cbn [map] in ND. inversion ND as [|? ? N1 N2]; subst. cbn [over fold_right].
    fold (over l (fun p' => delta (key p) (key p') * g p')). destruct Hp as [-> |Hp].
    - unfold delta at 1. rewrite Nat.eqb_refl. rewrite (over_ext K l _ (fun _ => 0)); [rewrite over_0; ring|].
      intros z Hz. unfold delta. destruct (Nat.eqb_spec (key p) (key z)) as [E|E]; [|ring]. exfalso. apply N1. rewrite E. now apply in_map.
    - unfold delta at 1. destruct (Nat.eqb_spec (key p) (key q)) as [E|E]; [exfalso; apply N1; rewrite <- E; now apply in_map|]. rewrite IH by assumption. ring.
  Qed.
  Lemma two_half (x : K) : chalf * x + chalf * x = x.
  Proof. transitivity ((chalf + chalf) * x); [ring|]. rewrite (chalf_dbl K). ring. Qed.
  Lemma spin_comm N l : good_pairs N l -> NoDup (map fst l) -> NoDup (map snd l) ->
    req N N (mmul N (@S_plus K N l) (S_minus N l)) (madd (mmul N (S_minus N l) (S_plus N l)) (madd (S_z l) (S_z l))).
  Proof.
    intros HG N1 N2 x y Hx Hy. unfold madd.
    assert (A : mmul N (@S_plus K N l) (S_minus N l) x y = over l (fun p => over l (fun q => fm [(Cre, fst p); (Ann, snd p); (Cre, snd q); (Ann, fst q)] x y))).
    { unfold S_plus at 1. rewrite (mmul_over_l N l (fun p => mmul N (cre (fst p)) (ann (snd p)))). apply over_ext. intros p _.
      unfold S_minus. rewrite (mmul_over_r N l (fun p => mmul N (cre (snd p)) (ann (fst p)))). apply over_ext. intros q _. now apply word22. }
    assert (B : mmul N (@S_minus K N l) (S_plus N l) x y = over l (fun p => over l (fun q => fm [(Cre, snd q); (Ann, fst q); (Cre, fst p); (Ann, snd p)] x y))).
    { rewrite over_swap. unfold S_minus at 1. rewrite (mmul_over_l N l (fun p => mmul N (cre (snd p)) (ann (fst p)))). apply over_ext. intros p _.
      unfold S_plus. rewrite (mmul_over_r N l (fun p => mmul N (cre (fst p)) (ann (snd p)))). apply over_ext. intros q _. now apply word22. }
    assert (Z : S_z l x y + S_z l x y = over l (fun p => fm [(Cre, fst p); (Ann, fst p)] x y - fm [(Cre, snd p); (Ann, snd p)] x y)).
    { rewrite (over_ext K l _ (fun p => 1 * fm [(Cre, fst p); (Ann, fst p)] x y + (- (1)) * fm [(Cre, snd p); (Ann, snd p)] x y)) by (intros; ring).
      rewrite over_add. rewrite <- (over_map K fst l (fun i => 1 * fm [(Cre, i); (Ann, i)] x y)), <- (over_map K snd l (fun i => - (1) * fm [(Cre, i); (Ann, i)] x y)).
      rewrite !over_par. unfold S_z, diag. destruct (bits_eqb x y); [rewrite two_half|]; ring. }
    rewrite A, B, Z. rewrite <- over_add. apply over_ext. intros p Hp.
    assert (G : forall q, In q l -> fm [(Cre, fst p); (Ann, snd p); (Cre, snd q); (Ann, fst q)] x y =
       fm [(Cre, snd q); (Ann, fst q); (Cre, fst p); (Ann, snd p)] x y + (delta (snd p) (snd q) * fm [(Cre, fst p); (Ann, fst q)] x y + delta (fst p) (fst q) * (- fm [(Cre, snd q); (Ann, snd p)] x y))).
    { intros q Hq. assert (C := comm_word N (fst p) (snd p) (snd q) (fst q) x y Hy (proj2 (HG p Hp)) (proj1 (HG q Hq))).
      replace (delta (fst p) (fst q)) with (delta (fst q) (fst p)) by (unfold delta; now rewrite Nat.eqb_sym).
      transitivity ((fm [(Cre, fst p); (Ann, snd p); (Cre, snd q); (Ann, fst q)] x y - fm [(Cre, snd q); (Ann, fst q); (Cre, fst p); (Ann, snd p)] x y) + fm [(Cre, snd q); (Ann, fst q); (Cre, fst p); (Ann, snd p)] x y); [ring|]. rewrite C. ring. }
    rewrite (over_ext K l _ _ G), over_add, over_add. rewrite (over_delta_key snd l (fun q => fm [(Cre, fst p); (Ann, fst q)] x y) p N2 Hp).
    rewrite (over_delta_key fst l (fun q => - fm [(Cre, snd q); (Ann, snd p)] x y) p N1 Hp). ring.
  Qed.
  Lemma S_squared_eq N l : good_pairs N l -> NoDup (map fst l) -> NoDup (map snd l) ->
    req N N (@S_squared K N l) (madd (madd (mmul N (S_plus N l) (S_minus N l)) (mmul N (S_z l) (S_z l))) (mscal (- (1)) (S_z l))).
  Proof.
    intros HG N1 N2. assert (C := spin_comm N l HG N1 N2). set (P := S_plus N l) in *. set (M := S_minus N l) in *. set (Z := S_z l) in *.
    unfold S_squared, S_x, S_y. fold P M Z. rewrite !(r_scal_l K N N N), !(r_scal_r K N N N), !(r_add_l K N N N), !(r_add_r K N N N), !(r_scal_l K N N N), !(r_scal_r K N N N).
    intros x y Hx Hy. specialize (C x y Hx Hy). unfold madd, mscal in *.
    set (pp := mmul N P P x y). set (mm := mmul N M M x y). set (pm := mmul N P M x y) in *. set (mp := mmul N M P x y) in *. set (zz := mmul N Z Z x y). set (z := Z x y) in *.
    assert (Ci : ci * ci = - (1) :> K) by apply ci_sq.
    assert (Hh : chalf + chalf = 1 :> K) by apply chalf_dbl.
    transitivity (zz + chalf * (chalf * (pp + mp + (pm + mm))) - (ci * ci) * (- (1)) * (chalf * (chalf * (pp - mp + (- pm + mm))))); [ring|]. rewrite Ci.
    transitivity (zz + chalf * ((chalf + chalf) * (pm + mp))); [ring|]. rewrite Hh, C.
    transitivity (zz + (chalf + chalf) * (mp + z)); [ring|]. rewrite Hh. ring.
  Qed.
  Lemma fmat_op_add (o a : fo) : exists D, (forall e, In e D -> small (snd e) = true) /\ forall r c, fmat (op_add fstr_eqb o a) r c + fmat D r c = fmat o r c + fmat a r c.
  Proof.
    exists (dropped (fold_left (op_add_string fstr_eqb) a o)). split; [intros e He; eapply dropped_small; exact He|].
    intros r c. rewrite !fmat_lin. unfold op_add. rewrite lin_clean. apply (lin_fold_add K _ _ fstr_eqb_spec').
  Qed.
  Lemma fmat_neg (a : fo) r c : fmat (op_neg a) r c = - fmat a r c.
  Proof. rewrite !fmat_lin. induction a as [|[k x] a IH]; cbn; [ring|]. cbn in IH. unfold op_neg in IH. rewrite IH. ring. Qed.
  Lemma total_spin_squared_spec spatial alpha beta N : (forall s, In s spatial -> (s < length alpha /\ s < length beta)%nat) -> good_pairs N (zip spatial alpha beta) ->
    NoDup (map fst (zip spatial alpha beta)) -> NoDup (map snd (zip spatial alpha beta)) ->
    exists R D, total_spin_squared (K := K) spatial alpha beta N = Some R /\ (forall e, In e D -> small (snd e) = true) /\
      meq N (madd (fmat R) (fmat D)) (S_squared N (zip spatial alpha beta)).
  Proof.
    intros H HG N1 N2. set (l := zip spatial alpha beta) in *.
    destruct (partial_projected_spin_spec K spatial alpha beta N H HG) as [Sz [Ez [Wz Mz]]].
    destruct (spin_plus_spec K spatial alpha beta N H HG) as [Sp [Ep [Wp Mp]]].
    destruct (spin_minus_spec K spatial alpha beta N H HG) as [Sm [Em [Wm Mm]]]. fold l in Mz, Mp, Mm.
    destruct (f_op_mul_spec K N Sp Sm Wp Wm) as [A [DA [EA [_ [SA MA]]]]]. destruct (f_op_mul_spec K N Sz Sz Wz Wz) as [B [DB [EB [_ [SB MB]]]]].
    destruct (fmat_op_add A B) as [D1 [S1 M1]]. destruct (fmat_op_add (op_add fstr_eqb A B) (op_neg Sz)) as [D2 [S2 M2]].
    exists (op_sub fstr_eqb (op_add fstr_eqb A B) Sz), (DA ++ DB ++ D1 ++ D2). split; [|split].
    - unfold total_spin_squared. rewrite Ez, Ep, Em, EA, EB. reflexivity.
    - intros e He. rewrite !in_app_iff in He. destruct He as [He|[He|[He|He]]]; auto.
    - apply meq_req. rewrite (S_squared_eq N l HG N1 N2). apply meq_req in Mz, Mp, Mm. rewrite <- Mz, <- Mp, <- Mm, <- MA, <- MB.
      intros r c Hr Hc. unfold madd, mscal. rewrite !fmat_app. unfold op_sub. specialize (M1 r c). specialize (M2 r c). rewrite fmat_neg in M2.
      transitivity ((fmat (op_add fstr_eqb (op_add fstr_eqb A B) (op_neg Sz)) r c + fmat D2 r c) + fmat D1 r c + fmat DA r c + fmat DB r c); [ring|]. rewrite M2.
      transitivity ((fmat (op_add fstr_eqb A B) r c + fmat D1 r c) - fmat Sz r c + fmat DA r c + fmat DB r c); [ring|]. rewrite M1. ring.
  Qed.
End HamProofs2.
