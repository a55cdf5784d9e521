(** Gram matrices: the blocks of a reduced density matrix are Hermitian and positive. *)
From Coq Require Import Bool List Arith Lia.
From Verif Require Import Coeff MatSpec MatLemmas FockSpec FermiProofs AdjProofs CircuitSpec CircuitProofs2 OpSpec PlanSpec PlanProofs2 InvModel HamSpec HamProofs HamProofs2 RdmModel RdmSpec RdmFock RdmProofs
  RdmObjModel RdmObjSpec RdmObjProofs1 RdmObjProofs7 AnaModel AnaSpec.
Import ListNotations.

Section Gram.
  Variable K : CoefRing.
  Add Ring KrAna : (c_ring K).
  Local Open Scope coef_scope.

  Lemma conj_over {A} (l : list A) (f : A -> K) : cconj (over l f) = over l (fun x => cconj (f x)).
  Proof. induction l as [|a l IH]; cbn [over fold_right]; [apply cconj_0|]. rewrite cconj_add. f_equal. exact IH. Qed.
  Lemma ov_scal {A} (l : list A) x (f : A -> K) : over l (fun i => x * f i) = x * over l f.
  Proof. exact (lsum_scal K l x f). Qed.
  Lemma ov_ext {A} (l : list A) (f g : A -> K) : (forall x, In x l -> f x = g x) -> over l f = over l g.
  Proof. exact (lsum_ext K l f g). Qed.
  Lemma ov_add {A} (l : list A) (f g : A -> K) : over l (fun i => f i + g i) = over l f + over l g.
  Proof. exact (lsum_add K l f g). Qed.
  Lemma ov_sumbits {A} N (l : list A) (f : A -> bits -> K) : over l (fun p => sumbits N (f p)) = sumbits N (fun b => over l (fun p => f p b)).
  Proof.
    induction l as [|a l IH]; cbn [over fold_right].
    - symmetry. apply sumbits_0.
    - rewrite sumbits_add. f_equal. exact IH.
  Qed.
  Lemma ov_swap {A B} (l : list A) (m : list B) (f : A -> B -> K) : over l (fun a => over m (f a)) = over m (fun b => over l (fun a => f a b)).
  Proof.
    induction l as [|a l IH]; cbn [over fold_right].
    - symmetry. exact (lsum_0 K m).
    - rewrite ov_add. f_equal. exact IH.
  Qed.

  (** The quadratic form of a Gram matrix is a squared norm. *)
  Lemma gram {A} N (phi : A -> bits -> K) (T : A -> A -> K) (P : list (A * K)) :
    (forall p q, In p P -> In q P -> T (fst p) (fst q) = sumbits N (fun b => cconj (phi (fst p) b) * phi (fst q) b)) ->
    over P (fun p => cconj (snd p) * over P (fun q => T (fst p) (fst q) * snd q)) = norm2 N (fun b => over P (fun q => snd q * phi (fst q) b)).
  Proof.
    intro HT. unfold norm2. transitivity (sumbits N (fun b => over P (fun p => over P (fun q => cconj (snd p * phi (fst p) b) * (snd q * phi (fst q) b))))).
    - rewrite <- ov_sumbits. apply ov_ext. intros p Hp. rewrite <- ov_sumbits, <- ov_scal. apply ov_ext. intros q Hq. rewrite HT by assumption.
      transitivity (cconj (snd p) * snd q * sumbits N (fun b => cconj (phi (fst p) b) * phi (fst q) b)); [ring|].
      rewrite <- sumbits_scal. apply sumbits_ext. intros b _. rewrite cconj_mul. ring.
    - apply sumbits_ext. intros b _. rewrite conj_over.
      transitivity (over P (fun p => over P (fun q => snd q * phi (fst q) b) * cconj (snd p * phi (fst p) b))).
      + apply ov_ext. intros p _. rewrite ov_scal. ring.
      + rewrite ov_scal. ring.
  Qed.

  Definition anns (J : list nat) : list (fop * nat) := map (fun i => (Ann, i)) (rev J).
  Lemma anns_adj I : rev (map cadj (anns I)) = map (fun i => (Cre, i)) I.
  Proof. unfold anns. rewrite map_map, <- map_rev, rev_involutive. reflexivity. Qed.
  Lemma rdm_gram R psi I J : rdm_of R psi I J = sumbits R (fun b => cconj (mvec R (@fock_mat K (anns I)) psi b) * mvec R (fock_mat (anns J)) psi b).
  Proof.
    rewrite <- CircuitProofs2.expect_adj. unfold rdm_of, rdm_letters. apply expect_ext. eapply meq_trans; [apply fock_mat_app|].
    apply mmul_meq; [|apply meq_refl]. rewrite <- anns_adj. apply fock_mat_adj.
  Qed.
  (** Holes. *)
  Lemma hole_gram R psi i j : (i < R)%nat -> (j < R)%nat ->
    rdm_of R psi [i] [j] = delta K i j * norm2 R psi - sumbits R (fun b => cconj (mvec R (@fock_mat K [(Cre, j)]) psi b) * mvec R (fock_mat [(Cre, i)]) psi b).
  Proof.
    intros Hi Hj. rewrite <- CircuitProofs2.expect_adj.
    assert (E : expect R (mmul R (madj (@fock_mat K [(Cre, j)])) (fock_mat [(Cre, i)])) psi = delta K j i * norm2 R psi - rdm_of R psi [i] [j]).
    { unfold rdm_of, rdm_letters. cbn [map rev app]. rewrite <- (expect_mone K R psi).
      transitivity (expect R (madd (mscal (delta K j i) mone) (mscal (- (1)) (fock_mat [(Cre, i); (Ann, j)]))) psi).
      - apply expect_ext. eapply meq_trans; [apply mmul_meq; [apply meq_sym; apply (fock_mat1_adj K Cre j R)|apply meq_refl]|]. cbn [fadj].
        eapply meq_trans; [apply meq_sym; apply (fock_mat_app K R [(Ann, j)] [(Cre, i)])|]. intros x y Hx Hy. cbn [app].
        transitivity (delta K j i * fock_mat [] x y - fock_mat [(Cre, i); (Ann, j)] x y); [exact (car_word K R [] j i [] x y Hy Hj)|]. unfold madd, mscal. rewrite (fock_mat_nil K R x y Hx Hy). ring.
      - rewrite expect_madd, !expect_scal. ring. }
    rewrite E. unfold delta. rewrite (Nat.eqb_sym j i). destruct (Nat.eqb i j); ring.
  Qed.

  Lemma dot_pairs {A} (f : A -> K) (P : list (A * K)) : dotp (map f (map fst P)) (map snd P) = over P (fun q => f (fst q) * snd q).
  Proof. induction P as [|p P IH]; [reflexivity|]. cbn [map dotp over fold_right]. f_equal. exact IH. Qed.
  Lemma over_delta (P : list (nat * K)) i : NoDup (map fst P) -> forall x, In (i, x) P -> over P (fun q => delta K i (fst q) * snd q) = x.
  Proof.
    induction P as [|[j y] P IH]; intros ND x H; [destruct H|]. cbn [map fst] in ND. apply NoDup_cons_iff in ND. destruct ND as [N1 N2].
    change (delta K i j * y + over P (fun q => delta K i (fst q) * snd q) = x). destruct H as [H|H].
    - injection H as -> ->. unfold delta at 1. rewrite Nat.eqb_refl.
      assert (Z : over P (fun q => delta K i (fst q) * snd q) = 0).
      { transitivity (over P (fun _ => (0 : K))); [|exact (lsum_0 K P)]. apply ov_ext. intros [k z] Hk. unfold delta. cbn [fst snd].
        destruct (Nat.eqb_spec i k) as [<-|_]; [|ring]. exfalso. apply N1. apply in_map_iff. exists (i, z). split; [reflexivity|exact Hk]. }
      rewrite Z. ring.
    - rewrite (IH N2 x H). unfold delta. destruct (Nat.eqb_spec i j) as [<-|_]; [|ring]. exfalso. apply N1. apply in_map_iff. exists (i, x). split; [reflexivity|exact H].
  Qed.

  (** ** The blocks *)
  Lemma all_some_map {A B} (f : A -> option B) (g : A -> B) l : (forall x, In x l -> f x = Some (g x)) -> all_some (map f l) = Some (map g l).
  Proof. induction l as [|a l IH]; intro H; [reflexivity|]. cbn [map all_some]. rewrite (H a (or_introl eq_refl)), IH; [reflexivity|]. intros x Hx. apply H. right. exact Hx. Qed.
  Lemma block_matrix (t : list nat -> option K) B T : (forall I J, In I B -> In J B -> t (I ++ J) = Some (T I J)) -> block t B = Some (matrix_of B T).
  Proof. intro H. unfold block, matrix_of. apply all_some_map. intros I HI. apply all_some_map. intros J HJ. now apply H. Qed.
  Lemma matrix_ext B (T T' : list nat -> list nat -> K) : (forall I J, In I B -> In J B -> T I J = T' I J) -> matrix_of B T = matrix_of B T'.
  Proof. intro H. unfold matrix_of. apply map_ext_in. intros I HI. apply map_ext_in. intros J HJ. now apply H. Qed.
  Lemma matrix_herm B (T : list nat -> list nat -> K) : (forall I J, T J I = cconj (T I J)) -> hermitian_matrix (matrix_of B T).
  Proof.
    intro H. unfold hermitian_matrix, matrix_of. split.
    - intros row Hr. apply in_map_iff in Hr. destruct Hr as [I [<- _]]. now rewrite !map_length.
    - intros i j Hi Hj. rewrite map_length in Hi, Hj.
      rewrite (nth_indep _ [] (map (fun J => T [] J) B)) by (rewrite map_length; exact Hi). rewrite (nth_indep _ [] (map (fun J => T [] J) B)) by (rewrite map_length; exact Hj).
      rewrite !(map_nth (fun I => map (fun J => T I J) B)). rewrite (nth_indep _ 0 (T (nth i B []) [])) by (rewrite map_length; exact Hj). rewrite (map_nth (fun J => T (nth i B []) J)).
      rewrite (nth_indep _ 0 (T (nth j B []) [])) by (rewrite map_length; exact Hi). rewrite (map_nth (fun J => T (nth j B []) J)). apply H.
  Qed.

  Lemma NoDup_flat {A B} (f : A -> list B) l : NoDup l -> (forall a, In a l -> NoDup (f a)) -> (forall a a' b, In b (f a) -> In b (f a') -> a = a') -> NoDup (flat_map f l).
  Proof.
    intros ND Hf Hd. induction l as [|a l IH]; [constructor|]. cbn [flat_map]. apply NoDup_cons_iff in ND. destruct ND as [N1 N2].
    assert (X : forall m m' : list B, NoDup m -> NoDup m' -> (forall b, In b m -> ~ In b m') -> NoDup (m ++ m')).
    { induction m as [|b m IHm]; intros m' M1 M2 M3; [exact M2|]. cbn [app]. apply NoDup_cons_iff in M1. destruct M1 as [M0 M1]. constructor.
      - rewrite in_app_iff. intros [Hb|Hb]; [exact (M0 Hb)|exact (M3 b (or_introl eq_refl) Hb)].
      - apply IHm; [exact M1|exact M2|]. intros b' Hb'. apply M3. right. exact Hb'. }
    apply X.
    - apply Hf. left. reflexivity.
    - apply IH; [exact N2|]. intros a' Ha'. apply Hf. right. exact Ha'.
    - intros b Hb Hb'. apply in_flat_map in Hb'. destruct Hb' as [a' [Ha' Hb']]. rewrite (Hd a a' b Hb Hb') in N1. exact (N1 Ha').
  Qed.
  Lemma NoDup_pair i l : NoDup l -> NoDup (map (fun j : nat => [i; j]) l).
  Proof. intro H. apply FinFun.Injective_map_NoDup; [|exact H]. intros x y E. injection E as E. exact E. Qed.
  Lemma up_pairs_spec l : NoDup l -> pairs_within l (up_pairs l).
  Proof.
    intro ND. unfold up_pairs. split.
    - apply NoDup_flat; [exact ND| |].
      + intros a _. apply NoDup_pair, NoDup_filter, ND.
      + intros a a' b Hb Hb'. apply in_map_iff in Hb, Hb'. destruct Hb as [x [<- _]]. destruct Hb' as [y [E _]]. injection E as E _. now symmetry.
    - intro p. rewrite in_flat_map. split.
      + intros [i [Hi Hp]]. apply in_map_iff in Hp. destruct Hp as [j [<- Hj]]. apply filter_In in Hj. destruct Hj as [Hj L]. apply Nat.ltb_lt in L. exists i, j. auto.
      + intros [i [j [-> [Hi [Hj L]]]]]. exists i. split; [exact Hi|]. apply in_map_iff. exists j. split; [reflexivity|]. apply filter_In. split; [exact Hj|]. now apply Nat.ltb_lt.
  Qed.
  Lemma mixed_pairs_spec a b : NoDup a -> NoDup b -> pairs_between a b (mixed_pairs a b).
  Proof.
    intros NA NB. unfold mixed_pairs. split.
    - apply NoDup_flat; [exact NA| |].
      + intros x _. now apply NoDup_pair.
      + intros x x' p Hb Hb'. apply in_map_iff in Hb, Hb'. destruct Hb as [y [<- _]]. destruct Hb' as [z [E _]]. injection E as E _. now symmetry.
    - intro p. rewrite in_flat_map. split.
      + intros [i [Hi Hp]]. apply in_map_iff in Hp. destruct Hp as [j [<- Hj]]. exists i, j. auto.
      + intros [i [j [-> [Hi Hj]]]]. exists i. split; [exact Hi|]. apply in_map_iff. exists j. split; [reflexivity|exact Hj].
  Qed.

  Lemma pad_square n (M : list (list K)) : length M = n -> pad n M = Some M.
  Proof.
    intro L. unfold pad. rewrite L, Nat.ltb_irrefl, Nat.sub_diag. cbn [repeat]. rewrite app_nil_r. f_equal.
    transitivity (map (fun x : list K => x) M); [apply map_ext; intro; apply app_nil_r|apply map_id].
  Qed.

  Section Object.
    Variable E : Type.
    Variable eig : list (list K) -> E.
    Variables (o : rdm K) (w : K) (psi : bits -> K).
    Let r := (length (alp o) + length (bet o))%nat.
    Hypothesis H2 : ord o = 2%nat.
    Hypothesis HN : (2 <= ne o)%nat.
    Hypothesis Hw : ofnat (ne o - 1) * w = 1.
    Hypothesis Hp : has_particles r (ne o) psi.
    Hypothesis HL : length (bet o) = length (alp o).
    Hypothesis Hin : forall x, In x (alp o ++ bet o) -> (x < r)%nat.
    Hypothesis ST : stores r 2 (arr o) (rdm_of r psi).

    Lemma analysis_run : exists o', ord o' = 2%nat /\ alp o' = alp o /\ bet o' = bet o /\ ne o' = ne o /\ stores_tensor r 2 (arr o') (rdm_of r psi) /\
      analysis eig w o = Some (o', Some (eig (matrix_of (up_pairs (alp o)) (rdm_of r psi)), eig (matrix_of (up_pairs (bet o)) (rdm_of r psi)),
        eig (matrix_of (mixed_pairs (alp o) (bet o)) (rdm_of r psi)), eig (matrix_of (singles (alp o)) (rdm_of r psi)), eig (matrix_of (singles (bet o)) (rdm_of r psi)))).
    Proof.
      assert (W : wf K o (rdm_of r psi)) by (unfold wf; rewrite H2; exact ST).
      destruct (expand_spec K o (rdm_of r psi) W) as [o' [Ee [Eo [Ea [Eb [En S]]]]]]. unfold so in S. fold r in S. rewrite H2 in S, Eo.
      exists o'. repeat (split; [assumption|]). unfold analysis. rewrite Ee, Eo, Ea, Eb.
      destruct S as [Sh S].
      assert (SO : so o' = r) by (unfold so; rewrite Ea, Eb; reflexivity).
      assert (G : forall B, (forall I, In I B -> orbital_list r 2 I) -> block (get (arr o')) B = Some (matrix_of B (rdm_of r psi))).
      { intros B HB. apply block_matrix. intros I J HI HJ. apply S; now apply HB. }
      assert (O2 : forall i j, In i (alp o ++ bet o) -> In j (alp o ++ bet o) -> orbital_list r 2 [i; j]).
      { intros i j Hi Hj. split; [reflexivity|]. constructor; [now apply Hin|]. constructor; [now apply Hin|]. constructor. }
      assert (U : forall l, (forall x, In x l -> In x (alp o ++ bet o)) -> forall I, In I (up_pairs l) -> orbital_list r 2 I).
      { intros l Hl I HI. unfold up_pairs in HI. apply in_flat_map in HI. destruct HI as [i [Hi HI]]. apply in_map_iff in HI. destruct HI as [j [<- Hj]]. apply filter_In in Hj. apply O2; apply Hl; tauto. }
      assert (La : forall x, In x (alp o) -> In x (alp o ++ bet o)) by (intros; apply in_app_iff; now left).
      assert (Lb : forall x, In x (bet o) -> In x (alp o ++ bet o)) by (intros; apply in_app_iff; now right).
      rewrite !G; [|exact (U _ Lb)| |exact (U _ La)].
      2:{ intros I HI. unfold mixed_pairs in HI. apply in_flat_map in HI. destruct HI as [i [Hi HI]]. apply in_map_iff in HI. destruct HI as [j [<- Hj]]. apply O2; auto. }
      assert (V : forall l, (forall x, In x l -> In x (alp o ++ bet o)) -> block (rdm1_ w o') (singles l) = Some (matrix_of (singles l) (rdm_of r psi))).
      { intros l Hl. apply block_matrix. intros I J HI HJ. unfold singles in HI, HJ. apply in_map_iff in HI, HJ. destruct HI as [i [<- Hi]]. destruct HJ as [j [<- Hj]].
        assert (Li : (i < r)%nat) by (apply Hin; auto). assert (Lj : (j < r)%nat) by (apply Hin; auto).
        cbn [app rdm1_]. rewrite SO. rewrite (proj2 (Nat.ltb_lt i r) Li), (proj2 (Nat.ltb_lt j r) Lj). cbn [andb]. f_equal.
        rewrite <- (reduce2 K r (ne o) w (fun ix => match ix with [i; k; j; l] => rdm_of r psi [i; k] [j; l] | _ => 0 end) psi HN Hp Hw (fun _ _ _ _ => eq_refl) i j).
        cbn [reduce_order]. f_equal. apply sum_range_ext. intros x Hx.
assert (Q : get (arr o') [i; x; j; x] = Some (rdm_of r psi [i; x] [j; x])) by (apply (S [i; x] [j; x]); (split; [reflexivity|repeat constructor; assumption])).
        rewrite Q. reflexivity. }
      rewrite (V _ La), (V _ Lb). rewrite pad_square; [reflexivity|]. unfold matrix_of, singles. now rewrite !map_length.
    Qed.
  End Object.

  (** More beta than alpha orbitals. *)
  Lemma all_some_length {A} (l : list (option A)) m : all_some l = Some m -> length m = length l.
  Proof.
    revert m. induction l as [|[a|] l IH]; intros m; cbn [all_some]; intro H; try discriminate; [injection H as <-; reflexivity|].
    destruct (all_some l) as [m'|]; [|discriminate]. injection H as <-. cbn [length]. now rewrite (IH m' eq_refl).
  Qed.
  Lemma analysis_more_beta E (eig : list (list K) -> E) w (o : rdm K) : (ord o = 1 \/ ord o = 2)%nat -> (length (alp o) < length (bet o))%nat -> analysis eig w o = None.
  Proof.
    intros Ho L. unfold analysis. destruct (expand o) as [o1|] eqn:X; [|reflexivity].
    assert (Q : ord o1 = ord o /\ alp o1 = alp o /\ bet o1 = bet o).
    { unfold expand in X. destruct (Nat.eqb (ord o) 1); [injection X as <-; auto|]. destruct (reshape _ _) as [a|]; [|discriminate]. injection X as <-. auto. }
    destruct Q as [Q1 [Q2 Q3]]. rewrite Q1, Q2, Q3.
    assert (Z : forall t, match block t (singles (bet o)) with Some M => pad (length (alp o)) M | None => None end = (None : option (list (list K)))).
    { intro t. destruct (block t (singles (bet o))) as [M|] eqn:B; [|reflexivity]. unfold block in B. apply all_some_length in B. unfold singles in B. rewrite !map_length in B.
      unfold pad. rewrite B, (proj2 (Nat.ltb_lt _ _) L). reflexivity. }
    destruct Ho as [-> | ->]; rewrite Z.
    - now destruct (block (get (arr o1)) (singles (alp o))).
    - destruct (block _ (up_pairs (alp o))); [|reflexivity]. destruct (block _ (mixed_pairs _ _)); [|reflexivity]. destruct (block _ (up_pairs (bet o))); [|reflexivity]. now destruct (block _ (singles (alp o))).
  Qed.
End Gram.
