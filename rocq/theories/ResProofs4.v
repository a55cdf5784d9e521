(** The vector form of the residual and the operator built from it. *)
From Coq Require Import Bool List Arith Lia Permutation Sorted.
From Verif Require Import Coeff MatSpec MatLemmas FockSpec OpSpec FermiModel FermiProofs AdjProofs OperatorModel InvSpec
  CircuitSpec RdmSpec RdmModel RdmFock RdmProofs TaperSpec TaperProofs TaperProofs2 InvModel InvProofs HamModel HamSpec HamProofs HamProofs2 HamProofs3 HamProofs4
  ResSpec ResModel ResProofs ResProofs2 ResProofs3.
Import ListNotations.

Definition pr (R : nat) : list (nat * nat) := filter (fun u => fst u <? snd u) (list_prod (seq 0 R) (seq 0 R)).
Lemma pr_In R u : In u (pr R) <-> fst u < snd u /\ snd u < R.
Proof.
  unfold pr. rewrite filter_In. destruct u as [a b]. rewrite in_prod_iff, !in_seq. cbn [fst snd]. rewrite Nat.ltb_lt. split; [lia|]. intro. repeat split; lia.
Qed.
Lemma NoDup_list_prod {A B} (l : list A) (m : list B) : NoDup l -> NoDup m -> NoDup (list_prod l m).
Proof.
  intros Hl Hm. induction Hl as [|x l Hx Hl IH]; [constructor|]. cbn [list_prod].
  assert (G : forall l1 l2 : list (A * B), NoDup l1 -> NoDup l2 -> (forall z, In z l1 -> ~ In z l2) -> NoDup (l1 ++ l2)).
  { induction l1 as [|z l1 IH1]; intros l2 H1 H2 D; [exact H2|]. inversion H1; subst. cbn [app]. constructor.
    - intro I. apply in_app_or in I. destruct I as [I|I]; [contradiction|]. exact (D z (or_introl eq_refl) I).
    - apply IH1; [assumption|assumption|]. intros y Hy. apply D. now right. }
  apply G; [|exact IH|].
  - apply FinFun.Injective_map_NoDup; [|exact Hm]. intros a b E. now injection E.
  - intros [a b] H1 H2. apply in_map_iff in H1. destruct H1 as [y [E _]]. injection E. intros; subst. apply in_prod_iff in H2. tauto.
Qed.
Lemma pr_NoDup R : NoDup (pr R).
Proof. apply NoDup_filter, NoDup_list_prod; apply seq_NoDup. Qed.
(** The creators and annihilators of a listed element of order 2. *)
Definition ends (x : list nat) : (nat * nat) * (nat * nat) :=
  match x with [i; k; l; j] => ((i, k), (j, l)) | _ => ((0, 0), (0, 0)) end.
Definition flip_ends (e : (nat * nat) * (nat * nat)) := (snd e, fst e).
Lemma element2 n c a : element 2 n c a -> exists i k j l, c = [i; k] /\ a = [j; l] /\ i < k /\ j < l /\ k < 2 * n /\ l < 2 * n /\ up_count n [i; k] = up_count n [j; l].
Proof.
  intros [Sc [Sa [Lc [La [Fc [Fa U]]]]]]. destruct c as [|i [|k [|? ?]]]; try discriminate. destruct a as [|j [|l [|? ?]]]; try discriminate.
  exists i, k, j, l. inversion Sc; subst. inversion Sa; subst. inversion Fc; subst. inversion Fa; subst. inversion H2; subst. inversion H4; subst. inversion H6; subst. inversion H8; subst.
  repeat split; assumption.
Qed.
Lemma element2_intro n i k j l : i < k -> j < l -> k < 2 * n -> l < 2 * n -> up_count n [i; k] = up_count n [j; l] -> element 2 n [i; k] [j; l].
Proof. intros. repeat split; try assumption; repeat constructor; lia. Qed.

Section ResProofs4.
  Variable K : CoefRing.
  Add Ring KRing : (c_ring K).
  Local Open Scope coef_scope.
  Notation tensor4 := (nat -> nat -> nat -> nat -> K).

  (** ** Sums over ordered pairs *)
  Lemma half_sum R (h : nat -> nat -> K) : (forall i k, h i k = h k i) -> (forall i, h i i = 0) ->
    upto R (fun i => upto R (fun k => h i k)) = (1 + 1) * over (pr R) (fun u => h (fst u) (snd u)).
  Proof.
    intros Hs Hd. unfold pr. rewrite over_filter, over_prod. cbn [fst snd].
    change (upto R (fun i => upto R (fun k => h i k)) = (1 + 1) * upto R (fun i => upto R (fun k => if i <? k then h i k else 0))).
    transitivity (upto R (fun i => upto R (fun k => if i <? k then h i k else 0)) + upto R (fun i => upto R (fun k => if k <? i then h i k else 0))).
    { rewrite <- upto_add. apply upto_ext. intros i _. rewrite <- upto_add. apply upto_ext. intros k _.
      destruct (Nat.ltb_spec i k), (Nat.ltb_spec k i); try ring; [lia|]. replace k with i by lia. rewrite Hd. ring. }
    rewrite (upto_swap K R R (fun i k => if k <? i then h i k else 0)).
    rewrite (upto_ext K R (fun j => upto R (fun i => if j <? i then h i j else 0)) (fun i => upto R (fun k => if i <? k then h i k else 0))).
    - ring.
    - intros i _. apply upto_ext. intros k _. now rewrite (Hs k i).
  Qed.
  Lemma quarter_sum R (g : tensor4) : (forall i k j l, g k i j l = g i k j l) -> (forall i k j l, g i k l j = g i k j l) ->
    (forall i j l, g i i j l = 0) -> (forall i k j, g i k j j = 0) ->
    S4 K R g = (1 + 1 + 1 + 1) * over (list_prod (pr R) (pr R)) (fun e => g (fst (fst e)) (snd (fst e)) (fst (snd e)) (snd (snd e))).
  Proof.
    intros Hc Ha Hcd Had. rewrite over_prod. cbn [fst snd].
    transitivity (upto R (fun i => upto R (fun k => (1 + 1) * over (pr R) (fun v => g i k (fst v) (snd v))))).
    { unfold S4. apply upto_ext. intros i _. apply upto_ext. intros k _. apply (half_sum R (fun j l => g i k j l)); [intros; apply Ha|intro; apply Had]. }
    rewrite (half_sum R (fun i k => (1 + 1) * over (pr R) (fun v => g i k (fst v) (snd v)))).
    - rewrite over_scal. ring.
    - intros i k. f_equal. apply over_ext. intros v _. symmetry. apply Hc.
    - intro i. rewrite (over_ext K (pr R) _ (fun _ => 0)) by (intros; apply Hcd). rewrite over_0. ring.
  Qed.

  (** ** Sums over the listed elements *)
  Lemma listed_sum n L (g : (nat * nat) * (nat * nat) -> K) : one_of_each 2 n L ->
    (forall u, g (u, u) = 0) -> (forall i k j l, (i < 2 * n)%nat -> (k < 2 * n)%nat -> (j < 2 * n)%nat -> (l < 2 * n)%nat -> up_count n [i; k] <> up_count n [j; l] -> g ((i, k), (j, l)) = 0) ->
    over (list_prod (pr (2 * n)) (pr (2 * n))) g = over L (fun x => g (ends x) + g (flip_ends (ends x))).
  Proof.
    intros [H1 [H2 [H3 H4]]] Hd Hs.
    pose (off := fun e : (nat * nat) * (nat * nat) => negb (Nat.eqb (fst (fst e)) (fst (snd e)) && Nat.eqb (snd (fst e)) (snd (snd e)))).
    pose (sp := fun e : (nat * nat) * (nat * nat) => Nat.eqb (up_count n [fst (fst e); snd (fst e)]) (up_count n [fst (snd e); snd (snd e)])).
    assert (Hoff : forall e, off e = false -> fst e = snd e).
    { intros [[i k] [j l]] H. unfold off in H. cbn [fst snd] in *. apply negb_false_iff, andb_true_iff in H. destruct H as [A B]. apply Nat.eqb_eq in A, B. now subst. }
    assert (Hoff' : forall e, off e = true -> fst e <> snd e).
    { intros [[i k] [j l]] H E. unfold off in H. cbn [fst snd] in *. injection E. intros; subst. rewrite !Nat.eqb_refl in H. discriminate. }
    transitivity (over (filter (fun e => off e && sp e) (list_prod (pr (2 * n)) (pr (2 * n)))) g).
    { rewrite over_filter. apply over_ext. intros [u v] Huv. apply in_prod_iff in Huv. rewrite !pr_In in Huv. destruct (off (u, v)) eqn:O1; cbn [andb].
      - destruct (sp (u, v)) eqn:S1; [reflexivity|]. destruct u as [i k], v as [j l]. cbn [fst snd] in Huv. apply Hs; try lia. unfold sp in S1. cbn [fst snd] in S1. now apply Nat.eqb_neq.
      - apply Hoff in O1. cbn [fst snd] in O1. subst. apply Hd. }
    pose (L' := filter (fun x => off (ends x)) L).
    transitivity (over (map ends L' ++ map (fun x => flip_ends (ends x)) L') g).
    2:{ rewrite over_app, !over_map, <- over_add. unfold L'. rewrite over_filter. apply over_ext. intros x _. destruct (off (ends x)) eqn:O1; [reflexivity|].
        apply Hoff in O1. unfold flip_ends. destruct (ends x) as [u v]. cbn [fst snd] in *. subst. rewrite !Hd. ring. }
    apply over_perm. apply NoDup_Permutation.
    - apply NoDup_filter, NoDup_list_prod; apply pr_NoDup.
    - assert (G : forall l1 l2 : list ((nat * nat) * (nat * nat)), NoDup l1 -> NoDup l2 -> (forall z, In z l1 -> ~ In z l2) -> NoDup (l1 ++ l2)).
      { induction l1 as [|z l1 IH1]; intros l2 N1 N2 D; [exact N2|]. inversion N1; subst. cbn [app]. constructor.
        - intro I. apply in_app_or in I. destruct I as [I|I]; [contradiction|]. exact (D z (or_introl eq_refl) I).
        - apply IH1; [assumption|assumption|]. intros y Hy. apply D. now right. }
      assert (NL : NoDup L') by (apply NoDup_filter; exact H3).
      assert (inj : forall x y, In x L' -> In y L' -> ends x = ends y -> x = y).
      { intros x y Hx Hy E. apply filter_In in Hx, Hy. destruct (H2 x (proj1 Hx)) as [c [a [El ->]]]. destruct (H2 y (proj1 Hy)) as [c' [a' [El' ->]]].
        destruct (element2 n c a El) as [i [k [j [l [-> [-> _]]]]]]. destruct (element2 n c' a' El') as [i' [k' [j' [l' [-> [-> _]]]]]].
        cbn in E. injection E. intros; subst. reflexivity. }
      assert (ND : forall (f : list nat -> (nat * nat) * (nat * nat)) M, NoDup M -> (forall x y, In x M -> In y M -> f x = f y -> x = y) -> NoDup (map f M)).
      { intros f M HM. induction HM as [|x M Hx HM IH]; intro I; [constructor|]. cbn [map]. constructor.
        - intro J. apply in_map_iff in J. destruct J as [y [E Hy]]. apply Hx. rewrite (I x y (or_introl eq_refl) (or_intror Hy) (eq_sym E)). exact Hy.
        - apply IH. intros a b Ha Hb. apply I; now right. }
      apply G.
      + apply ND; assumption.
      + apply ND; [exact NL|]. intros x y Hx Hy E. apply inj; [exact Hx|exact Hy|]. unfold flip_ends in E. destruct (ends x), (ends y). cbn [fst snd] in E. congruence.
      + intros z Hz1 Hz2. apply in_map_iff in Hz1, Hz2. destruct Hz1 as [x [Ex Hx]]. destruct Hz2 as [y [Ey Hy]]. apply filter_In in Hx, Hy.
        destruct (H2 x (proj1 Hx)) as [c [a [El ->]]]. destruct (H2 y (proj1 Hy)) as [c' [a' [El' ->]]].
        destruct Hx as [Hx Ox]. destruct Hy as [Hy Oy].
        destruct (element2 n c a El) as [i [k [j [l [-> [-> _]]]]]]. destruct (element2 n c' a' El') as [i' [k' [j' [l' [-> [-> _]]]]]].
        cbn in Ex, Ey. subst z. injection Ey. intros; subst.
        assert (Z := H4 [i; k] [j; l] El Hx Hy). apply Hoff' in Ox. apply Ox. cbn. congruence.
    - intros [u v]. rewrite filter_In, in_prod_iff, in_app_iff, !in_map_iff. split.
      + intros [[Hu Hv] Hb]. apply pr_In in Hu, Hv. apply andb_true_iff in Hb. destruct Hb as [Ho Hsp]. destruct u as [i k], v as [j l]. cbn [fst snd] in *.
        apply Nat.eqb_eq in Hsp. cbn [fst snd] in Hsp.
        assert (El : element 2 n [i; k] [j; l]) by (apply element2_intro; tauto). 
        destruct (H1 _ _ El) as [I|I].
        * left. exists (listed [i; k] [j; l]). split; [reflexivity|]. apply filter_In. split; [exact I|exact Ho].
        * right. exists (listed [j; l] [i; k]). split; [reflexivity|]. apply filter_In. split; [exact I|]. unfold off in *. cbn in *. rewrite (Nat.eqb_sym j i), (Nat.eqb_sym l k). exact Ho.
      + intros [[x [E Hx]]|[x [E Hx]]]; apply filter_In in Hx; destruct Hx as [Hx Ho]; destruct (H2 x Hx) as [c [a [El ->]]];
          destruct (element2 n c a El) as [i [k [j [l [-> [-> [Hik [Hjl [Hk [Hl U]]]]]]]]]]; cbn in E; unfold flip_ends in E; cbn [fst snd] in E; injection E; intros; subst u v.
        * split; [split; apply pr_In; cbn [fst snd]; lia|]. apply andb_true_iff. split; [exact Ho|]. unfold sp. cbn [fst snd]. now apply Nat.eqb_eq.
        * split; [split; apply pr_In; cbn [fst snd]; lia|]. apply andb_true_iff. split; [|unfold sp; cbn [fst snd]; apply Nat.eqb_eq; now symmetry].
          unfold off in *. cbn in *. rewrite (Nat.eqb_sym j i), (Nat.eqb_sym l k). exact Ho.
  Qed.

  (** ** The operator of the vector *)
  Lemma exc_swap_ann i k j l x y : @excitation K i k l j x y = - excitation i k j l x y.
  Proof. unfold excitation. apply (word_swap K Ann x [(Cre, i); (Cre, k)] j l [] y). auto. Qed.
  Lemma exc_swap_cre i k j l x y : @excitation K k i j l x y = - excitation i k j l x y.
  Proof. unfold excitation. apply (word_swap K Cre x [] k i [(Ann, l); (Ann, j)] y). auto. Qed.
  Lemma vector_spec drop n N (L : list (list nat)) (v : list nat -> K) : (2 * n <= N)%nat ->
    (forall x, In x L -> exists c a, element 2 n c a /\ x = listed c a) ->
    exists o, vector_to_operator drop N (map (fun x => (x, v x)) L) = Some o /\ fwf K N o /\
      forall x y, fmat o x y = over L (fun z => (if drop (v z) then 0 else (1 + 1 + 1 + 1) * v z) *
         - excitation (fst (fst (ends z))) (snd (fst (ends z))) (fst (snd (ends z))) (snd (snd (ends z))) x y).
  Proof.
    intros HN HL. unfold vector_to_operator, vector_terms.
    pose (wd := fun e : list nat * K => let '((i, k), (j, l)) := ends (fst e) in ((1 + 1 + 1 + 1) * snd e, [(Cre, i); (Cre, k); (Ann, j); (Ann, l)])).
    rewrite (all_some_total _ _ _ wd).
    2:{ intros [z u] Hz. apply filter_In in Hz. destruct Hz as [Hz _]. apply in_map_iff in Hz. destruct Hz as [z' [E Hz]]. injection E. intros; subst z' u. destruct (HL z Hz) as [c [a [El ->]]].
        destruct (element2 n c a El) as [i [k [j [l [-> [-> _]]]]]]. reflexivity. }
    match goal with |- exists o, add_strings N ?l [] = _ /\ _ => destruct (add_strings_spec K N l []) as [o [E [W M]]] end.
    - intros e [].
    - intros e He x Hx. apply in_map_iff in He. destruct He as [[z u] [<- He]]. apply filter_In in He. destruct He as [He _]. apply in_map_iff in He. destruct He as [z' [E Hz]]. injection E. intros; subst z' u.
      destruct (HL z Hz) as [c [a [El ->]]]. destruct (element2 n c a El) as [i [k [j [l [-> [-> [Hik [Hjl [Hk [Hl U]]]]]]]]]]. cbn in Hx. destruct Hx as [<-|[<-|[<-|[<-|[]]]]]; cbn [snd]; lia.
    - exists o. split; [exact E|]. split; [exact W|]. intros x y. rewrite M, over_map, over_filter, over_map. cbn [fmat]. unfold mzero. match goal with |- 0 + ?a = _ => transitivity a; [ring|] end.
      apply over_ext. intros z Hz. destruct (HL z Hz) as [c [a [El ->]]]. destruct (element2 n c a El) as [i [k [j [l [-> [-> _]]]]]]. cbn [listed app rev ends wd fst snd].
      destruct (drop _); cbn [negb]; [ring|]. rewrite <- exc_swap_ann. unfold excitation. ring.
  Qed.

  (** Spin conservation. *)
  Lemma rw_spin n nu R (psi : bits -> K) c a : has_up R n nu psi -> up_count n c <> up_count n a -> rw K R psi (rdm_letters c a) = 0.
  Proof.
    intros H D. unfold rw, ew. change (expect R (fock_mat (rdm_letters c a)) psi) with (rdm_of R psi c a).
    rewrite (rdm_selection K R psi (fun x => x <? n) nu c a); [apply re_0| |exact D].
    intros x Hx Hc. apply H; [exact Hx|]. rewrite (popcount_firstn n x 0). exact Hc.
  Qed.
  Theorem residual_spin n nu R (V : tensor4) (psi : bits -> K) i k j l : real_symmetric V -> has_up R n nu psi ->
    (forall p q s t, up_count n [p; q] <> up_count n [s; t] -> V p q s t = 0) ->
    (i < R)%nat -> (k < R)%nat -> (j < R)%nat -> (l < R)%nat -> up_count n [i; k] <> up_count n [j; l] -> residual_of R V psi i k j l = 0.
  Proof.
    intros HV HU HS Hi Hk Hj Hl D. rewrite (residual_value K R psi V i k j l HV Hi Hk Hj Hl).
    assert (uc : forall x m, up_count n (x :: m) = ((if x <? n then 1 else 0) + up_count n m)%nat) by (intros x m; unfold up_count; cbn [filter]; destruct (x <? n); reflexivity).
    assert (W0 : forall p q s t, up_count n [p; q] <> up_count n [s; t] -> antisymmetrised V p q s t = 0).
    { intros p q s t H. unfold antisymmetrised. rewrite (HS p q s t H), (HS p q t s); [ring|]. rewrite !uc in *. lia. }
    assert (Z2 : forall f : nat -> nat -> K, (forall a b, f a b = 0) -> S2 K R f = 0).
    { intros f H. unfold S2. rewrite (upto_ext K R _ (fun _ => 0)); [apply over_0|]. intros. rewrite (upto_ext K R _ (fun _ => 0)); [apply over_0|]. intros. apply H. }
    assert (Z3 : forall f : nat -> nat -> nat -> K, (forall a b c, f a b c = 0) -> S3 K R f = 0).
    { intros f H. unfold S3. rewrite (upto_ext K R _ (fun _ => 0)); [apply over_0|]. intros. apply Z2. intros. apply H. }
    assert (dec : forall c a c' a' (x y : K), (up_count n c <> up_count n a -> x = 0) -> (up_count n c' <> up_count n a' -> y = 0) ->
      (up_count n c <> up_count n a \/ up_count n c' <> up_count n a') -> x * y = 0).
    { intros c a c' a' x y Hx Hy [H|H]; [rewrite (Hx H)|rewrite (Hy H)]; ring. }
    assert (or_ne : forall a b c d : nat, (a = b -> c = d -> False) -> a <> b \/ c <> d).
    { intros a b c d H. destruct (Nat.eq_dec a b); [right|left]; tauto. }
    rewrite !Z2, !Z3; [ring| | | | | |]; intros.
    - apply (dec [i; k; a] [b; c; l] [a; j] [b; c]); [intro; now apply (rw_spin n nu R psi [i; k; a] [b; c; l])|intro; now apply W0|]. apply or_ne. rewrite !uc in *. lia.
    - apply (dec [i; k; a] [b; c; j] [a; l] [b; c]); [intro; now apply (rw_spin n nu R psi [i; k; a] [b; c; j])|intro; now apply W0|]. apply or_ne. rewrite !uc in *. lia.
    - apply (dec [a; b; i] [j; l; c] [a; b] [k; c]); [intro; now apply (rw_spin n nu R psi [a; b; i] [j; l; c])|intro; now apply W0|]. apply or_ne. rewrite !uc in *. lia.
    - apply (dec [a; b; k] [j; l; c] [a; b] [i; c]); [intro; now apply (rw_spin n nu R psi [a; b; k] [j; l; c])|intro; now apply W0|]. apply or_ne. rewrite !uc in *. lia.
    - apply (dec [a; b] [i; k] [a; b] [j; l]); [intro; now apply (rw_spin n nu R psi [a; b] [i; k])|intro; now apply W0|]. apply or_ne. rewrite !uc in *. lia.
    - apply (dec [a; b] [j; l] [a; b] [i; k]); [intro; now apply (rw_spin n nu R psi [a; b] [j; l])|intro; now apply W0|]. apply or_ne. rewrite !uc in *. lia.
  Qed.

  (** The operator of the full array is the operator of the vector minus its adjoint. *)
  Theorem compact_full keep drop n N (A K2 : tensor4) psi L : (2 * n <= N)%nat -> real_symmetric K2 -> one_of_each 2 n L ->
    (forall x, keep (- x) = keep x) -> (forall x, x <> 0 -> drop x = negb (keep x)) ->
    (forall i k j l, (i < 2 * n)%nat -> (k < 2 * n)%nat -> (j < 2 * n)%nat -> (l < 2 * n)%nat -> A i k j l = residual_of (2 * n) K2 psi i k j l) ->
    (forall i k j l, (i < 2 * n)%nat -> (k < 2 * n)%nat -> (j < 2 * n)%nat -> (l < 2 * n)%nat -> up_count n [i; k] <> up_count n [j; l] -> residual_of (2 * n) K2 psi i k j l = 0) ->
    exists v o c, map (class_entry A) L = map (fun x => Some (v x)) L /\ residual_operator keep (2 * n) N A = Some o /\ vector_to_operator drop N (map (fun x => (x, v x)) L) = Some c /\
      forall x y, length x = (2 * n)%nat -> length y = (2 * n)%nat -> fmat o x y = fmat c x y - cconj (fmat c y x).
  Proof.
    intros HN HK HL Hkeep Hdrop HA Hspin. set (R := (2 * n)%nat) in *.
    pose (r := residual_of R K2 psi).
    pose (v := fun z => let '((i, k), (j, l)) := ends z in r i k j l).
    destruct (residual_operator_spec K keep R N A HN) as [o [E1 [W1 M1]]].
    destruct (vector_spec drop n N L v HN (proj1 (proj2 HL))) as [c [E2 [W2 M2]]].
    exists v, o, c. split; [|split; [exact E1|split; [exact E2|]]].
    - apply map_ext_in. intros z Hz. destruct (proj1 (proj2 HL) z Hz) as [cc [a [El ->]]]. destruct (element2 n cc a El) as [i [k [j [l [-> [-> [Hik [Hjl [Hk [Hl U]]]]]]]]]].
      cbn [class_entry listed app rev v ends]. f_equal. rewrite HA by (unfold R; lia). fold (r i k l j). rewrite re_id by apply residual_real. unfold r. rewrite (residual_swap_ann K R K2 psi i k j l HK). ring.
    - intros x y Hx Hy. rewrite M1, !M2.
      pose (r' := chosen K keep r). pose (f := fun i k j l : nat => r' i k j l * @excitation K i k j l x y).
      assert (ra : forall i k j l, r' j l i k = - r' i k j l) by (intros; unfold r', chosen, r; rewrite (residual_antisym K R K2 psi i k j l HK), Hkeep; destruct (keep _); ring).
      assert (rs : forall i k j l, r' i k l j = - r' i k j l) by (intros; unfold r', chosen, r; rewrite (residual_swap_ann K R K2 psi i k j l HK), Hkeep; destruct (keep _); ring).
      assert (rc : forall i k j l, r' k i j l = - r' i k j l) by (intros; unfold r', chosen, r; rewrite (residual_swap_cre K R K2 psi i k j l HK), Hkeep; destruct (keep _); ring).
      assert (rr : forall i k j l, cconj (r' i k j l) = r' i k j l) by (intros; unfold r', chosen; destruct (keep _); [apply residual_real|apply cconj_0]).
      transitivity (- S4 K R f).
      { f_equal. apply (S4_ext K R). intros p q s t Hp Hq Hs Ht. unfold f. f_equal. unfold r', chosen. now rewrite HA by assumption. }
      rewrite (quarter_sum R f).
      2:{ intros i k j l. unfold f. rewrite rc, exc_swap_cre. ring. }
      2:{ intros i k j l. unfold f. rewrite rs, exc_swap_ann. ring. }
      2:{ intros i j l. unfold f. rewrite (twice_zero K (@excitation K i i j l x y)) by apply exc_swap_cre. ring. }
      2:{ intros i k j. unfold f. rewrite (twice_zero K (@excitation K i k j j x y)) by apply exc_swap_ann. ring. }
      unfold R at 1 2. rewrite (listed_sum n L (fun e => f (fst (fst e)) (snd (fst e)) (fst (snd e)) (snd (snd e))) HL).
      2:{ intros [i k]. cbn [fst snd]. unfold f. rewrite (twice_zero K (r' i k i k)) by apply ra. ring. }
      2:{ intros i k j l Hi Hk Hj Hl Hne. cbn [fst snd]. unfold f, r', chosen, r. rewrite (Hspin i k j l Hi Hk Hj Hl Hne). destruct (keep 0); ring. }
      assert (C : forall (l : list (list nat)) (g : list nat -> K), cconj (over l g) = over l (fun z => cconj (g z))).
      { intros l g. unfold over. induction l as [|z l IH]; cbn [fold_right]; [apply cconj_0|]. now rewrite cconj_add, IH. }
      rewrite C. match goal with |- - (?q * over L ?a) = over L ?b - over L ?d => transitivity (over L b + - (1) * over L d); [|ring]; transitivity (- q * over L a); [ring|] end.
      rewrite <- !over_scal, <- over_add. apply over_ext. intros z Hz. unfold flip_ends.
      assert (Ev : v z = r (fst (fst (ends z))) (snd (fst (ends z))) (fst (snd (ends z))) (snd (snd (ends z)))) by (unfold v; destruct (ends z) as [[? ?] [? ?]]; reflexivity).
      assert (Ed : (if drop (v z) then 0 else (1 + 1 + 1 + 1) * v z) = (1 + 1 + 1 + 1) * r' (fst (fst (ends z))) (snd (fst (ends z))) (fst (snd (ends z))) (snd (snd (ends z)))).
      { unfold r', chosen. rewrite <- Ev. destruct (ceqb (v z) 0) eqn:Z.
        - apply (ceqb_spec K) in Z. rewrite Z. destruct (drop 0), (keep 0); ring.
        - rewrite Hdrop by (intro Q; apply (ceqb_spec K) in Q; congruence). destruct (keep (v z)); cbn [negb]; ring. }
      rewrite Ed. destruct (ends z) as [[i k] [j l]]. cbn [fst snd]. unfold f.
      assert (F := fock_mat_adj K [(Cre, i); (Cre, k); (Ann, l); (Ann, j)] R x y Hx Hy). cbn [map rev app cadj fst snd fadj] in F.
      change (@excitation K j l i k x y = cconj (excitation i k j l y x)) in F.
      rewrite !cconj_mul, cconj_opp, <- F, !cconj_add, cconj_1. rewrite rr, (ra i k j l). ring.
  Qed.
End ResProofs4.
