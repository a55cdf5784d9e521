(** The energy of the symmetry projected tomography. *)
From Coq Require Import Bool List Arith ZArith Lia Ring.
From Verif Require Import Coeff Sqrt2 MatSpec MatLemmas OpSpec FockSpec PauliModel OperatorModel CircuitSpec CircuitModel CircuitProofs CircuitProofs2 TomoModel CountsProofs
  RdmModel RdmSpec RdmFock RdmProofs HamModel HamSpec HamProofs HamProofs3 QuantProofs3 InvSpec ResSpec TransformModel TwoTerm SymSpec SymModel PlanModel PlanSpec PlanProofs PlanProofs2 PlanProofs3 PlanProofs4
  RtomModel RtomProofs RtomProofs2.
Import ListNotations.

Section Energy.
  Variable K : CoefRing.
  Add Ring KRing : (c_ring K).
  Local Open Scope coef_scope.
  (** The energy read from any array with the entries of the 2-RDM. *)
  Lemma array_energy imag N Ne (w : K) h V en_c psi t : has_particles (2 * N) Ne psi ->
    (1 + 1 + 1 + 1) * w * ofnat (Ne - 1) = 1 -> cconj w = w ->
    (forall i j, cconj (h i j) = h i j) -> (forall i j, h i j = h j i) ->
    (forall p q s t, cconj (V p q s t) = V p q s t) -> (forall p q s t, V p q s t = V q p t s) -> (forall p q s t, V p q s t = V s t p q) ->
    (forall a b c d, (a < 2 * N)%nat -> (b < 2 * N)%nat -> (c < 2 * N)%nat -> (d < 2 * N)%nat -> t [a; b; c; d] = part true imag (rdm_of (2 * N) psi [a; b] [c; d])) ->
    evaluate (2 * N) (build_K2 (2 * N) w h V) en_c t = expect (2 * N) (ham (2 * N) h V) psi + en_c.
  Proof.
    intros Pa Hw Cw Ch Sh CV S1 S2 T. unfold evaluate. f_equal.
    assert (E : expect (2 * N) (ham (2 * N) h V) psi = expect (2 * N) (ham (2 * N) (fun p q => h q p) (fun p t q s => V q s p t)) psi).
    { apply expect_meq. intros x y _ _. unfold ham.
      assert (U : forall n f g, (forall i, f i = g i) -> @upto K n f = upto n g) by (intros; apply upto_ext; auto).
      f_equal; [|f_equal]; repeat (apply U; intro); [rewrite Sh|rewrite S2]; reflexivity. }
    rewrite E, <- (K2_energy K (2 * N) Ne w h V _ Pa Hw).
    set (D := fun a b c d => rdm_of (2 * N) psi [a; b] [c; d]).
    transitivity (observable (2 * N) (build_K2 (2 * N) w h V) (fun a b c d => part true imag (D a b c d))).
    { apply observable_ext. intros a b c d Ha Hb Hc Hd. apply T; assumption. }
    destruct imag; [reflexivity|]. cbn [part]. rewrite observable_part, (observable_conj _ _ _ D (K2_real _ _ w h V Cw Ch CV)).
    unfold D. rewrite (observable_real K (2 * N) _ psi) by (apply K2_symmetric; assumption).
    set (x := observable _ _ _). transitivity ((chalf + chalf) * x); [ring|]. rewrite chalf_dbl. ring.
  Qed.

  Variable rt : K.
  Hypothesis rt_sq : rt * rt = chalf.
  Hypothesis rt_real : cconj rt = rt.
  Variable tiny_p tiny : K -> bool.
  Hypothesis exact_tiny : forall x, tiny_p x = true -> x = 0.
  Hypothesis tiny_unit : forall z, tiny (ipow z) = false.
  Variable rank_ok : list (list K) -> bool.
  Variable solve : list (list K) -> list K -> option (list K).
  Hypothesis solver : solves solve.
  Theorem reduced_energy simp imag N Ne nu (w : K) h V en_c prep t : (forall x : K, small x = true -> x = 0) -> (forall x, tiny x = true -> x = 0) ->
    sized simp -> (forall g, In g prep -> valid (2 * N) g) ->
    has_up (2 * N) N nu (prepared rt (2 * N) prep) -> has_particles (2 * N) Ne (prepared rt (2 * N) prep) ->
    (1 + 1 + 1 + 1) * w * ofnat (Ne - 1) = 1 -> cconj w = w ->
    (forall i j, cconj (h i j) = h i j) -> (forall i j, h i j = h j i) ->
    (forall p q s t, cconj (V p q s t) = V p q s t) -> (forall p q s t, V p q s t = V q p t s) -> (forall p q s t, V p q s t = V s t p q) ->
    reduced_tomography rt tiny_p tiny rank_ok solve simp 2 true imag N prep = Some t ->
    evaluate (2 * N) (build_K2 (2 * N) w h V) en_c t = expect (2 * N) (ham (2 * N) h V) (prepared rt (2 * N) prep) + en_c.
  Proof.
    intros Zs Zt Sz Va Up Pa Hw Cw Ch Sh CV S1 S2 T. apply (array_energy imag N Ne); auto. intros a b c d Ha Hb Hc Hd.
    change [a; b; c; d] with ([a; b] ++ [c; d]).
    apply (reduced_rdm_exact K rt rt_sq rt_real tiny_p tiny exact_tiny tiny_unit rank_ok solve solver simp 2 true imag N Ne nu prep t Zs Zt ltac:(lia) eq_refl Sz); auto.
    - change (S (2 * 2)) with 5%nat. destruct (small (cpow (chalf : K) 5)) eqn:E; [|reflexivity]. exfalso. apply Zs in E. apply (half_pow_nz K 5 1 (c1_neq0 K)). rewrite E. ring.
    - apply prepared_norm; assumption.
  Qed.
End Energy.
