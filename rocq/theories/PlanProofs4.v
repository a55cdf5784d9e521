(** Real energies, complex numbers, and the state of an example. *)
From Coq Require Import Bool List Arith ZArith Lia Ring.
From Verif Require Import Coeff Sqrt2 MatSpec MatLemmas OpSpec FockSpec CircuitSpec CircuitModel CircuitProofs CircuitProofs2 TomoModel CountsProofs
  RdmModel RdmSpec RdmFock RdmProofs HamModel HamSpec HamProofs HamProofs3 QuantProofs3 InvSpec ResSpec TransformModel PlanModel PlanSpec PlanProofs PlanProofs2 PlanProofs3.
Import ListNotations.

Section Real.
  Variable K : CoefRing.
  Add Ring KRing : (c_ring K).
  Local Open Scope coef_scope.
  Lemma observable_real r (H : nat -> nat -> nat -> nat -> K) psi : real_symmetric H ->
    cconj (observable r H (fun a b c d => rdm_of r psi [a; b] [c; d])) = observable r H (fun a b c d => rdm_of r psi [a; b] [c; d]).
  Proof.
    intros [R1 [_ R3]]. rewrite <- (observable_conj K) by exact R1. rewrite !observable_eq.
    rewrite (two_swap4 K r (fun i k j l => H i k j l * cconj (rdm_of r psi [j; l] [i; k]))).
    apply upto_ext. intros i _. apply upto_ext. intros k _. apply upto_ext. intros j _. apply upto_ext. intros l _.
    rewrite (R3 j l i k), <- (rdm_herm K). reflexivity.
  Qed.

  Variable rt : K.
  Hypothesis rt_sq : rt * rt = chalf.
  Hypothesis rt_real : cconj rt = rt.
  Variable tiny : K -> bool.
  Hypothesis exact_tiny : forall x, tiny x = true -> x = 0.
  Hypothesis exact_small : forall x : K, dyadic 7 x -> small x = true -> x = 0.
  Theorem tomography_energy_real simp imag N Ne nu (w : K) h V en_c prep t : sized simp -> (forall g, In g prep -> valid (2 * N) g) ->
    has_up (2 * N) N nu (prepared rt (2 * N) prep) -> has_particles (2 * N) Ne (prepared rt (2 * N) prep) ->
    (1 + 1 + 1 + 1) * w * ofnat (Ne - 1) = 1 -> cconj w = w ->
    (forall i j, cconj (h i j) = h i j) -> (forall i j, h i j = h j i) ->
    (forall p q s t, cconj (V p q s t) = V p q s t) -> (forall p q s t, V p q s t = V q p t s) -> (forall p q s t, V p q s t = V s t p q) ->
    tomography rt tiny jw_operator simp 2 true imag N prep = Some t ->
    evaluate (2 * N) (build_K2 (2 * N) w h V) en_c t = expect (2 * N) (ham (2 * N) h V) (prepared rt (2 * N) prep) + en_c /\
    cconj (expect (2 * N) (ham (2 * N) h V) (prepared rt (2 * N) prep)) = expect (2 * N) (ham (2 * N) h V) (prepared rt (2 * N) prep).
  Proof.
    intros Sz Va Up Pa Hw Cw Ch Sh CV S1 S2 T.
    assert (E : expect (2 * N) (ham (2 * N) h V) (prepared rt (2 * N) prep) =
      expect (2 * N) (ham (2 * N) (fun p q => h q p) (fun p t q s => V q s p t)) (prepared rt (2 * N) prep)).
    { apply expect_meq. intros x y _ _. unfold ham.
      assert (U : forall n f g, (forall i, f i = g i) -> @upto K n f = upto n g) by (intros; apply upto_ext; auto).
      f_equal; [|f_equal]; repeat (apply U; intro); [rewrite Sh|rewrite S2]; reflexivity. }
    assert (R : cconj (expect (2 * N) (ham (2 * N) h V) (prepared rt (2 * N) prep)) = expect (2 * N) (ham (2 * N) h V) (prepared rt (2 * N) prep)).
    { rewrite E, <- (K2_energy K (2 * N) Ne w h V _ Pa Hw). apply observable_real. apply K2_symmetric; assumption. }
    split; [|exact R].
    rewrite (tomography_energy K rt rt_sq rt_real tiny exact_tiny exact_small simp true imag N Ne nu w h V en_c prep t eq_refl Sz Va Up Pa Hw (or_intror (conj Cw (conj Ch CV))) T).
    rewrite <- E. destruct imag; cbn [part]; [reflexivity|]. rewrite R. f_equal.
    transitivity ((chalf + chalf) * expect (2 * N) (ham (2 * N) h V) (prepared rt (2 * N) prep)); [ring|]. rewrite chalf_dbl. ring.
  Qed.

  (** ** States one gate at a time *)
  Lemma mvec_ext N (A : mat K) (f g : bits -> K) r : (forall x, length x = N -> f x = g x) -> mvec N A f r = mvec N A g r.
  Proof. intro H. unfold mvec. apply sumbits_ext. intros x Hx. rewrite H by exact Hx. reflexivity. Qed.
  Definition lookup (t : list (bits * K)) (x : bits) : K :=
    match find (fun e => bits_eqb (fst e) x) t with Some e => snd e | None => 0 end.
  Definition tabulate (N : nat) (psi : bits -> K) : list (bits * K) := map (fun b => (b, psi b)) (bin_strings N).
  Lemma bin_all n : forall b, length b = n -> In b (bin_strings n).
  Proof.
    induction n as [|n IH]; intros b L; [destruct b; [left; reflexivity|discriminate]|]. destruct b as [|x b]; [discriminate|]. injection L as L.
    cbn [bin_strings]. specialize (IH b L). destruct x; apply in_or_app; [right|left]; apply in_map; exact IH.
  Qed.
  Lemma lookup_tab N psi x : length x = N -> lookup (tabulate N psi) x = psi x.
  Proof.
    intro L. unfold lookup, tabulate. assert (I := bin_all N x L). revert I. induction (bin_strings N) as [|b l IH]; [intros []|]. cbn [map find fst].
    destruct (bits_eqb b x) eqn:E; [apply bits_eqb_spec in E; subst; reflexivity|]. intros [->|I]; [|apply IH; exact I].
    rewrite (proj2 (bits_eqb_spec x x) eq_refl) in E. discriminate.
  Qed.
  Fixpoint steps (N : nat) (l : list (gate K)) (t : list (bits * K)) : list (bits * K) :=
    match l with [] => t | g :: l' => steps N l' (tabulate N (mvec N (gmat rt N g) (lookup t))) end.
  Lemma steps_spec N l : forall t psi, (forall x, length x = N -> lookup t x = psi x) ->
    forall x, length x = N -> lookup (steps N l t) x = mvec N (cmat rt N l) psi x.
  Proof.
    induction l as [|g l IH]; intros t psi H x Hx; cbn [steps cmat].
    - rewrite H by exact Hx. unfold mvec, mone.
      transitivity (sumbits N (fun c => if bits_eqb c x then psi c else 0)); [symmetry; apply (sumbits_pick K N x psi Hx)|].
      apply sumbits_ext. intros c _. rewrite (bits_eqb_sym x c). destruct (bits_eqb c x); ring.
    - rewrite mvec_mmul. apply IH; [|exact Hx]. intros y Hy. rewrite lookup_tab by exact Hy. apply mvec_ext. exact H.
  Qed.
  Lemma prepared_steps N l x : length x = N -> prepared rt N l x = lookup (steps N l (tabulate N (zero_state N))) x.
  Proof. intro Hx. unfold prepared. symmetry. apply steps_spec; [intros; apply lookup_tab; assumption|exact Hx]. Qed.
End Real.
Arguments lookup {_}. Arguments tabulate {_}. Arguments steps {_}.
