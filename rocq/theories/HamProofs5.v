From Coq Require Import Bool List Arith Lia Setoid Morphisms.
From Verif Require Import Coeff MatSpec MatLemmas FockSpec OpSpec PauliModel PauliProofs OperatorModel OperatorProofs FermiModel FermiProofs AdjProofs
  TransformModel TransformLin TwoTerm CommProofs CircuitSpec RdmSpec RdmFock InvModel InvSpec InvProofs TaperSpec TaperProofs TaperProofs2
  HamModel HamSpec HamProofs HamProofs2 HamProofs3 HamProofs4.
Import ListNotations.

Section More.
  Variable K : CoefRing.
  Add Ring KRing : (c_ring K).
  Local Open Scope coef_scope.
  Notation tensor4 := (nat -> nat -> nat -> nat -> K).

  (** ** K2 against any antisymmetric tensor *)
  Lemma K2_tensor r (w : K) (h : nat -> nat -> K) (V D : tensor4) :
    (forall a b c d, D b a c d = - D a b c d) -> (forall a b c d, D a b d c = - D a b c d) ->
    observable r (build_K2 r w h V) D =
      upto r (fun i => upto r (fun j => h i j * ((1 + 1 + 1 + 1) * w * upto r (fun k => D j k i k)))) +
      chalf * upto r (fun i => upto r (fun k => upto r (fun j => upto r (fun l => V i k j l * D j l i k)))).
  Proof.
    intros A1 A2. unfold build_K2. rewrite observable_apply.
    2:{ intros a b c d v Hi. apply in_flat_map in Hi. destruct Hi as [i [Hi H]]. apply in_flat_map in H. destruct H as [j [Hj H]]. apply in_flat_map in H. destruct H as [k [Hk H]].
        apply in_seq in Hi, Hj, Hk. destruct H as [E|[E|[E|[E|[]]]]]; injection E; intros; subst; lia. }
    rewrite observable_eq, over_flat_map.
    transitivity (chalf * upto r (fun i => upto r (fun k => upto r (fun j => upto r (fun l => V i k j l * D j l i k)))) +
       upto r (fun i => upto r (fun j => h i j * ((1 + 1 + 1 + 1) * w * upto r (fun k => D j k i k))))); [|ring].
    f_equal.
    - rewrite <- upto_scal. apply upto_ext. intros i _. rewrite <- upto_scal. apply upto_ext. intros k _. rewrite <- upto_scal. apply upto_ext. intros j _. rewrite <- upto_scal. apply upto_ext. intros l _. ring.
    - apply over_ext. intros i _. rewrite over_flat_map. apply over_ext. intros j _. rewrite over_flat_map.
      transitivity (h i j * (1 + 1 + 1 + 1) * w * upto r (fun k => D j k i k)); [|ring]. rewrite <- upto_scal. apply over_ext. intros k _.
      cbn [one_body over fold_right]. rewrite (A2 k j i k), (A1 j k i k), (A2 j k i k).
      ring.
  Qed.

  (** ** The qubit operator *)
  Lemma fmat_sumK (o : list (fstr * K)) r c : sumK (map (fun e => snd e * fstr_mat (fst e) r c) o) = fmat o r c.
  Proof. induction o as [|[k x] o IH]; cbn; [reflexivity|]. unfold madd, mscal, sumK in *. rewrite IH. reflexivity. Qed.
  Lemma qubit_operator_spec (N : nat) (F : list (fstr * K)) :
    (forall e, In e F -> length (fst e) = N /\ small (cpow chalf (length (flat 0 (fst e))) * snd e) = false) ->
    exists D, (forall e, In e D -> small (snd e) = true) /\ meq N (madd (omat (qubit_operator F)) (omat D)) (fmat F).
  Proof.
    intro H. destruct (jw_operator_spec K N F H) as [D [S1 [_ M]]]. exists D. split; [exact S1|]. intros x y Hx Hy. specialize (M x y Hx Hy).
    cbv beta in M. rewrite fmat_sumK in M. rewrite <- M. unfold madd. f_equal. unfold qubit_operator. rewrite !omat_lin.
    rewrite (lin_fold_add K _ _ pauli_list_eqb_spec). cbn. ring.
  Qed.

  (** ** Arrays too small for the orbitals *)
  Lemma all_some_none A B (f : A -> option B) l x : In x l -> f x = None -> all_some (map f l) = None.
  Proof.
    induction l as [|y l IH]; intros Hin Hf; [destruct Hin|]. cbn. destruct Hin as [-> | Hin]; [now rewrite Hf|]. destruct (f y); [|reflexivity]. now rewrite (IH Hin Hf).
  Qed.
  Lemma fermi_operator_raises (tiny : K -> bool) (d No_as No_core No_tot : nat) h V : (1 <= No_as)%nat -> (d < No_core + No_as + No_tot)%nat ->
    fermi_operator tiny d No_as No_core No_tot h V = None.
  Proof.
    intros H1 Hd. unfold fermi_operator. set (orbs := alpha_active No_as No_core ++ beta_active No_as No_core No_tot).
    assert (Hin : In (No_as - 1 + No_core + No_tot)%nat orbs).
    { unfold orbs. apply in_app_iff. right. unfold beta_active. apply in_map_iff. exists (No_as - 1)%nat. split; [reflexivity|]. apply in_seq. lia. }
    rewrite (all_some_none _ _ (term1 tiny d No_as No_core No_tot h) (list_prod orbs orbs) (No_as - 1 + No_core + No_tot, No_as - 1 + No_core + No_tot)%nat); [reflexivity|now apply in_prod|].
    unfold term1. destruct (dget _ _); [|reflexivity]. assert (E : (No_as - 1 + No_core + No_tot <? d)%nat = false) by (apply Nat.ltb_ge; lia). rewrite E. reflexivity.
  Qed.

  (** ** In the vocabulary of HamSpec *)
  Theorem active_energy_spec No_as No_core No_tot Ne_as (w : K) (h : nat -> nat -> K) (V : tensor4) (psi : bits -> K) :
    (No_core + No_as <= No_tot)%nat -> (1 <= Ne_as)%nat -> (1 + 1 + 1 + 1) * w * ofnat (Ne_as - 1) = 1 ->
    (forall p q, h p q = h q p) -> (forall p r q s, V p r q s = V q s p r) -> (forall p r q s, V p r q s = V r p s q) ->
    has_particles (2 * No_tot) (Ne_as + 2 * No_core) psi -> expect (2 * No_tot) mone psi = 1 ->
    (forall p x, core_mode No_core No_tot p -> length x = (2 * No_tot)%nat -> nth p x false = false -> psi x = 0) ->
    (forall p x, empty_mode No_as No_core No_tot p -> length x = (2 * No_tot)%nat -> nth p x false = true -> psi x = 0) ->
    core_energy No_core No_tot h V + observable (2 * No_as) (build_K2_active No_as No_core No_tot w h V)
       (fun a b c d => rdm_of (2 * No_tot) psi [active_mode No_as No_core No_tot a; active_mode No_as No_core No_tot b] [active_mode No_as No_core No_tot c; active_mode No_as No_core No_tot d]) =
    expect (2 * No_tot) (ham (2 * No_tot) h V) psi.
  Proof.
    intros HT HN Hw Hh HV1 HV2 HP Hn Hc Hv. apply (active_energy K No_as No_core No_tot Ne_as w h V psi HT HN Hw Hh HV1 HV2 HP Hn).
    - intros p x Hp. apply Hc. unfold alpha_inactive, beta_inactive in Hp. apply in_app_iff in Hp. destruct Hp as [Hp|Hp]; [apply in_seq in Hp; left; lia|].
      apply in_map_iff in Hp. destruct Hp as [i [<- Hi]]. apply in_seq in Hi. right. lia.
    - intros p x Hp. apply Hv. unfold virtuals in Hp. apply in_app_iff in Hp. destruct Hp as [Hp|Hp]; apply in_seq in Hp; [left|right]; lia.
  Qed.
End More.
