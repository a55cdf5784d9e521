(** The statements of Prop_Circ.v assembled. *)
From Coq Require Import Bool List Arith ZArith Lia Ring Sorted.
From Verif Require Import Coeff Sqrt2 MatSpec MatLemmas KronLemmas OpSpec FockSpec CircuitSpec TraceSpec PauliModel OperatorModel FermiModel TransformModel
  CircSpec2 CircModel CircModel2 CircSpec3 CircProofs1 CircProofs2 CircProofs3 CircProofs4.
Import ListNotations.

Section Statements.
  Variable K : CoefRing.
  Add Ring KRing : (c_ring K).
  Local Open Scope coef_scope.

  Lemma single_methods (rt : K) (rt_sq : rt * rt = chalf) (n i : nat) (t : angle K) : (i < n)%nat ->
    multiplies n (c_h rt i) (at1 n i (h2 rt)) /\ multiplies n (c_sx i) (at1 n i (@sx2 K)) /\
    multiplies n (c_x i) (at1 n i (@pauli1 K PX)) /\ multiplies n (c_y i) (at1 n i (@pauli1 K PY)) /\
    multiplies n (c_z i) (at1 n i (@pauli1 K PZ)) /\
    multiplies n (c_s rt i) (at1 n i (@s2 K)) /\ multiplies n (c_si rt i) (at1 n i (@sdg2 K)) /\
    multiplies n (c_Rx i t) (at1 n i (rx2 t)) /\ multiplies n (c_Ry i t) (at1 n i (ry2 t)) /\
    multiplies n (c_Rz i t) (at1 n i (rz2 t)) /\
    multiplies n (c_particle i) (at1 n i (@local2 K Par)) /\ multiplies n (c_hole i) (at1 n i (@local2 K Hol)) /\
    multiplies n (c_create i) (at1 n i (@local2 K Cre)) /\ multiplies n (c_annihilate i) (at1 n i (@local2 K Ann)).
  Proof.
    intro Hi. repeat split; try (apply mult_sqg'; [exact Hi|]; intros [] []; cbn; try reflexivity; ring).
    - apply mult_sqg'; [exact Hi|]. rewrite (s_value K rt rt_sq). intros [] []; reflexivity.
    - apply mult_sqg'; [exact Hi|]. rewrite (si_value K rt rt_sq). intros [] []; reflexivity.
  Qed.
  Lemma nodup4 (i j k l : nat) : NoDup [i; j; k; l] -> i <> j /\ i <> k /\ i <> l /\ j <> k /\ j <> l /\ k <> l.
  Proof.
    intro H. inversion H as [|? ? H1 H']; subst. inversion H' as [|? ? H2 H'']; subst. inversion H'' as [|? ? H3 _]; subst. cbn in *. intuition congruence.
  Qed.
  Lemma controlled_flips (n i j k l : nat) : NoDup [i; j; k; l] -> (i < n)%nat -> (j < n)%nat -> (k < n)%nat -> (l < n)%nat ->
    multiplies n (c_Cx i j) (@perm_mat K (flip_if [i] j)) /\
    multiplies n (c_Toff i j k) (@perm_mat K (flip_if [i; j] k)) /\
    multiplies n (c_Toff4 i j k l) (@perm_mat K (flip_if [i; j; k] l)).
  Proof.
    intros ND Hi Hj Hk Hl. apply nodup4 in ND. destruct ND as [D1 [D2 [D3 [D4 [D5 D6]]]]].
    repeat split; apply mult_held; auto; try (intros q Hq; cbn in Hq; intuition congruence); cbn; intuition congruence.
  Qed.
  Lemma controlled_methods (rt : K) (rt_sq : rt * rt = chalf) (n i j : nat) (t : angle K) :
    unit_angle t -> (i < n)%nat -> (j < n)%nat -> i <> j ->
    let e := cos_of t + ci * sin_of t in
    multiplies n (c_Cz rt i j) (at2 n i j (ctrl (pauli1 PZ))) /\
    multiplies n (c_Cy rt i j) (at2 n i j (ctrl (pauli1 PY))) /\
    multiplies n (c_Cxr i j) (at2 n i j (ctrl0 (@pauli1 K PX))) /\
    multiplies n (c_Cs t i j) (at2 n i j (ctrl (m2 1 0 0 (e * e)))) /\
    multiplies n (c_CRy i j t) (at2 n i j (ctrl (ry2 (cos_of t, sin_of t)))).
  Proof.
    intros N Hi Hj D e. split; [now apply Cz_spec|]. split; [now apply Cy_spec|]. split; [now apply Cxr_spec|].
    split; [now apply Cs_spec|now apply CRy_spec].
  Qed.
  Lemma hadamard_methods (rt : K) (rt_sq : rt * rt = chalf) (n i j : nat) (t : angle K) :
    unit_angle t -> (i < n)%nat -> (j < n)%nat -> i <> j ->
    multiplies n (c_Ch rt t 2 i j) (at2 n i j (ctrl (reflect (cos_of t) (sin_of t)))) /\
    multiplies n (c_Ch rt t 1 i j) (at2 n i j (ctrl (reflect (sin_of t) (cos_of t)))) /\
    (cos_of t = rt -> sin_of t = rt ->
     multiplies n (c_Ch rt t 2 i j) (at2 n i j (ctrl (h2 rt))) /\ multiplies n (c_Ch rt t 1 i j) (at2 n i j (ctrl (h2 rt)))).
  Proof.
    intros N Hi Hj D. pose proof (Ch2_spec K rt rt_sq n i j t N Hi Hj D) as A. pose proof (Ch1_spec K rt n i j t N Hi Hj D) as B.
    split; [exact A|]. split; [exact B|]. intros C S. rewrite C, S in A, B. split; assumption.
  Qed.
  Lemma exchange_methods (rt : K) (rt_sq : rt * rt = chalf) (n i j : nat) (t : angle K) :
    unit_angle t -> (i < n)%nat -> (j < n)%nat -> i <> j ->
    multiplies n (c_SRy i j t) (at2 n i j (exchange (ry2 (cos_of t, sin_of t)))) /\
    multiplies n (c_Sh rt t 2 i j) (at2 n i j (exchange (reflect (cos_of t) (sin_of t)))) /\
    multiplies n (c_Sh rt t 1 i j) (at2 n i j (exchange (reflect (sin_of t) (cos_of t)))).
  Proof. intros N Hi Hj D. split; [now apply SRy_spec|]. now apply Sh_spec. Qed.
  Lemma swap_methods (n i j k l : nat) : NoDup [i; j; k; l] -> (i < n)%nat -> (j < n)%nat -> (k < n)%nat -> (l < n)%nat ->
    multiplies n (c_Sw i j) (@perm_mat K (swap_if [] i j)) /\
    multiplies n (c_Fred i j k) (@perm_mat K (swap_if [i] j k)) /\
    multiplies n (c_CCS i j k l) (@perm_mat K (swap_if [i; j] k l)).
  Proof.
    intros ND Hi Hj Hk Hl. apply nodup4 in ND. destruct ND as [D1 [D2 [D3 [D4 [D5 D6]]]]].
    split; [now apply Sw_spec|]. split; [now apply Fred_spec|now apply CCS_spec].
  Qed.
  Lemma circuit_unitary (n : nat) (l : list (cgate K)) : (forall g, In g l -> gate_unitary n g) ->
    exists m, apply_all n l (Some circ_init) = Some m /\ unitary n m.
  Proof. intro H. apply run_unitary; [exact H|apply unitary_one]. Qed.

  Lemma add_term_none n (o : list (list pauli * K)) : fold_left (add_term n) o None = None.
  Proof. induction o as [|e o IH]; [reflexivity|exact IH]. Qed.
  Lemma add_term_bad n (o : list (list pauli * K)) e A : In e o -> length (fst e) <> n -> fold_left (add_term n) o A = None.
  Proof.
    revert A. induction o as [|e' o IH]; intros A H D; [destruct H|]. cbn [fold_left]. destruct H as [E | H].
    - subst e'. destruct A as [A|]; cbn [add_term]; [|apply add_term_none]. apply Nat.eqb_neq in D. rewrite D. apply add_term_none.
    - now apply IH.
  Qed.
  Lemma operator_to_matrix_refused : operator_to_matrix (@nil (list pauli * K)) = None /\
    forall (o : list (list pauli * K)) e e', In e o -> In e' o -> length (fst e) <> length (fst e') -> operator_to_matrix o = None.
  Proof.
    split; [reflexivity|]. intros o e e' H H' D. destruct o as [|e0 o]; [destruct H|]. unfold operator_to_matrix.
    destruct (Nat.eq_dec (length (fst e)) (length (fst e0))) as [E | E].
    - rewrite (add_term_bad _ (e0 :: o) e') by (auto; congruence). reflexivity.
    - rewrite (add_term_bad _ (e0 :: o) e) by auto. reflexivity.
  Qed.
  Lemma half_pow_cpow k : half_pow (K := K) k = cpow chalf k.
  Proof. induction k as [|k IH]; cbn; [reflexivity|]. now rewrite IH. Qed.
  Lemma transposed_traces (qb : list nat) (n : nat) (M : mat K) (i j : bits) :
    NoDup qb -> (forall q, In q qb -> q < n)%nat -> length i = (n - length qb)%nat -> length j = (n - length qb)%nat ->
    pt_symbolic n qb M i j = Some (ptrace (mask_of qb n) M j i) /\
    trace_op n qb M i j = Some (ptrace (mask_of qb n) M j i * cpow chalf (length qb)).
  Proof.
    intros ND H Hi Hj. split; [now apply pt_symbolic_spec|]. rewrite <- half_pow_cpow. now apply trace_op_spec.
  Qed.
  Lemma get_cN_spec (n : nat) (m : mat K) :
    exists B : list bits, NoDup B /\ (forall b, In b B <-> length b = n) /\ length B = (2 ^ n)%nat /\
      StronglySorted (fun a b => length (filter (fun x => x) a) <= length (filter (fun x => x) b))%nat B /\
      (forall p q r c, nth_error B p = Some r -> nth_error B q = Some c -> get_cN n m p q = Some (m r c)) /\
      (forall p q, (2 ^ n <= p \/ 2 ^ n <= q)%nat -> get_cN n m p q = None).
  Proof.
    assert (L : length (cN_basis n) = (2 ^ n)%nat) by (rewrite (Permutation.Permutation_length (cN_perm n)); apply all_bits_length).
    exists (cN_basis n). split; [apply cN_nodup|]. split; [apply cN_in|]. split; [exact L|]. split; [|split].
    - pose proof (cN_sorted n) as S. clear L. induction S as [|a l S IH F]; constructor; [exact IH|].
      eapply Forall_impl; [|exact F]. intros b Hb. cbn beta in Hb. rewrite !digit_sum_eq in Hb. exact Hb.
    - intros p q r c Hp Hq. unfold get_cN. rewrite Hp, Hq. reflexivity.
    - intros p q H. unfold get_cN. destruct H as [H | H].
      + rewrite (proj2 (nth_error_None (cN_basis n) p)) by lia. reflexivity.
      + rewrite (proj2 (nth_error_None (cN_basis n) q)) by lia. destruct (nth_error (cN_basis n) p); reflexivity.
  Qed.
  Lemma state_once (n : nat) (A : mat K) :
    exists v, state_mul n A state_init = Some (Row v) /\ forall r, length r = n -> v r = A r (repeat false n).
  Proof.
    eexists. split; [reflexivity|]. intros r Hr. cbn beta.
    rewrite (sumbits_ext K n _ (fun c => if bits_eqb c (repeat false n) then A r c else 0)); [apply sum_pick1, repeat_length|].
    intros c Hc. assert (E : existsb (fun x => x) c = negb (bits_eqb c (repeat false n))).
    { clear -Hc. subst n. induction c as [|[] c IH]; [reflexivity|reflexivity|]. cbn. exact IH. }
    rewrite E. destruct (bits_eqb c (repeat false n)); cbn [negb]; ring.
  Qed.
End Statements.

Definition unit_entry (a b : bits) : mat GaussQ := fun r c => if bits_eqb r a && bits_eqb c b then gz 1 else gz 0.
Lemma opt_neq (x : option GaussQ) (y : GaussQ) : match x with Some x => ceqb x y | None => false end = false -> x <> Some y.
Proof. intros H ->. assert (E : ceqb y y = true) by now apply (ceqb_spec GaussQ). rewrite E in H. discriminate. Qed.
Lemma symbolic_refuted : exists (M : mat GaussQ) (i j : bits), length i = 1 /\ length j = 1 /\
  pt_symbolic 2 [1] M i j <> Some (ptrace (mask_of [1] 2) M i j).
Proof. exists (unit_entry [false; false] [true; false]), [false], [true]. repeat split. apply opt_neq. vm_compute. reflexivity. Qed.
Lemma circuit_trace_refuted : exists (M : mat GaussQ) (i j : bits), length i = 1 /\ length j = 1 /\
  trace_op 2 [1] M i j <> Some (ptrace (mask_of [1] 2) M i j).
Proof. exists (unit_entry [false; false] [true; false]), [false], [true]. repeat split. apply opt_neq. vm_compute. reflexivity. Qed.
Lemma density_refuted : exists (M : mat GaussQ) (r c : bits), length r = 1 /\ length c = 1 /\
  dm_trace 3 [1; 0] M r c <> ptrace (mask_of [1; 0] 3) M r c.
Proof.
  exists (unit_entry [false; false; true] [false; false; true]), [true], [true]. repeat split. intro H.
  apply (f_equal (fun x => ceqb x c1)) in H. vm_compute in H. discriminate.
Qed.
Lemma unitary_case : forall g, In g (@c_Cxr GaussQ 0 1 ++ c_Fred 2 0 1 ++ c_Ry 1 (gq 3 5, gq 4 5)) -> gate_unitary 3 g.
Proof.
  assert (U : forall (a b c d : GaussQ), (forall x y, ceqb (mul2 (fun a' b' => cconj (m2 a b c d b' a')) (m2 a b c d) x y) (pauli1 PI x y) = true) ->
     (forall x y, ceqb (mul2 (m2 a b c d) (fun a' b' => cconj (m2 a b c d b' a')) x y) (pauli1 PI x y) = true) -> unitary2 (m2 a b c d)).
  { intros a b c d H1 H2. split; intros x y; apply (ceqb_spec GaussQ); [apply H1|apply H2]. }
  intros g Hg. cbn [c_Cxr c_x c_Cx c_Fred c_Toff c_Ry app In] in Hg.
  repeat (destruct Hg as [<- | Hg]; [cbn [gate_unitary In]; first
    [ split; [lia|apply U; intros [] []; vm_compute; reflexivity]
    | split; [lia|split; [intros i Hi; intuition lia|intuition lia]] ]|]).
  destruct Hg.
Qed.
