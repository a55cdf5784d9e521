(** Symmetries, energies and operators from the transformed integrals; reorder. *)
From Coq Require Import Bool List Arith Lia Ring.
From Verif Require Import Coeff MatSpec MatLemmas FockSpec OpSpec RdmSpec RdmFock FermiModel FermiProofs CircuitSpec InvSpec InvModel InvProofs HamModel HamSpec HamProofs HamProofs2 HamProofs3 HamProofs4 IntsModel IntsSpec IntsProofs1 IntsProofs2 IntsProofs3 IntsProofs4.
Import ListNotations.
Section Ints5.
  Variable K : CoefRing.
  Add Ring KRing : (c_ring K).
  Local Open Scope coef_scope.
  Notation array2 := (nat -> nat -> K).
  Notation array4 := (nat -> nat -> nat -> nat -> K).
  Variable N : nat.

  Lemma one_sym (Ua Ub h : array2) i j : (forall a b, h a b = h b a) -> one_electron N Ua Ub h i j = one_electron N Ua Ub h j i.
  Proof.
    intros H. unfold one_electron. replace (Bool.eqb (down N j) (down N i)) with (Bool.eqb (down N i) (down N j)) by (destruct (down N i), (down N j); reflexivity).
    destruct (Bool.eqb (down N i) (down N j)); [|reflexivity]. rewrite upto_swap. apply upto_ext. intros a _. apply upto_ext. intros b _. rewrite (H b a). ring.
  Qed.
  Lemma two_swap_pairs (Ua Ub : array2) (V : array4) i j k l : (forall a b c d, V a b c d = V c d a b) -> two_electron N Ua Ub V i j k l = two_electron N Ua Ub V k l i j.
  Proof.
    intros H. unfold two_electron. rewrite (andb_comm (Bool.eqb (down N k) (down N l))). destruct (Bool.eqb (down N i) (down N j) && Bool.eqb (down N k) (down N l)); [|reflexivity].
    transitivity (upto N (fun a => upto N (fun c => upto N (fun b => upto N (fun d => component N Ua Ub i a * component N Ua Ub j b * component N Ua Ub k c * component N Ua Ub l d * V a b c d))))); [apply upto_ext; intros; apply upto_swap|].
    rewrite upto_swap. apply upto_ext. intros c _.
    transitivity (upto N (fun a => upto N (fun d => upto N (fun b => component N Ua Ub i a * component N Ua Ub j b * component N Ua Ub k c * component N Ua Ub l d * V a b c d)))); [apply upto_ext; intros; apply upto_swap|].
    rewrite upto_swap. apply upto_ext. intros d _. apply upto_ext. intros a _. apply upto_ext. intros b _. rewrite (H a b c d). ring.
  Qed.
  Lemma two_swap_bra (Ua Ub : array2) (V : array4) i j k l : (forall a b c d, V a b c d = V b a c d) -> two_electron N Ua Ub V i j k l = two_electron N Ua Ub V j i k l.
  Proof.
    intros H. unfold two_electron. replace (Bool.eqb (down N j) (down N i)) with (Bool.eqb (down N i) (down N j)) by (destruct (down N i), (down N j); reflexivity).
    destruct (Bool.eqb (down N i) (down N j) && _); [|reflexivity]. rewrite upto_swap. apply upto_ext. intros a _. apply upto_ext. intros b _. apply upto_ext. intros c _. apply upto_ext. intros d _. rewrite (H b a c d). ring.
  Qed.
  Lemma two_swap_ket (Ua Ub : array2) (V : array4) i j k l : (forall a b c d, V a b c d = V a b d c) -> two_electron N Ua Ub V i j k l = two_electron N Ua Ub V i j l k.
  Proof.
    intros H. unfold two_electron. replace (Bool.eqb (down N l) (down N k)) with (Bool.eqb (down N k) (down N l)) by (destruct (down N k), (down N l); reflexivity).
    destruct (_ && Bool.eqb (down N k) (down N l)); [|reflexivity]. apply upto_ext. intros a _. apply upto_ext. intros b _. rewrite upto_swap. apply upto_ext. intros c _. apply upto_ext. intros d _. rewrite (H a b d c). ring.
  Qed.

  Variables (No_as No_core : nat).
  Hypothesis HN : (No_core + No_as <= N)%nat.
  Notation alpha := (alpha_mo No_as No_core N).
  Notation beta := (beta_mo No_as No_core N).
  Lemma inside_full i : (i < 2 * N)%nat -> inside N N i = true.
  Proof.
    intros H. unfold inside, spatial, down. apply andb_true_intro. split; apply Nat.ltb_lt; [lia|]. destruct (N <=? i) eqn:E; [apply Nat.leb_le in E|apply Nat.leb_gt in E]; lia.
  Qed.
  Lemma place_inj i k j l i' k' j' l' : q4_eqb (i, k, j, l) (i', k', j', l') = Nat.eqb i i' && Nat.eqb k k' && Nat.eqb j j' && Nat.eqb l l'.
  Proof. cbn [q4_eqb]. now rewrite !(Nat.eqb_sym i'), !(Nat.eqb_sym k'), !(Nat.eqb_sym j'), !(Nat.eqb_sym l'). Qed.
  Lemma place_inj' i k j l i' k' j' l' : q4_eqb (i, j, k, l) (i', j', k', l') = Nat.eqb i i' && Nat.eqb k k' && Nat.eqb j j' && Nat.eqb l l'.
  Proof. cbn [q4_eqb]. rewrite !(Nat.eqb_sym i'), !(Nat.eqb_sym k'), !(Nat.eqb_sym j'), !(Nat.eqb_sym l'). destruct (Nat.eqb i i'), (Nat.eqb k k'), (Nat.eqb j j'), (Nat.eqb l l'); reflexivity. Qed.
  Lemma full_1ei (Ua Ub h : array2) : exists t, generate_spin_1ei N h Ua Ub alpha beta Full (spin2spac N) None = Some t /\
    forall i j, (i < 2 * N)%nat -> (j < 2 * N)%nat -> t i j = one_electron N Ua Ub h i j.
  Proof.
    destruct (spin_1ei_spec K No_as No_core N HN h Ua Ub Full None) as [t [E H]]. exists t. split; [exact E|]. intros i j Hi Hj. rewrite H. cbn [extent]. rewrite !inside_full by assumption. cbn [andb].
    unfold one_electron. now destruct (Bool.eqb (down N i) (down N j)).
  Qed.
  Lemma full_2ei (Ua Ub : array2) (V : array4) : exists t, generate_spin_2ei N V Ua Ub alpha beta Full (spin2spac N) None = Some t /\
    forall i k j l, (i < 2 * N)%nat -> (k < 2 * N)%nat -> (j < 2 * N)%nat -> (l < 2 * N)%nat -> t i k j l = if Nat.eqb i k || Nat.eqb j l then 0 else two_electron N Ua Ub V i j k l.
  Proof.
    destruct (spin_2ei_spec K No_as No_core N HN V Ua Ub true (fun i k j l => (i, k, j, l)) Full None place_inj) as [t [E H]]. exists t. split; [exact E|]. intros i k j l Hi Hk Hj Hl.
    specialize (H i k j l). cbn [get] in H. rewrite H. unfold two_value. cbn [extent]. rewrite !inside_full by assumption. cbn [andb]. destruct (Nat.eqb i k || Nat.eqb j l); cbn [negb]; ring.
  Qed.
  Lemma full_pyscf (Ua Ub : array2) (V : array4) : exists t, generate_spin_2ei_pyscf N V Ua Ub alpha beta Full (spin2spac N) None = Some t /\
    forall i k j l, (i < 2 * N)%nat -> (k < 2 * N)%nat -> (j < 2 * N)%nat -> (l < 2 * N)%nat -> t i j k l = two_electron N Ua Ub V i j k l.
  Proof.
    destruct (spin_2ei_spec K No_as No_core N HN V Ua Ub false (fun i k j l => (i, j, k, l)) Full None place_inj') as [t [E H]]. exists t. split; [exact E|]. intros i k j l Hi Hk Hj Hl.
    specialize (H i k j l). cbn [get] in H. rewrite H. unfold two_value. cbn [extent]. rewrite !inside_full by assumption. cbn [andb negb]. ring.
  Qed.
  Lemma full_ham (Ua Ub h : array2) (V : array4) : exists h' V', generate_spin_1ei N h Ua Ub alpha beta Full (spin2spac N) None = Some h' /\
    generate_spin_2ei N V Ua Ub alpha beta Full (spin2spac N) None = Some V' /\ meq (2 * N) (ham (2 * N) h' V') (basis_ham N Ua Ub h V).
  Proof.
    destruct (full_1ei Ua Ub h) as [h' [E1 H1]], (full_2ei Ua Ub V) as [V' [E2 H2]]. exists h', V'. split; [exact E1|]. split; [exact E2|]. apply ham_transformed; [exact H1|].
    intros p r q s Hp Hr Hq Hs N1 N2. rewrite H2 by assumption. apply Nat.eqb_neq in N1, N2. now rewrite N1, N2.
  Qed.
  Lemma full_energy (Ua Ub h : array2) (V : array4) (w : K) Ne psi : (forall a b, h a b = h b a) -> (forall a b c d, V a b c d = V b a c d) -> (forall a b c d, V a b c d = V a b d c) ->
    has_particles (2 * N) Ne psi -> (1 + 1 + 1 + 1) * w * ofnat (Ne - 1) = 1 ->
    exists h' V', generate_spin_1ei N h Ua Ub alpha beta Full (spin2spac N) None = Some h' /\ generate_spin_2ei N V Ua Ub alpha beta Full (spin2spac N) None = Some V' /\
    observable (2 * N) (build_K2 (2 * N) w h' V') (fun a b c d => rdm_of (2 * N) psi [a; b] [c; d]) = expect (2 * N) (basis_ham N Ua Ub h V) psi.
  Proof.
    intros Sh S1 S2 Hp Hw. destruct (full_1ei Ua Ub h) as [h' [E1 H1]], (full_2ei Ua Ub V) as [V' [E2 H2]]. exists h', V'. split; [exact E1|]. split; [exact E2|].
    rewrite (K2_energy K (2 * N) Ne w h' V' psi Hp Hw). apply expect_ext. apply ham_transformed.
    - intros p q Hq Hp'. rewrite H1 by assumption. now apply one_sym.
    - intros p r q s Lp Lr Lq Ls N1 N2. rewrite H2 by assumption. apply Nat.eqb_neq in N1, N2. rewrite N1, N2. cbn [Datatypes.orb]. rewrite (two_swap_bra Ua Ub V q p s r S1). now apply two_swap_ket.
  Qed.
End Ints5.
Section Ints6.
  Variable K : CoefRing.
  Add Ring KRing' : (c_ring K).
  Local Open Scope coef_scope.
  Notation array2 := (nat -> nat -> K).
  Notation array4 := (nat -> nat -> nat -> nat -> K).
  Variable N : nat.
  Lemma active_mode_full p : orb N 0 N p = p.
  Proof. unfold orb. destruct (p <? N) eqn:E; [lia|]. apply Nat.ltb_ge in E. lia. Qed.
  Lemma full_operator (tiny : K -> bool) (Ua Ub h : array2) (V : array4) : (forall x, tiny x = true -> x = 0) ->
    exists h' V' F, generate_spin_1ei N h Ua Ub (alpha_mo N 0 N) (beta_mo N 0 N) Full (spin2spac N) None = Some h' /\
      generate_spin_2ei N V Ua Ub (alpha_mo N 0 N) (beta_mo N 0 N) Full (spin2spac N) None = Some V' /\
      fermi_operator tiny (2 * N) N 0 N h' V' = Some F /\ (forall e, In e F -> length (fst e) = 2 * N)%nat /\ meq (2 * N) (fmat F) (basis_ham N Ua Ub h V).
  Proof.
    intros Ht. destruct (full_1ei K N N 0 (le_n N) Ua Ub h) as [h' [E1 H1]], (full_2ei K N N 0 (le_n N) Ua Ub V) as [V' [E2 H2]].
    destruct (fermi_operator_spec K tiny (2 * N) N 0 N h' V') as [F [E3 [L3 M3]]]; [lia|lia|].
    exists h', V', F. split; [exact E1|]. split; [exact E2|]. split; [exact E3|]. split; [exact L3|].
    intros x y Lx Ly. rewrite (M3 x y Lx Ly). apply ham_transformed; [| |exact Lx|exact Ly].
    - intros p q Hp Hq. rewrite !active_mode_full, <- H1 by assumption. unfold HamProofs.cut. destruct (tiny (h' p q)) eqn:T; [symmetry; now apply Ht|reflexivity].
    - intros p r q s Lp Lr Lq Ls N1 N2. rewrite !active_mode_full. specialize (H2 p r q s Lp Lr Lq Ls). apply Nat.eqb_neq in N1, N2. rewrite N1, N2 in H2. cbn [Datatypes.orb] in H2. rewrite <- H2.
      unfold HamProofs.cut. destruct (tiny (V' p r q s)) eqn:T; [symmetry; now apply Ht|reflexivity].
  Qed.
  Lemma plus0 (x : K) : x + 0 = x.
  Proof. ring. Qed.
  (** ** reorder *)
  Variable ge : K -> K -> bool.
  Definition signed_perm (n : nat) (T : array2) : Prop := exists (pi : nat -> nat) (s : nat -> K),
    (forall x, (x < n)%nat -> (pi x < n)%nat) /\ (forall x y, (x < n)%nat -> (y < n)%nat -> pi x = pi y -> x = y) /\ (forall x, s x * s x = 1) /\
    forall x y, (x < n)%nat -> (y < n)%nat -> T x y = if Nat.eqb (pi x) y then s x else 0.
  Lemma dot_upto n (A B : array2) x y : dot n A B x y = upto n (fun k => A x k * B k y).
  Proof.
    unfold dot, upto. rewrite (fold_point K (fun s k => s + A x k * B k y) (fun s => s) (fun k => A x k * B k y)); [ring|reflexivity].
  Qed.
  Lemma upto_one n k (f : nat -> K) : (k < n)%nat -> (forall j, (j < n)%nat -> j <> k -> f j = 0) -> upto n f = f k.
  Proof.
    intros Hk H. rewrite (upto_ext K n f (fun j => delta K k j * f k)).
    - apply (upto_delta K n k (fun _ => f k) Hk).
    - intros j Hj. unfold delta. destruct (Nat.eqb_spec k j) as [->|E]; [ring|]. rewrite H by auto. ring.
  Qed.
  Lemma reorder_step n T i j : (i < j)%nat -> (j < n)%nat -> signed_perm n T ->
    signed_perm n (dot n (entry K j i 1 (entry K i j (- (1)) (entry K j j 0 (entry K i i 0 identity)))) T).
  Proof.
    intros Hij Hj [pi [s [P1 [P2 [P3 P4]]]]].
    exists (fun x => if Nat.eqb x i then pi j else if Nat.eqb x j then pi i else pi x), (fun x => if Nat.eqb x i then - s j else if Nat.eqb x j then s i else s x).
    split; [|split; [|split]].
    - intros x Hx. destruct (Nat.eqb x i); [apply P1; lia|]. destruct (Nat.eqb x j); apply P1; lia.
    - intros x y Hx Hy. destruct (Nat.eqb_spec x i), (Nat.eqb_spec x j), (Nat.eqb_spec y i), (Nat.eqb_spec y j); subst; try lia; intros E; apply P2 in E; lia.
    - intros x. destruct (Nat.eqb x i); [|destruct (Nat.eqb x j); apply P3]. transitivity (s j * s j); [ring|apply P3].
    - intros x y Hx Hy. rewrite dot_upto. unfold entry, identity.
      assert (Nij : Nat.eqb i j = false) by (apply Nat.eqb_neq; lia). assert (Nji : Nat.eqb j i = false) by (apply Nat.eqb_neq; lia).
      destruct (Nat.eq_dec x i) as [->|Ni]; [|destruct (Nat.eq_dec x j) as [->|Nj]].
      + rewrite (upto_one n j); [|assumption|].
        * rewrite !Nij, !Nat.eqb_refl. cbn [andb]. rewrite P4 by lia. destruct (Nat.eqb (pi j) y); ring.
        * intros k Hk Nk. rewrite !Nij, !Nat.eqb_refl, (proj2 (Nat.eqb_neq k j)) by lia. cbn [andb]. rewrite (Nat.eqb_sym i k). destruct (Nat.eqb_spec k i); ring.
      + rewrite (upto_one n i); [|lia|].
        * rewrite !Nji, !Nat.eqb_refl. cbn [andb]. rewrite P4 by lia. destruct (Nat.eqb (pi i) y); ring.
        * intros k Hk Nk. rewrite !Nji, !Nat.eqb_refl, (proj2 (Nat.eqb_neq k i)) by lia. cbn [andb]. rewrite (Nat.eqb_sym j k). destruct (Nat.eqb_spec k j); ring.
      + assert (Xi : Nat.eqb x i = false) by (now apply Nat.eqb_neq). assert (Xj : Nat.eqb x j = false) by (now apply Nat.eqb_neq). rewrite (upto_one n x); [|assumption|].
        * rewrite !Xi, !Xj, Nat.eqb_refl. cbn [andb]. rewrite P4 by lia. destruct (Nat.eqb (pi x) y); ring.
        * intros k Hk Nk. rewrite !Xi, !Xj, (proj2 (Nat.eqb_neq x k)) by lia. cbn [andb]. ring.
  Qed.
  Lemma reorder_perm n (rdm1 : array2) : signed_perm n (reorder ge rdm1 n).
  Proof.
    unfold reorder.
    assert (I0 : signed_perm n identity).
    { exists (fun x => x), (fun _ => 1). repeat split; auto; intros; ring. }
    assert (Inner : forall i l T, (forall j, In j l -> (i < j < n)%nat) -> signed_perm n T -> signed_perm n (fold_left (fun T j =>
        if ge (rdm1 i i) (rdm1 j j) then T else dot n (entry K j i 1 (entry K i j (- (1)) (entry K j j 0 (entry K i i 0 identity)))) T) l T)).
    { intros i. induction l as [|j l IH]; intros T Hl HT; [exact HT|]. cbn [fold_left]. apply IH; [intros; apply Hl; now right|]. destruct (ge (rdm1 i i) (rdm1 j j)); [exact HT|].
      apply reorder_step; [apply Hl; now left|apply Hl; now left|exact HT]. }
    assert (Outer : forall l T, (forall i, In i l -> (i < n)%nat) -> signed_perm n T -> signed_perm n (fold_left (fun T i => fold_left (fun T j =>
        if ge (rdm1 i i) (rdm1 j j) then T else dot n (entry K j i 1 (entry K i j (- (1)) (entry K j j 0 (entry K i i 0 identity)))) T) (seq (S i) (n - S i)) T) l T)).
    { induction l as [|i l IH]; intros T Hl HT; [exact HT|]. cbn [fold_left]. apply IH; [intros; apply Hl; now right|]. apply Inner; [|exact HT]. intros j Hj. apply in_seq in Hj. lia. }
    apply Outer; [|exact I0]. intros i Hi. apply in_seq in Hi. lia.
  Qed.
  Lemma reorder_orthogonal n (rdm1 : array2) x y : (x < n)%nat -> (y < n)%nat -> upto n (fun k => reorder ge rdm1 n x k * reorder ge rdm1 n y k) = if Nat.eqb x y then 1 else 0.
  Proof.
    intros Hx Hy. destruct (reorder_perm n rdm1) as [pi [s [P1 [P2 [P3 P4]]]]].
    rewrite (upto_one n (pi x)); [|now apply P1|].
    - rewrite !P4 by auto. rewrite Nat.eqb_refl. destruct (Nat.eqb_spec x y) as [->|E]; [rewrite Nat.eqb_refl; apply P3|].
      destruct (Nat.eqb_spec (pi y) (pi x)) as [E'|_]; [apply P2 in E'; auto; congruence|ring].
    - intros k Hk Nk. rewrite (P4 x k) by assumption. destruct (Nat.eqb_spec (pi x) k); [congruence|ring].
  Qed.
End Ints6.
Section Ints7.
  Variable K : CoefRing.
  Notation array2 := (nat -> nat -> K).
  Variable ge : K -> K -> bool.
  Lemma reorder_sorted n (rdm1 : array2) : (forall i j, i < j -> j < n -> ge (rdm1 i i) (rdm1 j j) = true) -> reorder ge rdm1 n = identity.
  Proof.
    intros H. unfold reorder.
    assert (Inner : forall (f : array2 -> nat -> array2) l T, (forall j, In j l -> f T j = T) -> fold_left f l T = T).
    { intros f. induction l as [|j l IH]; intros T Hl; [reflexivity|]. cbn [fold_left]. rewrite Hl by now left. apply IH. intros; apply Hl; now right. }
    apply Inner. intros i Hi. apply Inner. intros j Hj. apply in_seq in Hi, Hj. now rewrite H by lia.
  Qed.
End Ints7.
