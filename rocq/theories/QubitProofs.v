(** Proofs about QubitString and the Qubit transform. *)
From Coq Require Import Bool List Arith ZArith Lia Ring Permutation.
From Verif Require Import Coeff MatSpec MatLemmas KronLemmas PauliModel PauliProofs OperatorModel
  OperatorProofs FockSpec FermiModel FermiProofs TransformModel TwoTerm JWProofs.
Import ListNotations.

(** * QubitString: same loops, sign forgotten *)
Lemma qubit1_fock1 o j n : qubit1 o j n = option_map snd (fock1 o j n).
Proof.
  unfold qubit1, fock1. destruct (nth_error n j); [|reflexivity]. destruct (local o b); reflexivity.
Qed.

Lemma qubits_fock l n : qubits l n = option_map snd (fock l n).
Proof.
  induction l as [|[o j] l IH]; [reflexivity|]. rewrite fock_cons. cbn [qubits]. rewrite IH.
  destruct (fock l n) as [[s m]|]; [|reflexivity]. cbn. rewrite qubit1_fock1.
  destruct (fock1 o j m) as [[s' m']|]; reflexivity.
Qed.

Lemma qubits_rel s l l' n : fock_rel s l l' -> qubits l n = qubits l' n.
Proof. intro H. rewrite !qubits_fock, H. destruct (fock l' n) as [[t m]|]; reflexivity. Qed.

Section Qubit.
  Variable K : CoefRing.
  Add Ring KRing : (c_ring K).
  Local Open Scope coef_scope.
  Notation pop := (opv K (list pauli)).

  Lemma qubits_mat_rel s l l' r c : fock_rel s l l' -> @qubits_mat K l r c = qubits_mat l' r c.
  Proof. intro H. unfold qubits_mat, pmap_mat. rewrite (qubits_rel s l l' c H). reflexivity. Qed.

  Lemma qubit_new_spec (c : K) l N : l <> [] -> (forall e, In e l -> snd e < N) ->
    exists s c', qubit_new c l N = Some (s, c') /\ length s = N
      /\ (forall r q, c' * qstr_mat s r q = c * qubits_mat l r q)
      /\ (c' = c \/ c' = 0).
  Proof.
    intros Hne H. unfold qubit_new, generate.
    destruct (sort_loop_spec K false (S (length l * length l)%nat) c l) as [s [l1 [E [R [P S]]]]].
    { pose proof (inversions_le l). lia. }
    rewrite E. cbn [andb sgn].
    assert (Hne1 : l1 <> []) by (intros ->; apply Permutation_sym, Permutation_nil in P; contradiction).
    replace (c * 1) with c by ring.
    destruct (merge_stage_spec l1 S) as [[M Z]|[l2 [M [R2 [S2 [I2 N2]]]]]]; rewrite M.
    - cbn beta iota zeta. rewrite ceqb_refl.
      exists (repeat None N), 0. split; [reflexivity|]. split; [apply repeat_length|].
      split; [|auto]. intros r q. rewrite (qubits_mat_rel s l l1 r q R).
      replace (@qubits_mat K l1 r q) with (0 : K) by (unfold qubits_mat, pmap_mat; rewrite qubits_fock, Z; reflexivity). ring.
    - cbn beta iota zeta. destruct (ceqb c 0) eqn:Ec.
      + apply ceqb_spec in Ec. exists (repeat None N), c. split; [reflexivity|].
        split; [apply repeat_length|]. split; [|left; reflexivity].
        intros r q. rewrite Ec. ring.
      + specialize (N2 Hne1). destruct l2 as [|e2 l2]; [contradiction|].
        destruct (assemble_spec (e2 :: l2) N) as [F L]; [discriminate|exact S2| |].
        { intros e He. destruct (I2 e He) as [o Ho]. apply Permutation_sym in P.
          apply (Permutation_in _ P) in Ho. apply H in Ho. exact Ho. }
        eexists; eexists; split; [reflexivity|]. split; [exact L|]. split; [|left; reflexivity].
        intros r q. unfold qstr_mat. rewrite F. rewrite (qubits_mat_rel s l l1 r q R).
        rewrite (qubits_mat_rel false l1 _ r q R2). reflexivity.
  Qed.

  Lemma qubits_app l l' n :
    qubits (l ++ l') n = match qubits l' n with Some m => qubits l m | None => None end.
  Proof.
    induction l as [|[o j] l IH]; cbn.
    - destruct (qubits l' n); reflexivity.
    - rewrite IH. destruct (qubits l' n); reflexivity.
  Qed.

  Lemma qubits_length l n m : qubits l n = Some m -> length m = length n.
  Proof.
    rewrite qubits_fock. destruct (fock l n) as [[s m']|] eqn:E; [|discriminate]. cbn.
    intro H; injection H as <-. eapply fock_length. exact E.
  Qed.

  Lemma qubits_mat_app n l l' : meq n (@qubits_mat K (l ++ l')) (mmul n (qubits_mat l) (qubits_mat l')).
  Proof.
    intros r c Hr Hc. unfold qubits_mat. rewrite pmap_mat_comp; [|
      intros c' s m Hc' E; destruct (qubits l' c') eqn:F; [|discriminate];
      injection E as _ <-; apply qubits_length in F; congruence|assumption|assumption].
    unfold pmap_mat. rewrite qubits_app. destruct (qubits l' c) as [m|]; [|reflexivity]. cbn.
    destruct (qubits l m); reflexivity.
  Qed.

  Lemma qubit_mul_spec (x y : fstr * K) N :
    length (fst x) = N -> length (fst y) = N ->
    flat 0 (fst x) ++ flat 0 (fst y) <> [] ->
    exists s c, qubit_mul x y = Some (s, c) /\ length s = N /\
      meq N (mscal c (qstr_mat s)) (mmul N (mscal (snd x) (qstr_mat (fst x))) (mscal (snd y) (qstr_mat (fst y)))).
  Proof.
    intros Hx Hy Hne. unfold qubit_mul. rewrite Hx, Hy, Nat.max_id.
    destruct (qubit_new_spec (snd x * snd y) (flat 0 (fst x) ++ flat 0 (fst y)) N Hne) as [s [c [E [L [M _]]]]].
    { intros e He. apply in_app_or in He. destruct He as [He|He]; apply In_flat in He; lia. }
    exists s, c. split; [exact E|]. split; [exact L|]. intros r q Hr Hq.
    unfold mscal at 1. rewrite M. rewrite (qubits_mat_app N _ _ r q Hr Hq).
    rewrite mmul_scal_l by assumption. unfold mscal at 1.
    rewrite mmul_scal_r by assumption. unfold mscal, qstr_mat. ring.
  Qed.

  Lemma flat_None i N : flat i (repeat None N) = [].
  Proof. revert i. induction N; intro i; cbn; auto. Qed.

  Lemma qubit_mul_empty (N : nat) (c d : K) : c * d <> 0 ->
    qubit_mul (repeat None N, c) (repeat None N, d) = None.
  Proof.
    intro H. unfold qubit_mul, qubit_new, generate. cbn [fst snd]. rewrite flat_None. cbn.
    rewrite (proj2 (ceqb_false K _ _) H). reflexivity.
  Qed.

  (** * Strings as Kronecker products *)
  Definition olocal (x : option fop) : mat2 K :=
    match x with None => pauli1 PI | Some o => local2 o end.

  Lemma qubit1_S o j b n : qubit1 o (S j) (b :: n) = option_map (cons b) (qubit1 o j n).
  Proof.
    rewrite !qubit1_fock1, fock1_S. destruct (fock1 o j n) as [[s m]|]; reflexivity.
  Qed.
  Lemma qubits_shift s i b n : qubits (flat (S i) s) (b :: n) = option_map (cons b) (qubits (flat i s) n).
  Proof.
    revert i. induction s as [|[o|] s IH]; intro i; cbn [flat]; [reflexivity| |apply IH].
    cbn [qubits]. rewrite IH. destruct (qubits (flat (S i) s) n) as [m|]; [|reflexivity]. cbn [option_map].
    apply qubit1_S.
  Qed.

  Lemma qstr_kron s r c : length r = length s -> length c = length s ->
    @qstr_mat K s r c = kron (map olocal s) r c.
  Proof.
    revert r c. induction s as [|x s IH]; intros [|a r] [|b c] Hr Hc; try discriminate.
    - cbn. unfold qstr_mat, qubits_mat, pmap_mat. reflexivity.
    - cbn in Hr, Hc. cbn [map kron]. rewrite <- IH by lia.
      unfold qstr_mat, qubits_mat, pmap_mat. destruct x as [o|]; cbn [flat qubits olocal].
      + rewrite qubits_shift. destruct (qubits (flat 0 s) c) as [m|]; cbn [option_map]; [|ring].
        rewrite qubit1_fock1, fock1_0. unfold local2. destruct (local o b) as [b'|]; cbn; [|ring].
        destruct b', a; cbn; destruct (bits_eqb m r); cbn; ring.
      + rewrite qubits_shift. destruct (qubits (flat 0 s) c) as [m|]; cbn; [|ring].
        destruct a, b; cbn; destruct (bits_eqb m r); cbn; ring.
  Qed.

  (** * Qubit transform *)
  Definition qlocal (x : qlet) : mat2 K :=
    match x with QI => pauli1 PI | QZ => pauli1 PZ | QO o => local2 o end.

  Definition site (N q : nat) (M : mat2 K) : mat K :=
    kron (repeat (pauli1 PI) q ++ M :: repeat (pauli1 PI) (N - q - 1)%nat).

  Lemma map_repeat' {A B} (f : A -> B) x n : map f (repeat x n) = repeat (f x) n.
  Proof. induction n; cbn; [reflexivity|]. rewrite IHn. reflexivity. Qed.

  Lemma pmat_site N q p r c : pmat (repeat PI q ++ p :: repeat PI (N - q - 1)%nat) r c = site N q (pauli1 p) r c.
  Proof. unfold site. rewrite pmat_kron, map_app. cbn [map]. rewrite !map_repeat'. reflexivity. Qed.

  Lemma kron_lin w (x y : K) A B C m r c :
    (forall a b, x * A a b + y * B a b = C a b) ->
    x * kron (w ++ A :: m) r c + y * kron (w ++ B :: m) r c = kron (w ++ C :: m) r c.
  Proof.
    intro H. revert r c. induction w as [|W w IH]; intros [|a r] [|b c]; cbn; try ring.
    - rewrite <- H. ring.
    - rewrite <- IH. ring.
  Qed.

  Lemma qubit_term_mat N q o r c : omat (@qubit_term K N q o) r c = site N q (local2 o) r c.
  Proof.
    assert (Ci : (ci * ci : K) = - (1)) by apply ci_sq.
    assert (Hh : (chalf + chalf : K) = 1) by apply chalf_dbl.
    assert (H1 : (1 - chalf : K) = chalf) by apply one_minus_half.
    unfold qubit_term. destruct (ladder o) eqn:Ho;
      rewrite two_term_eq by (apply prefix_ne; [reflexivity|discriminate]);
      rewrite !omat_cons; cbn [omat]; unfold mzero; rewrite !pmat_site.
    - transitivity (chalf * site N q (pauli1 PX) r c + ladder_c2 o * site N q (pauli1 PY) r c); [ring|].
      apply kron_lin. intros a b.
      destruct o; try discriminate; cbn [ladder_c2]; rewrite ?H1; destruct a, b; cbn;
        first [ring | ring [Ci] | transitivity ((chalf + chalf) : K); [ring [Ci]|rewrite Hh; ring]].
    - transitivity (chalf * site N q (pauli1 PI) r c + number_c2 o * site N q (pauli1 PZ) r c); [ring|].
      apply kron_lin. intros a b.
      destruct o; try discriminate; cbn [number_c2]; rewrite ?H1; destruct a, b; cbn;
        first [ring | transitivity ((chalf + chalf) : K); [ring|rewrite Hh; ring]].
  Qed.

  Lemma qubit_term_ok N q o : q < N -> okterm N (fun j => j < S q) (fun j => j < q) (@qubit_term K N q o).
  Proof.
    intro Hq. unfold qubit_term.
    destruct (ladder_c2_eq K o) as [z Ez]. destruct (number_c2_eq K o) as [z' Ez'].
    destruct (ladder o); eapply okterm_prefix; try apply half_ipow; try eassumption; try discriminate;
      rewrite ?repeat_length; try reflexivity; intros; lia.
  Qed.

  Definition qcount (s : list qlet) : nat :=
    length (filter (fun x => match x with QO _ => true | _ => false end) s).

  Definition padded (N : nat) (rs : list qlet) : list (mat2 K) :=
    map qlocal (rev rs) ++ repeat (pauli1 PI) (N - length rs).

  Lemma padded_step N rs x : S (length rs) <= N ->
    meq N (mmul N (kron (padded N rs)) (site N (length rs) (qlocal x))) (kron (padded N (x :: rs))).
  Proof.
    intros HN r c Hr Hc. unfold site, padded.
    rewrite kron_mul; [|rewrite app_length, map_length, rev_length, repeat_length; lia|
      rewrite app_length; cbn [length]; rewrite !repeat_length; lia|assumption|assumption].
    apply kron_eqk. rewrite zip2_app by (rewrite map_length, rev_length, repeat_length; reflexivity).
    cbn [rev length]. rewrite map_app, <- app_assoc. apply eqk_app.
    - apply zip2_I_r. rewrite map_length, rev_length. reflexivity.
    - replace (N - length rs)%nat with (S (N - S (length rs)))%nat by lia. cbn [repeat zip2 map app].
      constructor; [apply mul2_I_l|].
      replace (S (N - S (length rs)) - 1)%nat with (N - S (length rs))%nat by lia.
      apply zip2_I_l. apply repeat_length.
  Qed.

  Lemma small_cpow_le k k' (c : K) : k <= k' -> small (cpow chalf k' * c) = false ->
    small (cpow chalf k * c) = false.
  Proof.
    intro H. induction H as [|k' H IH]; [auto|]. intro G. apply IH. apply small_cpow. exact G.
  Qed.

  Lemma qubit_loop_spec N (c : K) rs k new :
    length rs <= N -> Inv N c k (fun j => j < length rs) new ->
    small (cpow chalf (qcount rs + k)%nat * c) = false ->
    meq N (omat (qubit_loop N rs new)) (mmul N (kron (padded N rs)) (omat new)).
  Proof.
    revert k new. induction rs as [|x rs IH]; intros k new HN HI HS.
    - cbn. intros r q Hr Hq. unfold padded. cbn. rewrite Nat.sub_0_r.
      rewrite (mmul_meq K N _ _ _ _ (kron_one K N) (meq_refl K N _)) by assumption.
      rewrite mmul_one_l by assumption. reflexivity.
    - cbn [length] in HN. intros r q Hr Hq.
      assert (HI1 : Inv N c k (fun j => j < length rs) new).
      { destruct HI as [H1 [H2 [H3 H4]]]. split; [|split; [|split]]; auto. intros e e' j He He' Hj.
        apply H3; auto. cbn. lia. }
      destruct x as [| |o]; cbn [qubit_loop].
      + rewrite (IH k new) by (auto; lia).
        symmetry. rewrite <- (mmul_meq K N _ _ _ _ (padded_step N rs QI HN) (meq_refl K N _)) by assumption.
        rewrite <- mmul_assoc by assumption. apply mmul_meq; [apply meq_refl| |assumption|assumption].
        eapply meq_trans; [|apply mmul_one_l]. apply mmul_meq; [|apply meq_refl].
        unfold site. cbn [qlocal]. intros r' c' Hr' Hc'. rewrite <- (kron_one K N r' c' Hr' Hc').
        f_equal. replace N with (length rs + S (N - length rs - 1))%nat at 2 by lia.
        rewrite repeat_app. reflexivity.
      + set (zs := repeat PI (length rs) ++ PZ :: repeat PI (N - length rs - 1)%nat).
        assert (Lz : length zs = N) by (unfold zs; rewrite app_length; cbn; rewrite !repeat_length; lia).
        change (pop_add_string [] (zs, 1)) with [(zs, 1 : K)].
        replace [(zs, 1 : K)] with [(zs, @ipow K 0)] by reflexivity.
        destruct (pop_mul_step1 K N c k _ zs 0 new HI1 Lz) as [HI' HM].
        { eapply small_cpow_le; [|exact HS]. lia. }
        rewrite (IH k (pop_mul [(zs, ipow 0)] new)) by (auto; lia).
        rewrite (mmul_meq K N _ _ _ _ (meq_refl K N _) HM) by assumption.
        symmetry. rewrite <- (mmul_meq K N _ _ _ _ (padded_step N rs QZ HN) (meq_refl K N _)) by assumption.
        rewrite <- mmul_assoc by assumption. apply mmul_meq; [apply meq_refl| |assumption|assumption].
        apply mmul_meq; [|apply meq_refl]. intros r' c' Hr' Hc'. cbn. unfold madd, mscal, mzero, zs.
        rewrite pmat_site. unfold ipow. cbn. ring.
      + assert (HS' : small (cpow chalf (S k) * c) = false).
        { eapply small_cpow_le; [|exact HS]. unfold qcount. cbn. lia. }
        destruct (pop_mul_step K N c k _ (fun j => j < length rs) (qubit_term N (length rs) o) new HI
                    (qubit_term_ok N (length rs) o ltac:(lia)) HS') as [HI' [HM _]].
        rewrite (IH (S k)); [|lia|exact HI'| |assumption|assumption].
        2:{ unfold qcount in *. cbn [filter length] in HS.
            replace (length (filter (fun x => match x with QO _ => true | _ => false end) rs) + S k)%nat
              with (S (length (filter (fun x => match x with QO _ => true | _ => false end) rs)) + k)%nat by lia.
            exact HS. }
        rewrite (mmul_meq K N _ _ _ _ (meq_refl K N _) HM) by assumption.
        symmetry. rewrite <- (mmul_meq K N _ _ _ _ (padded_step N rs (QO o) HN) (meq_refl K N _)) by assumption.
        rewrite <- mmul_assoc by assumption. apply mmul_meq; [apply meq_refl| |assumption|assumption].
        apply mmul_meq; [|apply meq_refl]. intros r' c' Hr' Hc'. rewrite qubit_term_mat. reflexivity.
  Qed.

  Lemma qcount_rev s : qcount (rev s) = qcount s.
  Proof.
    unfold qcount. induction s as [|x s IH]; [reflexivity|]. cbn [rev].
    rewrite filter_app, app_length, IH. cbn [filter]. destruct x; cbn; lia.
  Qed.

  Lemma qubit_string_spec s (c : K) : small (cpow chalf (qcount s) * c) = false ->
    meq (length s) (omat (qubit_string s c)) (mscal c (kron (map qlocal s))).
  Proof.
    intros HS r q Hr Hq. unfold qubit_string.
    rewrite (qubit_loop_spec (length s) c (rev s) 0); [|rewrite rev_length; lia|apply Inv_init| |assumption|assumption].
    2:{ rewrite qcount_rev, Nat.add_0_r. exact HS. }
    unfold padded. rewrite rev_involutive, rev_length, Nat.sub_diag, app_nil_r.
    rewrite (mmul_meq K _ _ _ _ (mscal c mone) (meq_refl K _ _)); [|
      intros r' q' Hr' Hq'; cbn; unfold madd, mscal, mzero; rewrite pmat_identity by assumption; ring
      |assumption|assumption].
    rewrite mmul_scal_r by assumption. unfold mscal. rewrite mmul_one_r by assumption. reflexivity.
  Qed.
End Qubit.
