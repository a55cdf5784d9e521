(** Proofs about the conversions between operators and arrays. *)
From Coq Require Import Bool List Arith ZArith Lia Ring.
From Verif Require Import Coeff MatSpec MatLemmas KronLemmas OpSpec CircuitSpec FockSpec PauliModel PauliProofs OperatorModel OperatorProofs
  FermiModel TraceSpec TraceProofs TransformModel TwoTerm JWProofs QubitProofs TransformLin CircModel CircModel2 CircSpec2 CircSpec3 CircProofs1 CircProofs2 CircProofs3.
Import ListNotations.

Section Conv.
  Variable K : CoefRing.
  Add Ring KRing : (c_ring K).
  Local Open Scope coef_scope.

  (** * Operators to arrays *)
  Lemma letter_mult n q p : (q < n)%nat -> multiplies n (letter_gate q p) (at1 n q (@pauli1 K p)).
  Proof.
    intro H. destruct p; unfold letter_gate.
    - eapply mult_ext; [apply meq_sym, at1_one; exact H|apply mult_nil].
    - apply mult_sqg'; [exact H|]. intros [] []; reflexivity.
    - apply mult_sqg'; [exact H|]. intros [] []; reflexivity.
    - apply mult_sqg'; [exact H|]. intros [] []; reflexivity.
  Qed.
  Lemma string_mult s : forall q n, n = (q + length s)%nat -> multiplies n (string_gates q s) (kron (repeat (pauli1 PI) q ++ map (@pauli1 K) s)).
  Proof.
    induction s as [|p s IH]; intros q n Hn; cbn [string_gates map length] in *.
    - rewrite app_nil_r. subst n. rewrite Nat.add_0_r. eapply mult_ext; [apply meq_sym, kron_one|apply mult_nil].
    - eapply mult_ext; [|apply mult_app; [apply letter_mult; lia|apply IH; lia]].
      unfold at1. eapply meq_trans; [apply kron_mul; rewrite app_length, ?map_length; cbn [length]; rewrite ?repeat_length; lia|].
      intros r c _ _. apply kron_eqk.
      replace (repeat (pauli1 PI) (S q) ++ map pauli1 s) with (repeat (pauli1 PI) q ++ @pauli1 K PI :: map pauli1 s).
      2:{ cbn [repeat]. clear. induction q as [|q IHq]; [reflexivity|]. cbn [repeat app]. now rewrite IHq. }
      rewrite zip2_app by now rewrite !repeat_length. apply eqk_app; [apply zip2_I_l, repeat_length|].
      cbn [zip2]. constructor; [apply mul2_I_l|].
      replace (n - q - 1)%nat with (length (map (@pauli1 K) s)) by (rewrite map_length; lia). now apply zip2_I_r.
  Qed.
  Lemma string_run s : exists m, apply_all (length s) (string_gates 0 s) (Some (@circ_init K)) = Some m /\ meq (length s) m (pmat s).
  Proof.
    destruct (string_mult s 0%nat (length s) eq_refl circ_init) as [m [E M]]. exists m. split; [exact E|].
    eapply meq_trans; [exact M|]. eapply meq_trans; [apply mmul_one_r|]. intros r c _ _. symmetry. apply pmat_kron.
  Qed.
  Lemma string_to_matrix_spec s (c : K) : exists m, string_to_matrix s c = Some m /\ meq (length s) m (mscal c (pmat s)).
  Proof.
    destruct (string_run s) as [m [E M]]. unfold string_to_matrix. rewrite E. eexists. split; [reflexivity|].
    intros r k Hr Hk. unfold mscal, mzero. rewrite (M r k Hr Hk). ring.
  Qed.
  Lemma op_fold_spec n (o : list (list pauli * K)) : (forall e, In e o -> length (fst e) = n) -> forall A,
    exists M, fold_left (add_term n) o (Some A) = Some M /\ meq n M (madd A (omat o)).
  Proof.
    induction o as [|[s x] o IH]; intros H A; cbn [fold_left add_term fst snd].
    - exists A. split; [reflexivity|]. intros r c _ _. unfold madd, mzero. cbn. unfold mzero. ring.
    - pose proof (H (s, x) (or_introl eq_refl)) as L. cbn [fst] in L. rewrite L, Nat.eqb_refl.
      destruct (string_run s) as [m [E M]]. rewrite L in E, M. rewrite E. cbn [option_map].
      destruct (IH (fun e He => H e (or_intror He)) (fun r k => A r k + m r k * x)) as [M' [E' HM]]. exists M'. split; [exact E'|].
      intros r c Hr Hc. rewrite (HM r c Hr Hc). unfold madd. rewrite omat_cons, (M r c Hr Hc). ring.
  Qed.
  Lemma operator_to_matrix_spec n (o : list (list pauli * K)) : o <> [] -> (forall e, In e o -> length (fst e) = n) ->
    exists M, operator_to_matrix o = Some (n, M) /\ meq n M (omat o).
  Proof.
    intros Hne H. destruct o as [|e0 o']; [contradiction|]. unfold operator_to_matrix. rewrite (H e0 (or_introl eq_refl)).
    destruct (op_fold_spec n (e0 :: o') H mzero) as [M [E HM]]. exists M. split.
    - rewrite E. reflexivity.
    - intros r c Hr Hc. rewrite (HM r c Hr Hc). unfold madd, mzero. ring.
  Qed.

  (** * Arrays to operators *)
  Lemma entry_letters_length n i j : length i = n -> length j = n -> length (entry_letters i j) = n.
  Proof. revert i j. induction n as [|n IH]; intros [|a i] [|b j] Hi Hj; try discriminate; [reflexivity|]. cbn. f_equal. apply IH; [now injection Hi|now injection Hj]. Qed.
  Lemma entry_letters_inj n : forall i j i' j', length i = n -> length j = n -> length i' = n -> length j' = n ->
    entry_letters i j = entry_letters i' j' -> i = i' /\ j = j'.
  Proof.
    induction n as [|n IH]; intros [|a i] [|b j] [|a' i'] [|b' j'] H1 H2 H3 H4 E; try discriminate; [split; reflexivity|].
    cbn in E. injection E as E1 E2. injection H1 as H1. injection H2 as H2. injection H3 as H3. injection H4 as H4.
    destruct (IH i j i' j' H1 H2 H3 H4 E2) as [-> ->]. destruct a, b, a', b'; try discriminate; split; reflexivity.
  Qed.
  Lemma entry_mat n : forall i j r c, length i = n -> length j = n -> length r = n -> length c = n ->
    kron (map (olocal K) (entry_letters i j)) r c = (if bits_eqb r i && bits_eqb c j then 1 else 0 : K).
  Proof.
    induction n as [|n IH]; intros [|a i] [|b j] [|x r] [|y c] H1 H2 H3 H4; try discriminate; [reflexivity|].
    injection H1 as H1. injection H2 as H2. injection H3 as H3. injection H4 as H4.
    cbn [entry_letters map kron bits_eqb]. rewrite (IH i j r c) by assumption.
    destruct (bits_eqb r i), (bits_eqb c j); destruct a, b, x, y; cbn; ring.
  Qed.

  Section Big.
    Variable big : K -> bool.
    Definition entries (n : nat) (M : mat K) (rows : list bits) : list (fstr * K) :=
      flat_map (fun i => flat_map (fun j => if big (M i j) then [(entry_letters i j, M i j)] else []) (all_bits n)) rows.
    Lemma entries_in n M rows e : In e (entries n M rows) <->
      exists i j, In i rows /\ length j = n /\ big (M i j) = true /\ e = (entry_letters i j, M i j).
    Proof.
      unfold entries. rewrite in_flat_map. split.
      - intros [i [Hi H]]. apply in_flat_map in H. destruct H as [j [Hj H]]. destruct (big (M i j)) eqn:B; [|destruct H].
        destruct H as [<- | []]. exists i, j. rewrite all_bits_in in Hj. auto.
      - intros [i [j [Hi [Hj [B ->]]]]]. exists i. split; [exact Hi|]. apply in_flat_map. exists j. rewrite all_bits_in. split; [exact Hj|]. rewrite B. now left.
    Qed.
    Lemma row_nodup n M i (cols : list bits) : length i = n -> NoDup cols -> (forall j, In j cols -> length j = n) ->
      NoDup (map fst (flat_map (fun j => if big (M i j) then [(entry_letters i j, M i j)] else []) cols)).
    Proof.
      intros Hi ND H. induction ND as [|j cols Hj ND IH]; cbn; [constructor|]. rewrite map_app. apply NoDup_app_intro.
      - destruct (big (M i j)); cbn; repeat constructor. intros [].
      - apply IH. intros j' Hj'. apply H. now right.
      - intros k G G'. destruct (big (M i j)); cbn in G; [|contradiction]. destruct G as [<- | []].
        apply in_map_iff in G'. destruct G' as [[k' x] [E G']]. cbn in E. subst k'. apply in_flat_map in G'. destruct G' as [j' [Hj' G']].
        destruct (big (M i j')); [|contradiction]. destruct G' as [E | []]. injection E as E _.
        destruct (entry_letters_inj n i j' i j Hi (H j' (or_intror Hj')) Hi (H j (or_introl eq_refl)) E) as [_ ->]. contradiction.
    Qed.
    Lemma entries_nodup n M (rows : list bits) : NoDup rows -> (forall i, In i rows -> length i = n) -> NoDup (map fst (entries n M rows)).
    Proof.
      intros ND H. unfold entries. induction ND as [|i rows Hi ND IH]; cbn [flat_map]; [constructor|]. rewrite map_app. apply NoDup_app_intro.
      - apply (row_nodup n); [apply H; now left|apply all_bits_nodup|]. intros j. apply all_bits_in.
      - apply IH. intros i' Hi'. apply H. now right.
      - intros k G G'. apply in_map_iff in G. destruct G as [[k1 x] [E1 G]]. cbn in E1. subst k1. apply in_flat_map in G. destruct G as [j [Hj G]].
        destruct (big (M i j)); [|contradiction]. destruct G as [E | []]. injection E as <- _.
        apply in_map_iff in G'. destruct G' as [[k2 y] [E2 G']]. cbn in E2. subst k2.
        apply (entries_in n M rows) in G'. destruct G' as [i' [j' [Hi' [Hj' [_ E]]]]]. injection E as E _.
        apply all_bits_in in Hj.
        destruct (entry_letters_inj n i j i' j' (H i (or_introl eq_refl)) Hj (H i' (or_intror Hi')) Hj' E) as [-> _]. contradiction.
    Qed.
    Lemma m2q_eq n M : matrix_to_qubit big n M = entries n M (all_bits n).
    Proof.
      unfold matrix_to_qubit. fold (entries n M (all_bits n)).
      rewrite (fold_add_fresh K _ fstr_eqb fstr_eqb_spec'); [reflexivity|]. cbn [app]. apply entries_nodup; [apply all_bits_nodup|]. intro i. apply all_bits_in.
    Qed.
    (** Sum of a function over the entries. *)
    Lemma sumK_app (l m : list K) : sumK (l ++ m) = sumK l + sumK m.
    Proof. unfold sumK. induction l as [|x l IH]; cbn; [ring|]. rewrite IH. ring. Qed.
    Lemma sumK_flat {A} (f : A -> list K) (l : list A) : sumK (flat_map f l) = sumK (map (fun x => sumK (f x)) l).
    Proof. induction l as [|x l IH]; cbn [flat_map map]; [reflexivity|]. rewrite sumK_app, IH. reflexivity. Qed.
    Lemma entries_sum n M (f : fstr * K -> K) : sumK (map f (entries n M (all_bits n))) =
      sumbits n (fun i => sumbits n (fun j => if big (M i j) then f (entry_letters i j, M i j) else 0)).
    Proof.
      unfold entries. rewrite flat_map_concat_map, concat_map, map_map, <- flat_map_concat_map, sumK_flat.
      transitivity (sumK (map (fun i => sumbits n (fun j => if big (M i j) then f (entry_letters i j, M i j) else 0)) (all_bits n))); [|apply sum_all_bits].
      f_equal. apply map_ext. intro i. rewrite flat_map_concat_map, concat_map, map_map, <- flat_map_concat_map, sumK_flat.
      rewrite <- sum_all_bits. unfold sumK. f_equal. apply map_ext. intro j. destruct (big (M i j)); cbn; ring.
    Qed.
    Lemma entries_pick n M (g : bits -> bits -> K) r c : length r = n -> length c = n ->
      (forall i j, length i = n -> length j = n -> g i j = if bits_eqb i r && bits_eqb j c then cut big M i j else 0) ->
      sumbits n (fun i => sumbits n (fun j => g i j)) = cut big M r c.
    Proof.
      intros Hr Hc H. rewrite (sumbits_ext K n _ (fun i => if bits_eqb i r then cut big M i c else 0)); [now rewrite sum_pick1|].
      intros i Hi. rewrite (sumbits_ext K n _ (fun j => if bits_eqb j c then (if bits_eqb i r then cut big M i j else 0) else 0)); [now rewrite sum_pick1|].
      intros j Hj. rewrite H by assumption. destruct (bits_eqb i r), (bits_eqb j c); reflexivity.
    Qed.
    Lemma matrix_to_qubit_spec n M : meq n (fun r c => sumK (map (fun e => snd e * qstr_mat (fst e) r c) (matrix_to_qubit big n M))) (cut big M).
    Proof.
      intros r c Hr Hc. rewrite m2q_eq, entries_sum. apply (entries_pick n M); [exact Hr|exact Hc|].
      intros i j Hi Hj. cbn [fst snd]. unfold cut. rewrite qstr_kron by (rewrite (entry_letters_length n); assumption).
      rewrite (entry_mat n) by assumption. rewrite (bits_eqb_sym r i), (bits_eqb_sym c j).
      destruct (big (M i j)), (bits_eqb i r), (bits_eqb j c); cbn; ring.
    Qed.
    Lemma letter_local s : map (@qlocal K) (map letter_q s) = map (olocal K) s.
    Proof. rewrite map_map. apply map_ext. intros [o|]; reflexivity. Qed.
    Lemma qcount_entries n i j : length i = n -> length j = n -> qcount (map letter_q (entry_letters i j)) = n.
    Proof. revert i j. induction n as [|n IH]; intros [|a i] [|b j] Hi Hj; try discriminate; [reflexivity|]. unfold qcount in *. cbn. f_equal. apply IH; [now injection Hi|now injection Hj]. Qed.
    Lemma matrix_to_pauli_spec n M : (forall i j, length i = n -> length j = n -> big (M i j) = true -> small (cpow chalf n * M i j) = false) ->
      exists D : list (list pauli * K), (forall e, In e D -> small (snd e) = true) /\
        meq n (madd (omat (matrix_to_pauli big n M)) (omat D)) (cut big M).
    Proof.
      intro H. unfold matrix_to_pauli, qubit_transform, op_transform.
      destruct (fold_op_add K _ pauli_list_eqb pauli_list_eqb_spec (map (fun e : fstr * K => qubit_string (map letter_q (fst e)) (snd e)) (matrix_to_qubit big n M)) [] ltac:(constructor))
        as [D [H1 [H2 [H3 [H4 [H5 _]]]]]].
      exists D. split; [exact H1|]. intros r c Hr Hc. unfold madd. rewrite !omat_is_lin, H5. cbn [lin]. rewrite map_map.
      transitivity (sumK (map (fun e : fstr * K => lin (fun k => pmat k r c) (qubit_string (map letter_q (fst e)) (snd e))) (matrix_to_qubit big n M))); [ring|].
      rewrite m2q_eq, entries_sum. apply (entries_pick n M); [exact Hr|exact Hc|].
      intros i j Hi Hj. cbn [fst snd]. unfold cut. destruct (big (M i j)) eqn:B.
      - rewrite <- omat_is_lin.
        assert (HS : small (cpow chalf (qcount (map letter_q (entry_letters i j))) * M i j) = false) by (rewrite (qcount_entries n) by assumption; now apply H).
        assert (L : length (map letter_q (entry_letters i j)) = n) by (rewrite map_length; now apply entry_letters_length).
        rewrite (qubit_string_spec K (map letter_q (entry_letters i j)) (M i j) HS) by (unfold bits in *; congruence).
        unfold mscal. rewrite letter_local, (entry_mat n) by assumption. rewrite (bits_eqb_sym r i), (bits_eqb_sym c j).
        destruct (bits_eqb i r), (bits_eqb j c); cbn; ring.
      - destruct (bits_eqb i r && bits_eqb j c); reflexivity.
    Qed.
  End Big.

  (** * Averages *)
  Lemma density_expect n (A : mat K) (psi : bits -> K) : sumbits n (fun r => mmul n (density psi) A r r) = expect n A psi.
  Proof.
    unfold mmul, density, expect, mvec. rewrite sumbits_swap. apply sumbits_ext. intros k _. rewrite <- sumbits_scal. apply sumbits_ext. intros r _. ring.
  Qed.
End Conv.
