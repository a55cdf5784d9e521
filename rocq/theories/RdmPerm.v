(** Proofs about Recursive.unordered_permute. *)
From Coq Require Import Bool List Arith Permutation Lia.
From Verif Require Import RdmModel RdmSpec RdmEnum.
Import ListNotations.

(** The sign after k further rounds. *)
Fixpoint run (n : nat) (s : bool) (k : nat) : bool :=
  match k with O => xorb s (Nat.odd n) | S k' => run (S n) (xorb s (Nat.odd n)) k' end.

Section Perm.
  Context {A : Type}.
  Implicit Types (l q ch temp before rest : list A).

  Lemma uperm_loop_In (rec : list A -> A -> bool -> list (list A * bool)) rest : forall n s before x,
    In x (uperm_loop rec n s before rest) <->
    exists a j b, rest = a ++ j :: b /\ In x (rec (before ++ a ++ b) j (run n s (length a))).
  Proof.
    induction rest as [|y rest IH]; intros n s before x; simpl.
    - split; [intros []|]. intros [[|? ?] [j [b [E _]]]]; discriminate.
    - rewrite in_app_iff, IH. split.
      + intros [H|[a [j [b [-> H]]]]].
        * exists [], y, rest. auto.
        * exists (y :: a), j, b. split; [reflexivity|]. rewrite <- app_assoc in H. exact H.
      + intros [[|z a] [j [b [E H]]]].
        * injection E as <- <-. left. exact H.
        * injection E as <- ->. right. exists a, j, b. split; [reflexivity|]. rewrite <- app_assoc. exact H.
  Qed.

  Lemma uperm_in_perm d : forall temp ch s t b, In (t, b) (uperm_in d temp ch s) ->
    exists q, t = temp ++ q /\ Permutation ch q.
  Proof.
    induction d as [|d IH]; intros temp ch s t b H; simpl in H.
    - destruct ch; [|destruct H]. destruct H as [E|[]]. injection E as <- <-. exists []. rewrite app_nil_r. auto.
    - apply uperm_loop_In in H as [a [j [c [-> H]]]]. apply IH in H as [q [-> P]]. exists (j :: q).
      rewrite <- app_assoc. split; [reflexivity|]. simpl in P. rewrite <- Permutation_middle. constructor. exact P.
  Qed.

  Lemma uperm_in_all d : forall temp ch s q, length ch = d -> Permutation ch q ->
    exists b, In (temp ++ q, b) (uperm_in d temp ch s).
  Proof.
    induction d as [|d IH]; intros temp ch s q L P; simpl.
    - destruct ch; [|discriminate]. apply Permutation_nil in P. subst. rewrite app_nil_r. exists s. left. reflexivity.
    - destruct q as [|j q]; [apply Permutation_sym, Permutation_nil in P; subst; discriminate|].
      assert (Hj : In j ch) by (apply (Permutation_in j (Permutation_sym P)); left; reflexivity).
      apply in_split in Hj as [a [c ->]].
      assert (P' : Permutation (a ++ c) q).
      { apply (Permutation_cons_inv (a := j)). rewrite <- P. apply Permutation_middle. }
      destruct (IH (temp ++ [j]) (a ++ c) (run 0 s (length a)) q) as [b H].
      { rewrite app_length in *. simpl in L. lia. } { exact P'. }
      exists b. apply uperm_loop_In. exists a, j, c. split; [reflexivity|]. rewrite <- app_assoc in H. exact H.
  Qed.

  Lemma uperm_top_In d rest : forall n before x,
    In x (uperm_top d n before rest) <->
    exists a j b, rest = a ++ j :: b /\ In x (uperm_in d [j] (before ++ a ++ b) (Nat.odd (n + length a))).
  Proof.
    induction rest as [|y rest IH]; intros n before x; simpl.
    - split; [intros []|]. intros [[|? ?] [j [b [E _]]]]; discriminate.
    - rewrite in_app_iff, IH. split.
      + intros [H|[a [j [b [-> H]]]]].
        * exists [], y, rest. rewrite Nat.add_0_r. auto.
        * exists (y :: a), j, b. split; [reflexivity|]. rewrite <- app_assoc in H.
          cbn [length]. rewrite Nat.add_succ_r. exact H.
      + intros [[|z a] [j [b [E H]]]].
        * injection E as <- <-. left. rewrite Nat.add_0_r in H. exact H.
        * injection E as <- ->. right. exists a, j, b. split; [reflexivity|]. rewrite <- app_assoc.
          cbn [length] in H. rewrite Nat.add_succ_r in H. exact H.
  Qed.

  (** Exactly the permutations are listed ... *)
  Theorem unordered_permute_perm l q : l <> [] ->
    (In q (map fst (unordered_permute l)) <-> Permutation l q).
  Proof.
    intro Hn. unfold unordered_permute. rewrite in_map_iff. split.
    - intros [[t b] [<- H]]. apply uperm_top_In in H as [a [j [c [-> H]]]]. simpl in H |- *.
      apply uperm_in_perm in H as [q' [-> P]]. simpl. rewrite <- Permutation_middle. constructor. exact P.
    - intro P. destruct q as [|j q]; [apply Permutation_sym, Permutation_nil in P; contradiction|].
      assert (Hj : In j l) by (apply (Permutation_in j (Permutation_sym P)); left; reflexivity).
      apply in_split in Hj as [a [c ->]].
      assert (P' : Permutation (a ++ c) q).
      { apply (Permutation_cons_inv (a := j)). rewrite <- P. apply Permutation_middle. }
      destruct (uperm_in_all (length (a ++ j :: c) - 1) [j] (a ++ c) (Nat.odd (0 + length a)) q) as [b H].
      { rewrite !app_length. simpl. lia. } { exact P'. }
      exists (j :: q, b). split; [reflexivity|]. apply uperm_top_In. exists a, j, c. auto.
  Qed.

  (** ... each once. *)
  Lemma NoDup_split_uniq (a a' c c' : list A) j : NoDup (a ++ j :: c) -> a ++ j :: c = a' ++ j :: c' -> a = a' /\ c = c'.
  Proof.
    revert a'. induction a as [|x a IH]; intros a' N E; destruct a' as [|y a']; simpl in *.
    - injection E as E. auto.
    - injection E as <- ->. inversion_clear N as [|? ? Ni _]. exfalso. apply Ni. rewrite in_app_iff. right. left. reflexivity.
    - injection E as -> E. inversion_clear N as [|? ? Ni _]. exfalso. apply Ni. rewrite in_app_iff. right. left. reflexivity.
    - injection E as <- E. inversion_clear N. destruct (IH a') as [-> ->]; auto.
  Qed.
  Lemma head_in_loop d temp rest : forall n s before t b,
    In (t, b) (uperm_loop (fun ch j s' => uperm_in d (temp ++ [j]) ch s') n s before rest) ->
    exists j, nth_error t (length temp) = Some j /\ In j rest.
  Proof.
    intros n s before t b H. apply uperm_loop_In in H as [a [j [c [-> H]]]]. apply uperm_in_perm in H as [q [-> _]].
    exists j. rewrite <- app_assoc, nth_error_app2, Nat.sub_diag by lia. split; [reflexivity|]. rewrite in_app_iff. right. left. reflexivity.
  Qed.
  Lemma uperm_in_NoDup d : forall temp ch s, NoDup ch -> NoDup (map fst (uperm_in d temp ch s)).
  Proof.
    induction d as [|d IH]; intros temp ch s N; simpl.
    - destruct ch; repeat constructor; auto.
    - assert (G : forall rest n s' before, NoDup (before ++ rest) ->
        NoDup (map fst (uperm_loop (fun ch j s'' => uperm_in d (temp ++ [j]) ch s'') n s' before rest))).
      { intro rest. induction rest as [|j rest IHr]; intros n s' before N'; simpl; [constructor|].
        rewrite map_app. apply NoDup_app_disj.
        - apply IH. apply NoDup_remove_1 in N'. exact N'.
        - apply IHr. rewrite <- app_assoc. exact N'.
        - intros t H1 H2. apply in_map_iff in H1 as [[t1 b1] [E1 H1]]. apply in_map_iff in H2 as [[t2 b2] [E2 H2]].
          simpl in E1, E2. subst t1 t2. apply uperm_in_perm in H1 as [q [-> _]].
          apply head_in_loop in H2 as [j' [E H2]]. rewrite <- app_assoc, nth_error_app2, Nat.sub_diag in E by lia.
          injection E as <-. apply NoDup_remove_2 in N'. apply N'. rewrite in_app_iff. right. exact H2. }
      apply G. exact N.
  Qed.
  Theorem unordered_permute_NoDup l : NoDup l -> NoDup (map fst (unordered_permute l)).
  Proof.
    unfold unordered_permute. generalize (length l - 1). intros d N.
    assert (G : forall rest n before, NoDup (before ++ rest) -> NoDup (map fst (uperm_top d n before rest))).
    { intro rest. induction rest as [|j rest IHr]; intros n before N'; simpl; [constructor|].
      rewrite map_app. apply NoDup_app_disj.
      - apply uperm_in_NoDup. apply NoDup_remove_1 in N'. exact N'.
      - apply IHr. rewrite <- app_assoc. exact N'.
      - intros t H1 H2. apply in_map_iff in H1 as [[t1 b1] [E1 H1]]. apply in_map_iff in H2 as [[t2 b2] [E2 H2]].
        simpl in E1, E2. subst t1 t2. apply uperm_in_perm in H1 as [q [-> _]].
        apply uperm_top_In in H2 as [a [j' [c [-> H2]]]]. apply uperm_in_perm in H2 as [q' [E _]].
        injection E as -> _. apply NoDup_remove_2 in N'. apply N'. rewrite !in_app_iff. simpl. auto. }
    apply (G l 0 []). exact N.
  Qed.
End Perm.

(** Up to three indices, explicitly. *)
Lemma uperm1 {A} (a : A) : unordered_permute [a] = [([a], false)]. Proof. reflexivity. Qed.
Lemma uperm2 {A} (a b : A) : unordered_permute [a; b] = [([a; b], false); ([b; a], true)]. Proof. reflexivity. Qed.
Lemma uperm3 {A} (a b c : A) : unordered_permute [a; b; c] =
  [([a; b; c], false); ([a; c; b], true); ([b; a; c], true); ([b; c; a], false); ([c; a; b], false); ([c; b; a], true)].
Proof. reflexivity. Qed.

Theorem unordered_permute_sign l q s : length l <= 3 -> NoDup l ->
  In (q, s) (unordered_permute l) -> s = perm_sign l q.
Proof.
  intros L N H. destruct l as [|a [|b [|c [|d l]]]]; [destruct H| | | |simpl in L; lia].
  - rewrite uperm1 in H. destruct H as [E|[]]. injection E as <- <-. unfold perm_sign. simpl. reflexivity.
  - assert (Hab : a <> b) by (inversion_clear N as [|? ? X _]; intros ->; simpl in X; tauto).
    apply Nat.eqb_neq in Hab as H1. assert (H2 := H1). rewrite Nat.eqb_sym in H2.
    rewrite uperm2 in H. destruct H as [E|[E|[]]]; injection E as <- <-; unfold perm_sign; simpl; rewrite ?Nat.eqb_refl, ?H1, ?H2; reflexivity.
  - inversion_clear N as [|? ? X N']. inversion_clear N' as [|? ? Y _]. simpl in X, Y.
    assert (Hab : a <> b) by (intros ->; tauto). assert (Hac : a <> c) by (intros ->; tauto). assert (Hbc : b <> c) by (intros ->; tauto).
    apply Nat.eqb_neq in Hab as H1. assert (H2 := H1). rewrite Nat.eqb_sym in H2.
    apply Nat.eqb_neq in Hac as H3. assert (H4 := H3). rewrite Nat.eqb_sym in H4.
    apply Nat.eqb_neq in Hbc as H5. assert (H6 := H5). rewrite Nat.eqb_sym in H6.
    rewrite uperm3 in H. simpl in H.
    repeat (destruct H as [E|H]; [injection E as <- <-; unfold perm_sign; simpl; rewrite ?Nat.eqb_refl, ?H1, ?H2, ?H3, ?H4, ?H5, ?H6; simpl; rewrite ?Nat.eqb_refl; reflexivity|]).
    destruct H.
Qed.
