(** Proofs about truncation of the search direction. *)
From Coq Require Import Bool List Arith ZArith QArith Qabs Qminmax Lia Lqa Permutation.
From Verif Require Import AcseSpec AcseModel.
Import ListNotations.
Local Open Scope Q_scope.

Lemma Qltb_lt a b : Qltb a b = true <-> a < b.
Proof.
  unfold Qltb. rewrite negb_true_iff. split.
  - intro H. apply Qnot_le_lt. intro C. apply Qle_bool_iff in C. congruence.
  - intro H. apply not_true_iff_false. intro C. apply Qle_bool_iff in C. lra.
Qed.
Lemma Qltb_ge a b : Qltb a b = false <-> b <= a.
Proof. unfold Qltb. rewrite negb_false_iff. apply Qle_bool_iff. Qed.
Lemma Qle_bool_false a b : Qle_bool a b = false <-> b < a.
Proof.
  split.
  - intro H. apply Qnot_le_lt. intro C. apply Qle_bool_iff in C. congruence.
  - intro H. apply not_true_iff_false. intro C. apply Qle_bool_iff in C. lra.
Qed.

(** ** Vectors. *)
Lemma dot_zero_at i l g : dot (zero_at i l) g == dot l g - nth i l 0 * nth i g 0.
Proof.
  revert i g. induction l as [|x l IH]; intros i g.
  - destruct i; cbn; ring.
  - destruct i as [|i], g as [|y g]; cbn; try ring.
    rewrite IH. ring.
Qed.
Lemma zero_at_length i l : length (zero_at i l) = length l.
Proof. revert i. induction l as [|x l IH]; intros [|i]; cbn; auto. Qed.
Lemma zero_at_same i l : nth i (zero_at i l) 0 = 0.
Proof. revert i. induction l as [|x l IH]; intros [|i]; cbn; auto. Qed.
Lemma zero_at_other i j l : i <> j -> nth j (zero_at i l) 0 = nth j l 0.
Proof.
  revert i j. induction l as [|x l IH]; intros [|i] [|j] H; cbn; try reflexivity; try congruence.
  apply IH. congruence.
Qed.
Lemma hadamard_nth i a b : length a = length b -> nth i (hadamard a b) 0 == nth i a 0 * nth i b 0.
Proof.
  revert i b. induction a as [|x a IH]; intros i [|y b] L; cbn in L; try lia.
  - destruct i; cbn; ring.
  - destruct i as [|i]; cbn; [ring|]. apply IH. lia.
Qed.
Lemma inner_ext n a b a' b' : (forall i, (i < n)%nat -> a i * b i == a' i * b' i) -> inner n a b == inner n a' b'.
Proof.
  induction n as [|n IH]; intro H; cbn [inner]; [reflexivity|]. rewrite (H n) by lia. rewrite IH; [reflexivity|].
  intros i Hi. apply H. lia.
Qed.
Lemma inner_shift n a b : inner (S n) a b == a 0%nat * b 0%nat + inner n (fun i => a (S i)) (fun i => b (S i)).
Proof.
  induction n as [|n IH]; [cbn; ring|].
  change (inner (S (S n)) a b) with (inner (S n) a b + a (S n) * b (S n)). rewrite IH. cbn [inner]. ring.
Qed.
Lemma dot_inner a b : length a = length b -> dot a b == inner (length a) (entry a) (entry b).
Proof.
  revert b. induction a as [|x a IH]; intros [|y b] L; cbn in L; try lia; [reflexivity|].
  cbn [dot length]. rewrite inner_shift. cbn [entry nth]. rewrite (IH b) by lia.
  reflexivity.
Qed.

Lemma list_remove_in x l : In x l -> exists l1 l2, l = l1 ++ x :: l2 /\ list_remove x l = Some (l1 ++ l2).
Proof.
  induction l as [|y l IH]; intro H; [destruct H|]. cbn [list_remove].
  destruct (Nat.eqb x y) eqn:E.
  - apply Nat.eqb_eq in E. subst. exists [], l. auto.
  - destruct H as [H|H]; [subst; rewrite Nat.eqb_refl in E; discriminate|].
    destruct (IH H) as [l1 [l2 [E1 E2]]]. exists (y :: l1), l2. rewrite E2, E1. auto.
Qed.

Section Trunc.
  Variables (v g : list Q) (pair : nat -> nat) (method : trunc_method) (k_added : option (list nat)) (th : Q).
  Hypothesis len : length v = length g.
  Let n := length v.
  Hypothesis pair_lt : forall i, (i < n)%nat -> (pair i < n)%nat.
  Hypothesis pair_inv : forall i, (i < n)%nat -> pair (pair i) = i.

  (** Entry [j] may be removed: it is below the threshold and not one of the terms to keep. *)
  Definition removable (j : nat) : Prop :=
    match method with
    | TAbs => Qabs (entry v j) < th * (99999 # 100000)
    | TDelta => th * (99999 # 100000) < entry v j * entry g j
    end /\ match k_added with Some l => ~ In j l | None => True end.

  Lemma below_spec j : below v g method th j = true ->
    match method with
    | TAbs => Qabs (entry v j) < th * (99999 # 100000)
    | TDelta => th * (99999 # 100000) < entry v j * entry g j
    end.
  Proof.
    unfold below. destruct method; rewrite Qltb_lt; [intro H; exact H|]. rewrite hadamard_nth by exact len.
    intro H. exact H.
  Qed.

  Definition fate (t : list Q) (i : nat) : Prop :=
    (entry t i = entry v i /\ entry t (pair i) = entry v (pair i)) \/
    (pair i <> i /\ entry t i = 0 /\ entry t (pair i) = 0 /\ (removable i \/ removable (pair i))).

  Definition inv (check : list nat) (t : list Q) : Prop :=
    length t = n /\ NoDup check /\ (forall i, In i check -> (i < n)%nat /\ In (pair i) check /\ entry t i = entry v i) /\
    (forall i, (i < n)%nat -> ~ In i check -> fate t i).

  Lemma existsb_eqb j l : existsb (Nat.eqb j) l = true <-> In j l.
  Proof.
    rewrite existsb_exists. split.
    - intros [x [I E]]. apply Nat.eqb_eq in E. subst. exact I.
    - intro I. exists j. split; [exact I|apply Nat.eqb_refl].
  Qed.

  Definition balanced : Prop := forall i, (i < n)%nat -> entry v i * entry g i == entry v (pair i) * entry g (pair i).

  Lemma trunc_loop_ok fuel check t : (length check <= fuel)%nat -> inv check t ->
    exists r, trunc_loop v g pair method k_added th fuel check t = Some r /\ inv [] r /\
      (balanced -> dot t g < 0 -> dot r g < 0).
  Proof.
    revert check t. induction fuel as [|fuel IH]; intros check t L [Lt [ND [C F]]].
    - destruct check as [|x check]; [|cbn in L; lia]. exists t. split; [reflexivity|]. split; [split; auto|auto].
    - destruct check as [|x check].
      { exists t. split; [reflexivity|]. split; [split; auto|auto]. }
      cbn [trunc_loop]. destruct (C x (or_introl eq_refl)) as [Hx [Px Tx]].
      assert (Hp := pair_lt x Hx). fold n.
      rewrite (proj2 (Nat.ltb_lt x n) Hx), (proj2 (Nat.ltb_lt (pair x) n) Hp). cbn [andb].
      inversion ND as [|? ? Nx ND']; subst.
      destruct (Nat.eqb x (pair x)) eqn:E.
      + apply Nat.eqb_eq in E. apply IH; [cbn in L; lia|]. split; [exact Lt|]. split; [exact ND'|]. split.
        * intros i Hi. destruct (C i (or_intror Hi)) as [Ci [Cp Ct]]. split; [exact Ci|]. split; [|exact Ct].
          destruct Cp as [Cp|Cp]; [|exact Cp]. exfalso. apply Nx.
          replace x with i; [exact Hi|]. rewrite E, Cp at 1. rewrite pair_inv by exact Ci. reflexivity.
        * intros i Hi Ni. destruct (Nat.eq_dec i x) as [->|Nix].
          -- left. split; [exact Tx|]. rewrite <- E. exact Tx.
          -- apply F; [exact Hi|]. intros [I|I]; [subst; contradiction|contradiction].
      + apply Nat.eqb_neq in E.
        assert (Pr : In (pair x) check) by (destruct Px as [Px|Px]; [contradiction|exact Px]).
        destruct (list_remove_in _ _ Pr) as [l1 [l2 [E1 E2]]]. rewrite E2.
        assert (Sub : forall i, In i (l1 ++ l2) -> In i check).
        { intros i Hi. rewrite E1. apply in_or_app. apply in_app_or in Hi. destruct Hi; [left|right; right]; assumption. }
        assert (Sup : forall i, In i check -> i = pair x \/ In i (l1 ++ l2)).
        { intros i Hi. rewrite E1 in Hi. apply in_app_or in Hi. destruct Hi as [Hi|[Hi|Hi]].
          - right. apply in_or_app. left. exact Hi.
          - left. auto.
          - right. apply in_or_app. right. exact Hi. }
        assert (NP : ~ In (pair x) (l1 ++ l2)) by (rewrite E1 in ND'; apply NoDup_remove_2 in ND'; exact ND').
        assert (ND2 : NoDup (l1 ++ l2)) by (rewrite E1 in ND'; apply NoDup_remove_1 in ND'; exact ND').
        assert (Nx2 : ~ In x (l1 ++ l2)) by (intro I; apply Nx; apply Sub; exact I).
        assert (Cl : forall i, In i (l1 ++ l2) -> (i < n)%nat /\ In (pair i) (l1 ++ l2) /\ entry t i = entry v i /\ i <> x /\ i <> pair x).
        { intros i Hi. destruct (C i (or_intror (Sub i Hi))) as [Ci [Cp Ct]]. split; [exact Ci|].
          assert (i <> x) by (intro; subst; contradiction).
          assert (i <> pair x) by (intro; subst; contradiction).
          split; [|auto]. destruct Cp as [Cp|Cp].
          - exfalso. apply H0. rewrite Cp. rewrite pair_inv by exact Ci. reflexivity.
          - destruct (Sup _ Cp) as [S|S]; [|exact S]. exfalso. apply H.
            rewrite <- (pair_inv i Ci), S. apply pair_inv. exact Hx. }
        assert (Lf : (length (l1 ++ l2) <= fuel)%nat).
        { cbn in L. rewrite E1, app_length in L. cbn in L. rewrite app_length. lia. }
        assert (Tp : entry t (pair x) = entry v (pair x)) by (apply (C (pair x)); right; exact Pr).
        assert (Keep : inv (l1 ++ l2) t).
        { split; [exact Lt|]. split; [exact ND2|]. split.
          - intros i Hi. destruct (Cl i Hi) as [A [B [D _]]]. auto.
          - intros i Hi Ni. destruct (Nat.eq_dec i x) as [->|Nix]; [left; auto|].
            destruct (Nat.eq_dec i (pair x)) as [->|Nip].
            + left. rewrite pair_inv by exact Hx. auto.
            + apply F; [exact Hi|]. intros [I|I]; [subst; contradiction|]. destruct (Sup i I); contradiction. }
        destruct (match k_added with Some l => existsb (Nat.eqb x) l | None => false end) eqn:KA.
        * apply IH; assumption.
        * set (descent := dot t g - (nth x (hadamard v g) 0 + nth x (hadamard v g) 0)).
          destruct (below v g method th x && negb (Qle_bool 0 descent)) eqn:Rm.
          -- apply andb_prop in Rm. destruct Rm as [Rb Rd]. apply negb_true_iff in Rd. apply Qle_bool_false in Rd.
             assert (RX : removable x).
             { split; [apply below_spec; exact Rb|]. destruct k_added as [l|]; [|exact I].
               intro I. apply existsb_eqb in I. congruence. }
             set (t' := zero_at (pair x) (zero_at x t)).
             assert (T1 : entry t' x = 0).
             { unfold entry, t'. rewrite zero_at_other by auto. apply zero_at_same. }
             assert (T2 : entry t' (pair x) = 0) by (apply zero_at_same).
             assert (T3 : forall i, i <> x -> i <> pair x -> entry t' i = entry t i).
             { intros i A B. unfold entry, t'. rewrite !zero_at_other by auto. reflexivity. }
             assert (Inv' : inv (l1 ++ l2) t').
             { split; [unfold t'; rewrite !zero_at_length; exact Lt|]. split; [exact ND2|]. split.
               - intros i Hi. destruct (Cl i Hi) as [A [B [D [N1 N2]]]]. split; [exact A|]. split; [exact B|].
                 rewrite T3 by assumption. exact D.
               - intros i Hi Ni. destruct (Nat.eq_dec i x) as [->|Nix]; [right; auto|].
                 destruct (Nat.eq_dec i (pair x)) as [->|Nip].
                 + right. rewrite pair_inv by exact Hx. auto.
                 + assert (Fi : fate t i).
                   { apply F; [exact Hi|]. intros [I|I]; [subst; contradiction|]. destruct (Sup i I); contradiction. }
                   assert (P1 : pair i <> x) by (intro Z; apply Nip; rewrite <- Z; symmetry; apply pair_inv; exact Hi).
                   assert (P2 : pair i <> pair x) by (intro Z; apply Nix; rewrite <- (pair_inv i Hi), Z; apply pair_inv; exact Hx).
                   unfold fate in *. rewrite !T3 by assumption. exact Fi. }
             destruct (IH (l1 ++ l2) t' Lf Inv') as [r [R1 [R2 R3]]]. exists r. split; [exact R1|]. split; [exact R2|].
             intros B _. apply R3; [exact B|]. unfold t'. rewrite !dot_zero_at. rewrite zero_at_other by auto.
             change (nth x t 0) with (entry t x). change (nth (pair x) t 0) with (entry t (pair x)).
             rewrite Tx, Tp. unfold descent in Rd. rewrite hadamard_nth in Rd by exact len.
             specialize (B x Hx). unfold entry in *. lra.
          -- apply IH; assumption.
  Qed.
End Trunc.

Lemma trunc_start v pair crit : Permutation crit (seq 0 (length v)) ->
  (forall i, (i < length v)%nat -> (pair i < length v)%nat) -> forall g method k_added th, inv v g pair method k_added th crit v.
Proof.
  intros P Hp g method k_added th. split; [reflexivity|]. split.
  - apply (Permutation_NoDup (Permutation_sym P)). apply seq_NoDup.
  - assert (In_crit : forall i, In i crit <-> (i < length v)%nat).
    { intro i. split; intro H.
      - apply (Permutation_in _ P) in H. apply in_seq in H. lia.
      - apply (Permutation_in _ (Permutation_sym P)). apply in_seq. lia. }
    split.
    + intros i H. apply In_crit in H. split; [exact H|]. split; [apply In_crit; apply Hp; exact H|reflexivity].
    + intros i H N. exfalso. apply N. apply In_crit. exact H.
Qed.

Section TruncMain.
  Variables (v g : list Q) (pair : nat -> nat) (rel min_thresh : Q) (method : trunc_method)
    (k_added : option (list nat)) (crit : list nat).
  Hypothesis len : length v = length g.
  Hypothesis nonempty : v <> [].
  Hypothesis crit_perm : Permutation crit (seq 0 (length v)).
  Hypothesis pair_lt : forall i, (i < length v)%nat -> (pair i < length v)%nat.
  Hypothesis pair_inv : forall i, (i < length v)%nat -> pair (pair i) = i.

  Lemma thresh_some : exists th, trunc_thresh v g rel min_thresh method = Some th.
  Proof.
    destruct v as [|x v']; [contradiction|]. destruct g as [|y g']; [discriminate|].
    destruct method; cbn; eauto.
  Qed.

  Lemma trunc_main : exists th r, trunc_thresh v g rel min_thresh method = Some th /\
    truncation v g pair rel min_thresh method k_added crit = Some r /\ length r = length v /\
    (forall i, (i < length v)%nat -> fate v g pair method k_added th r i) /\
    (balanced v g pair -> inner (length v) (entry v) (entry g) < 0 -> inner (length v) (entry r) (entry g) < 0).
  Proof.
    destruct thresh_some as [th T]. exists th.
    destruct (trunc_loop_ok v g pair method k_added th len pair_lt pair_inv (length crit) crit v (le_n _)) as [r [R1 [R2 R3]]].
    { apply trunc_start; assumption. }
    exists r. split; [exact T|]. unfold truncation. rewrite T. split; [exact R1|].
    destruct R2 as [Lr [_ [_ F]]]. split; [exact Lr|]. split.
    - intros i Hi. apply F; [exact Hi|]. intros [].
    - intros B D. rewrite <- Lr. rewrite <- dot_inner by congruence. apply R3; [exact B|].
      rewrite dot_inner by exact len. exact D.
  Qed.
End TruncMain.

(** ** The threshold. *)
Lemma fold_max l x : (forall y, In y (x :: l) -> y <= fold_left Qmax l x) /\ exists y, In y (x :: l) /\ y == fold_left Qmax l x.
Proof.
  revert x. induction l as [|z l IH]; intro x; cbn [fold_left].
  - split; [intros y [<-|[]]; lra|]. exists x. split; [left; reflexivity|reflexivity].
  - destruct (IH (Qmax x z)) as [A [y [I E]]]. split.
    + assert (M := A (Qmax x z) (or_introl eq_refl)).
      intros w [<-|[<-|I']]; [assert (H := Q.le_max_l x z); lra|assert (H := Q.le_max_r x z); lra|].
      apply A. right. exact I'.
    + destruct I as [I|I].
      * destruct (Q.max_spec x z) as [[_ H]|[_ H]].
        -- exists z. split; [right; left; reflexivity|]. rewrite <- E, <- I. symmetry. exact H.
        -- exists x. split; [left; reflexivity|]. rewrite <- E, <- I. symmetry. exact H.
      * exists y. split; [right; right; exact I|exact E].
Qed.
Lemma fold_min l x : (forall y, In y (x :: l) -> fold_left Qmin l x <= y) /\ exists y, In y (x :: l) /\ y == fold_left Qmin l x.
Proof.
  revert x. induction l as [|z l IH]; intro x; cbn [fold_left].
  - split; [intros y [<-|[]]; lra|]. exists x. split; [left; reflexivity|reflexivity].
  - destruct (IH (Qmin x z)) as [A [y [I E]]]. split.
    + assert (M := A (Qmin x z) (or_introl eq_refl)).
      intros w [<-|[<-|I']]; [assert (H := Q.le_min_l x z); lra|assert (H := Q.le_min_r x z); lra|].
      apply A. right. exact I'.
    + destruct I as [I|I].
      * destruct (Q.min_spec x z) as [[_ H]|[_ H]].
        -- exists x. split; [left; reflexivity|]. rewrite <- E, <- I. symmetry. exact H.
        -- exists z. split; [right; left; reflexivity|]. rewrite <- E, <- I. symmetry. exact H.
      * exists y. split; [right; right; exact I|exact E].
Qed.

Lemma hadamard_length a b : length a = length b -> length (hadamard a b) = length a.
Proof. revert b. induction a as [|x a IH]; intros [|y b] L; cbn in *; try lia. rewrite IH; lia. Qed.

Lemma thresh_spec v g rel min_thresh method th : length v = length g ->
  trunc_thresh v g rel min_thresh method = Some th ->
  match method with
  | TAbs => exists m, th = Qmax (m * rel) min_thresh /\ (forall i, (i < length v)%nat -> Qabs (entry v i) <= m) /\
                      exists i, (i < length v)%nat /\ Qabs (entry v i) == m
  | TDelta => exists m, th = m * rel /\ (forall i, (i < length v)%nat -> m <= entry v i * entry g i) /\
                        exists i, (i < length v)%nat /\ entry v i * entry g i == m
  end.
Proof.
  intros L T. destruct method; unfold trunc_thresh in T.
  - assert (Ln : length (map Qabs v) = length v) by apply map_length.
    assert (Nt : forall i, (i < length v)%nat -> nth i (map Qabs v) 0 = Qabs (entry v i)).
    { intros i Hi. unfold entry. rewrite (nth_indep _ 0 (Qabs 0)) by lia. apply map_nth. }
    destruct (map Qabs v) as [|x l]; [discriminate|]. cbn [max_list option_map] in T. injection T as <-.
    destruct (fold_max l x) as [A [y [I E]]]. exists (fold_left Qmax l x). split; [reflexivity|]. split.
    + intros i Hi. rewrite <- Nt by exact Hi. apply A. apply nth_In. lia.
    + apply (In_nth _ _ 0) in I. destruct I as [i [Hi Ei]]. exists i. split; [lia|].
      rewrite <- Nt by lia. rewrite Ei. exact E.
  - assert (Ln := hadamard_length v g L).
    assert (Nt : forall i, nth i (hadamard v g) 0 == entry v i * entry g i) by (intro i; apply hadamard_nth; exact L).
    destruct (hadamard v g) as [|x l]; [discriminate|]. cbn [min_list option_map] in T. injection T as <-.
    destruct (fold_min l x) as [A [y [I E]]]. exists (fold_left Qmin l x). split; [reflexivity|]. split.
    + intros i Hi. rewrite <- Nt. apply A. apply nth_In. lia.
    + apply (In_nth _ _ 0) in I. destruct I as [i [Hi Ei]]. exists i. split; [lia|].
      rewrite <- Nt. rewrite Ei. exact E.
Qed.
