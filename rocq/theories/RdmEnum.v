(** Proofs about the enumeration of RDM elements. *)
From Coq Require Import Bool List Arith Sorted Lia.
From Verif Require Import RdmModel RdmSpec.
Import ListNotations.

Lemma NoDup_flat_map_key {A B} (key : B -> A) (f : A -> list B) l :
  NoDup l -> (forall x, In x l -> NoDup (f x)) -> (forall x y, In x l -> In y (f x) -> key y = x) ->
  NoDup (flat_map f l).
Proof.
  induction l as [|a l IH]; intros N H1 H2; simpl; [constructor|]. inversion_clear N.
  assert (IH' : NoDup (flat_map f l)).
  { apply IH; auto; intros; [apply H1 | apply H2]; simpl; auto. }
  assert (Ha : NoDup (f a)) by (apply H1; left; reflexivity).
  assert (D : forall y, In y (f a) -> ~ In y (flat_map f l)).
  { intros y Hy Hf. apply in_flat_map in Hf as [b [Hb Hf]].
    assert (E1 : key y = a) by (apply H2; simpl; auto).
    assert (E2 : key y = b) by (apply H2; simpl; auto). subst. contradiction. }
  clear -IH' Ha D. induction (f a) as [|y ys IHy]; simpl; [assumption|].
  inversion_clear Ha. constructor.
  - rewrite in_app_iff. intros [|Q]; [contradiction|]. apply (D y); simpl; auto.
  - apply IHy; auto. intros z Hz. apply D. simpl. auto.
Qed.

Lemma NoDup_app_disj {A} (a b : list A) :
  NoDup a -> NoDup b -> (forall x, In x a -> In x b -> False) -> NoDup (a ++ b).
Proof.
  induction a as [|x a IH]; intros Na Nb D; simpl; [assumption|]. inversion_clear Na. constructor.
  - rewrite in_app_iff. intros [|Q]; [contradiction|]. apply (D x); simpl; auto.
  - apply IH; auto. intros y Hy. apply D. simpl. auto.
Qed.

Lemma code_inj N a b a' b' : b < b' + N -> b' < b + N -> a * N + b = a' * N + b' -> a = a' /\ b = b'.
Proof. intros. assert (a = a') by nia. subst. lia. Qed.

Lemma skip_true real imag s : skip_diag real imag s = true <-> imag = true /\ real = false /\ s = true.
Proof. unfold skip_diag. destruct real, imag, s; simpl; intuition congruence. Qed.
Lemma skip_false real imag s : skip_diag real imag s = false <-> (imag = true -> real = false -> s = false).
Proof. unfold skip_diag. destruct real, imag, s; simpl; intuition congruence. Qed.

Ltac ltb_all :=
  repeat match goal with
  | H : (_ <? _) = true |- _ => apply Nat.ltb_lt in H
  | H : (_ <? _) = false |- _ => apply Nat.ltb_ge in H
  | H : (_ <=? _) = true |- _ => apply Nat.leb_le in H
  | H : (_ <=? _) = false |- _ => apply Nat.leb_gt in H
  | H : (_ =? _) = true |- _ => apply Nat.eqb_eq in H
  | H : (_ =? _) = false |- _ => apply Nat.eqb_neq in H
  | H : (_ || _) = false |- _ => apply orb_false_iff in H; destruct H
  end.

(** * Membership *)
Lemma rdm1_block_In real imag g x :
  In x (rdm1_block real imag g) <->
  exists i j, x = [i; j] /\ In i g /\ In j g /\ i <= j /\ (imag = true -> real = false -> i <> j).
Proof.
  unfold rdm1_block. split.
  - intro H. apply in_flat_map in H as [i [Hi H]]. apply in_flat_map in H as [j [Hj H]].
    destruct (j <? i) eqn:E1; [easy|]. destruct (skip_diag _ _ _) eqn:E2; [easy|].
    destruct H as [<-|[]]. exists i, j. ltb_all. repeat (split; auto).
    intros. rewrite skip_false in E2. specialize (E2 H H0). ltb_all. assumption.
  - intros [i [j [-> [Hi [Hj [L S]]]]]].
    apply in_flat_map. exists i. split; [assumption|]. apply in_flat_map. exists j. split; [assumption|].
    replace (j <? i) with false by (symmetry; apply Nat.ltb_ge; lia).
    replace (skip_diag real imag (i =? j)) with false.
    2:{ symmetry. apply skip_false. intros. apply Nat.eqb_neq. auto. }
    left. reflexivity.
Qed.

Lemma rdm2_same_In real imag Na g x :
  In x (rdm2_same real imag Na g) <->
  exists i k l j, x = [i; k; l; j] /\ In i g /\ In k g /\ In l g /\ In j g /\ i < k /\ j < l
    /\ i * Na + k <= j * Na + l /\ (imag = true -> real = false -> i * Na + k <> j * Na + l).
Proof.
  unfold rdm2_same. split.
  - intro H. apply in_flat_map in H as [i [Hi H]]. apply in_flat_map in H as [k [Hk H]].
    destruct (k <=? i) eqn:E0; [easy|].
    apply in_flat_map in H as [l [Hl H]]. apply in_flat_map in H as [j [Hj H]].
    destruct ((l <=? j) || _) eqn:E1; [easy|]. destruct (skip_diag _ _ _) eqn:E2; [easy|].
    destruct H as [<-|[]]. exists i, k, l, j. ltb_all. do 8 (split; auto).
    intros A B. rewrite skip_false in E2. specialize (E2 A B). ltb_all. assumption.
  - intros [i [k [l [j [-> [Hi [Hk [Hl [Hj [L1 [L2 [L3 S]]]]]]]]]]]].
    apply in_flat_map. exists i. split; [assumption|]. apply in_flat_map. exists k. split; [assumption|].
    replace (k <=? i) with false by (symmetry; apply Nat.leb_gt; lia).
    apply in_flat_map. exists l. split; [assumption|]. apply in_flat_map. exists j. split; [assumption|].
    replace (l <=? j) with false by (symmetry; apply Nat.leb_gt; lia).
    replace (j * Na + l <? i * Na + k) with false by (symmetry; apply Nat.ltb_ge; lia).
    replace (skip_diag real imag _) with false.
    2:{ symmetry. apply skip_false. intros. apply Nat.eqb_neq. auto. }
    left. reflexivity.
Qed.

Lemma rdm2_mixed_In real imag Na alp bet x :
  In x (rdm2_mixed real imag Na alp bet) <->
  exists i k l j, x = [i; k; l; j] /\ In i alp /\ In k bet /\ In l bet /\ In j alp
    /\ i * Na + k <= j * Na + l /\ (imag = true -> real = false -> i * Na + k <> j * Na + l).
Proof.
  unfold rdm2_mixed. split.
  - intro H. apply in_flat_map in H as [i [Hi H]]. apply in_flat_map in H as [k [Hk H]].
    apply in_flat_map in H as [l [Hl H]]. apply in_flat_map in H as [j [Hj H]].
    destruct (_ <? _) eqn:E1; [easy|]. destruct (skip_diag _ _ _) eqn:E2; [easy|].
    destruct H as [<-|[]]. exists i, k, l, j. ltb_all. do 6 (split; auto).
    intros A B. rewrite skip_false in E2. specialize (E2 A B). ltb_all. assumption.
  - intros [i [k [l [j [-> [Hi [Hk [Hl [Hj [L3 S]]]]]]]]]].
    apply in_flat_map. exists i. split; [assumption|]. apply in_flat_map. exists k. split; [assumption|].
    apply in_flat_map. exists l. split; [assumption|]. apply in_flat_map. exists j. split; [assumption|].
    replace (j * Na + l <? i * Na + k) with false by (symmetry; apply Nat.ltb_ge; lia).
    replace (skip_diag real imag _) with false.
    2:{ symmetry. apply skip_false. intros. apply Nat.eqb_neq. auto. }
    left. reflexivity.
Qed.

Definition code3 (N i k m : nat) : nat := i * N ^ 2 + k * N + m.
Lemma rdm3_block_In real imag N g1 g2 g3 x :
  In x (rdm3_block real imag N g1 g2 g3) <->
  exists i k m n l j, x = [i; k; m; n; l; j] /\ In i g1 /\ In k g2 /\ In m g3 /\ In n g3 /\ In l g2 /\ In j g1
    /\ i < k /\ k < m /\ j < l /\ l < n
    /\ code3 N i k m <= code3 N j l n /\ (imag = true -> real = false -> code3 N i k m <> code3 N j l n).
Proof.
  unfold rdm3_block. cbv zeta. unfold code3. split.
  - intro H. apply in_flat_map in H as [i [Hi H]]. apply in_flat_map in H as [k [Hk H]].
    destruct (k <=? i) eqn:E0; [easy|].
    apply in_flat_map in H as [m [Hm H]]. destruct (m <=? k) eqn:E0'; [easy|].
    apply in_flat_map in H as [n [Hn H]]. apply in_flat_map in H as [l [Hl H]].
    destruct (n <=? l) eqn:E1; [easy|]. apply in_flat_map in H as [j [Hj H]].
    destruct (_ || (l <=? j)) eqn:E3; [easy|]. destruct (skip_diag _ _ _) eqn:E2; [easy|].
    destruct H as [<-|[]]. exists i, k, m, n, l, j. ltb_all. do 12 (split; auto).
    intros A B. rewrite skip_false in E2. specialize (E2 A B). ltb_all. assumption.
  - intros [i [k [m [n [l [j [-> [Hi [Hk [Hm [Hn [Hl [Hj [L1 [L2 [L3 [L4 [L5 S]]]]]]]]]]]]]]]]]].
    apply in_flat_map. exists i. split; [assumption|]. apply in_flat_map. exists k. split; [assumption|].
    replace (k <=? i) with false by (symmetry; apply Nat.leb_gt; lia).
    apply in_flat_map. exists m. split; [assumption|].
    replace (m <=? k) with false by (symmetry; apply Nat.leb_gt; lia).
    apply in_flat_map. exists n. split; [assumption|]. apply in_flat_map. exists l. split; [assumption|].
    replace (n <=? l) with false by (symmetry; apply Nat.leb_gt; lia).
    apply in_flat_map. exists j. split; [assumption|].
    replace (l <=? j) with false by (symmetry; apply Nat.leb_gt; lia).
    match goal with |- context [?a <? ?b] => replace (a <? b) with false by (symmetry; apply Nat.ltb_ge; lia) end.
    replace (skip_diag real imag _) with false.
    2:{ symmetry. apply skip_false. intros. apply Nat.eqb_neq. auto. }
    left. reflexivity.
Qed.

(** * No element twice *)
Ltac nd_key n := apply (NoDup_flat_map_key (fun x : list nat => nth n x 0)); [assumption|intros ? ?|].
Ltac nd_end :=
  repeat match goal with |- NoDup (if ?b then _ else _) => destruct b end;
  repeat constructor; auto.
Ltac nd_mem :=
  let x := fresh in let y := fresh in let H := fresh in
  intros x y ? H;
  repeat match type of H with
  | In _ (if ?b then _ else _) => destruct b; [destruct H|]
  | In _ (flat_map _ _) => apply in_flat_map in H; destruct H as [? [? H]]
  end;
  try (destruct H as [<-|[]]; reflexivity).

Lemma rdm1_block_NoDup real imag g : NoDup g -> NoDup (rdm1_block real imag g).
Proof.
  intro N. unfold rdm1_block. nd_key 0; [|nd_mem]. nd_key 1; [|nd_mem]. nd_end. Qed.
Lemma rdm2_same_NoDup real imag Na g : NoDup g -> NoDup (rdm2_same real imag Na g).
Proof.
  intro N. unfold rdm2_same. nd_key 0; [|nd_mem]. nd_key 1; [|nd_mem].
  destruct (_ <=? _); [constructor|]. nd_key 2; [|nd_mem]. nd_key 3; [|nd_mem]. nd_end. Qed.
Lemma rdm2_mixed_NoDup real imag Na alp bet : NoDup alp -> NoDup bet -> NoDup (rdm2_mixed real imag Na alp bet).
Proof.
  intros N N'. unfold rdm2_mixed. nd_key 0; [|nd_mem]. nd_key 1; [|nd_mem].
  nd_key 2; [|nd_mem]. nd_key 3; [|nd_mem]. nd_end. Qed.
Lemma rdm3_block_NoDup real imag N g1 g2 g3 : NoDup g1 -> NoDup g2 -> NoDup g3 -> NoDup (rdm3_block real imag N g1 g2 g3).
Proof.
  intros N1 N2 N3. unfold rdm3_block. cbv zeta. nd_key 0; [|nd_mem]. nd_key 1; [|nd_mem].
  destruct (_ <=? _); [constructor|]. nd_key 2; [|nd_mem].
  destruct (_ <=? _); [constructor|]. nd_key 3; [|nd_mem]. nd_key 4; [|nd_mem].
  destruct (_ <=? _); [constructor|]. nd_key 5; [|nd_mem]. nd_end. Qed.

(** * Elements of the default layout *)
Lemma up_count_cons N x l : up_count N (x :: l) = (if x <? N then 1 else 0) + up_count N l.
Proof. unfold up_count. simpl. destruct (x <? N); reflexivity. Qed.
Lemma up_count_nil N : up_count N [] = 0. Proof. reflexivity. Qed.

Lemma element_1 N c a : element 1 N c a <-> exists i j, c = [i] /\ a = [j] /\ i < 2 * N /\ j < 2 * N
  /\ ((i < N /\ j < N) \/ (N <= i /\ N <= j)).
Proof.
  unfold element. split.
  - intros [Sc [Sa [Lc [La [Fc [Fa U]]]]]].
    destruct c as [|i [|? ?]]; try discriminate. destruct a as [|j [|? ?]]; try discriminate.
    inversion_clear Fc. inversion_clear Fa. exists i, j. do 4 (split; auto).
    rewrite !up_count_cons in U. destruct (i <? N) eqn:E1, (j <? N) eqn:E2; ltb_all; try lia; discriminate.
  - intros [i [j [-> [-> [B1 [B2 H]]]]]]. repeat split; auto; try (repeat constructor; lia).
    rewrite !up_count_cons. destruct (i <? N) eqn:E1, (j <? N) eqn:E2; ltb_all; try lia.
Qed.

Lemma element_2 N c a : element 2 N c a <-> exists i k j l, c = [i; k] /\ a = [j; l]
  /\ i < k /\ j < l /\ k < 2 * N /\ l < 2 * N
  /\ ((k < N /\ l < N) \/ (i < N <= k /\ j < N <= l) \/ (N <= i /\ N <= j)).
Proof.
  unfold element. split.
  - intros [Sc [Sa [Lc [La [Fc [Fa U]]]]]].
    destruct c as [|i [|k [|? ?]]]; try discriminate. destruct a as [|j [|l [|? ?]]]; try discriminate.
    inversion_clear Sc as [|? ? _ F1]. inversion_clear F1. inversion_clear Sa as [|? ? _ F2]. inversion_clear F2.
    inversion_clear Fc as [|? ? _ F1]. inversion_clear F1. inversion_clear Fa as [|? ? _ F2]. inversion_clear F2.
    exists i, k, j, l. do 6 (split; auto).
    rewrite !up_count_cons, !up_count_nil in U.
    destruct (i <? N) eqn:E1, (j <? N) eqn:E2, (k <? N) eqn:E3, (l <? N) eqn:E4; ltb_all; simpl in U; lia.
  - intros [i [k [j [l [-> [-> [B1 [B2 [B3 [B4 H]]]]]]]]]]. do 6 (split; [first [reflexivity | repeat constructor; lia]|]).
    rewrite !up_count_cons, !up_count_nil.
    destruct (i <? N) eqn:E1, (j <? N) eqn:E2, (k <? N) eqn:E3, (l <? N) eqn:E4; ltb_all; simpl; lia.
Qed.

Lemma element_3 N c a : element 3 N c a <-> exists i k m j l n, c = [i; k; m] /\ a = [j; l; n]
  /\ i < k /\ k < m /\ j < l /\ l < n /\ m < 2 * N /\ n < 2 * N
  /\ ((m < N /\ n < N) \/ (k < N <= m /\ l < N <= n) \/ (i < N <= k /\ j < N <= l) \/ (N <= i /\ N <= j)).
Proof.
  unfold element. split.
  - intros [Sc [Sa [Lc [La [Fc [Fa U]]]]]].
    destruct c as [|i [|k [|m [|? ?]]]]; try discriminate. destruct a as [|j [|l [|n [|? ?]]]]; try discriminate.
    inversion_clear Sc as [|? ? Sc' F1]. inversion_clear Sc' as [|? ? _ F3].
    inversion_clear F1. inversion_clear F3.
    inversion_clear Sa as [|? ? Sa' F2]. inversion_clear Sa' as [|? ? _ F4].
    inversion_clear F2. inversion_clear F4.
    inversion_clear Fc as [|? ? _ F1]. inversion_clear F1 as [|? ? _ F1']. inversion_clear F1'.
    inversion_clear Fa as [|? ? _ F2]. inversion_clear F2 as [|? ? _ F2']. inversion_clear F2'.
    exists i, k, m, j, l, n. do 8 (split; auto).
    rewrite !up_count_cons, !up_count_nil in U.
    destruct (i <? N) eqn:E1, (j <? N) eqn:E2, (k <? N) eqn:E3, (l <? N) eqn:E4, (m <? N) eqn:E5, (n <? N) eqn:E6;
      ltb_all; simpl in U; lia.
  - intros [i [k [m [j [l [n [-> [-> [B1 [B2 [B3 [B4 [B5 [B6 H]]]]]]]]]]]]]].
    do 6 (split; [first [reflexivity | repeat constructor; lia]|]).
    rewrite !up_count_cons, !up_count_nil.
    destruct (i <? N) eqn:E1, (j <? N) eqn:E2, (k <? N) eqn:E3, (l <? N) eqn:E4, (m <? N) eqn:E5, (n <? N) eqn:E6;
      ltb_all; simpl; lia.
Qed.

(** Membership in the default layout, in terms of elements. *)
Definition code (N : nat) (l : list nat) : nat := fold_left (fun s x => s * N + x) l 0.

Lemma rdm1_In N real imag x :
  In x (rdm1_elements real imag (seq 0 N) (seq N N)) <->
  exists c a, x = listed c a /\ element 1 N c a /\ code N c <= code N a
    /\ (imag = true -> real = false -> code N c <> code N a).
Proof.
  unfold rdm1_elements. rewrite in_app_iff, !rdm1_block_In. split.
  - intros [[i [j [-> [Hi [Hj [L S]]]]]]|[i [j [-> [Hi [Hj [L S]]]]]]]; rewrite in_seq in Hi, Hj;
      exists [i], [j]; (split; [reflexivity|]); (split; [rewrite element_1; exists i, j; do 2 (split; [reflexivity|]); lia|]); split; auto.
  - intros [c [a [-> [E [L S]]]]]. rewrite element_1 in E. destruct E as [i [j [-> [-> [B1 [B2 H]]]]]].
    unfold code in *; simpl in L, S.
    destruct H; [left|right]; exists i, j; rewrite !in_seq; (split; [reflexivity|]); do 3 (split; [lia|]); auto.
Qed.

Lemma rdm2_In N real imag x :
  In x (rdm2_elements real imag (seq 0 N) (seq N N)) <->
  exists c a, x = listed c a /\ element 2 N c a /\ code N c <= code N a
    /\ (imag = true -> real = false -> code N c <> code N a).
Proof.
  unfold rdm2_elements. cbv zeta. rewrite seq_length, !in_app_iff, !rdm2_same_In, rdm2_mixed_In. split.
  - intros [[i [k [l [j [-> [Hi [Hk [Hl [Hj [L1 [L2 [L3 S]]]]]]]]]]]]
           |[[i [k [l [j [-> [Hi [Hk [Hl [Hj [L1 [L2 [L3 S]]]]]]]]]]]]
           |[i [k [l [j [-> [Hi [Hk [Hl [Hj [L3 S]]]]]]]]]]]]; rewrite in_seq in Hi, Hk, Hl, Hj;
      exists [i; k], [j; l]; (split; [reflexivity|]);
      (split; [rewrite element_2; exists i, k, j, l; do 2 (split; [reflexivity|]); lia|]); split; auto.
  - intros [c [a [-> [E [L S]]]]]. rewrite element_2 in E.
    destruct E as [i [k [j [l [-> [-> [B1 [B2 [B3 [B4 H]]]]]]]]]]. unfold code in *; simpl in L, S.
    destruct H as [H|[H|H]]; [left|right;right|right;left]; exists i, k, l, j; rewrite !in_seq; (split; [reflexivity|]);
      do 4 (split; [lia|]); repeat (split; [lia|]); auto.
Qed.

Lemma code3_code N i k m : code3 N i k m = code N [i; k; m].
Proof. unfold code3, code. simpl. nia. Qed.

Lemma rdm3_In N real imag x :
  In x (rdm3_elements real imag (seq 0 N) (seq N N)) <->
  exists c a, x = listed c a /\ element 3 N c a /\ code N c <= code N a
    /\ (imag = true -> real = false -> code N c <> code N a).
Proof.
  unfold rdm3_elements. cbv zeta. rewrite seq_length, !in_app_iff, !rdm3_block_In. split.
  - intro H.
    assert (G : exists i k m n l j, x = [i; k; m; n; l; j] /\ i < k /\ k < m /\ j < l /\ l < n /\ m < 2 * N /\ n < 2 * N
       /\ ((m < N /\ n < N) \/ (k < N <= m /\ l < N <= n) \/ (i < N <= k /\ j < N <= l) \/ (N <= i /\ N <= j))
       /\ code3 N i k m <= code3 N j l n /\ (imag = true -> real = false -> code3 N i k m <> code3 N j l n)).
    { destruct H as [H|[H|[H|H]]];
      destruct H as [i [k [m [n [l [j [-> [Hi [Hk [Hm [Hn [Hl [Hj [L1 [L2 [L3 [L4 [L5 S]]]]]]]]]]]]]]]]]];
      rewrite in_seq in *; exists i, k, m, n, l, j; do 7 (split; [first [reflexivity|lia]|]); (split; [lia|]); split; assumption. }
    destruct G as [i [k [m [n [l [j [-> [L1 [L2 [L3 [L4 [L5 [L6 [B [C S]]]]]]]]]]]]]]].
    exists [i; k; m], [j; l; n]. rewrite !code3_code in *. split; [reflexivity|].
    split; [|split; assumption]. rewrite element_3. exists i, k, m, j, l, n. do 8 (split; [first [reflexivity|lia]|]). assumption.
  - intros [c [a [-> [E [L S]]]]]. rewrite element_3 in E.
    destruct E as [i [k [m [j [l [n [-> [-> [B1 [B2 [B3 [B4 [B5 [B6 H]]]]]]]]]]]]]].
    rewrite <- !code3_code in *.
    destruct H as [H|[H|[H|H]]]; [left|right;left|right;right;left|right;right;right];
      exists i, k, m, n, l, j; rewrite !in_seq; (split; [reflexivity|]); do 10 (split; [lia|]); split; assumption.
Qed.

Lemma element_sym p N c a : element p N c a -> element p N a c.
Proof. unfold element. intuition. Qed.
Lemma listed_inj c a c' a' : length c = length c' -> listed c a = listed c' a' -> c = c' /\ a = a'.
Proof.
  unfold listed. intros L H.
  assert (E : firstn (length c) (c ++ rev a) = firstn (length c) (c' ++ rev a')) by (f_equal; assumption).
  rewrite firstn_app, Nat.sub_diag, firstn_O, app_nil_r, firstn_all in E.
  rewrite L, firstn_app, Nat.sub_diag, firstn_O, app_nil_r, firstn_all in E. subst c'.
  apply app_inv_head in H. split; [reflexivity|]. rewrite <- (rev_involutive a), H. apply rev_involutive.
Qed.

Lemma code_inj_elem p N c a : p <= 3 -> element p N c a -> code N c = code N a -> c = a.
Proof.
  intros Hp E C.
  destruct p as [|[|[|[|p]]]]; [| | | |lia].
  - destruct E as [_ [_ [L1 [L2 _]]]]. destruct c, a; try discriminate. reflexivity.
  - apply element_1 in E as [i [j [-> [-> [B1 [B2 H]]]]]]. unfold code in C. simpl in C. subst. reflexivity.
  - apply element_2 in E as [i [k [j [l [-> [-> [B1 [B2 [B3 [B4 H]]]]]]]]]]. unfold code in C. simpl in C.
    destruct (code_inj N i k j l) as [-> ->]; [lia|lia|lia|reflexivity].
  - apply element_3 in E as [i [k [m [j [l [n [-> [-> [B1 [B2 [B3 [B4 [B5 [B6 H]]]]]]]]]]]]]].
    unfold code in C. simpl in C.
    destruct (code_inj N (i * N + k) m (j * N + l) n) as [C1 ->]; [lia|lia|lia|].
    destruct (code_inj N i k j l) as [-> ->]; [lia|lia|lia|reflexivity].
Qed.

Lemma one_of_each_intro p N real imag L : p <= 3 ->
  (forall x, In x L <-> exists c a, x = listed c a /\ element p N c a /\ code N c <= code N a
    /\ (imag = true -> real = false -> code N c <> code N a)) ->
  NoDup L ->
  (real = true \/ imag = false -> one_of_each p N L) /\ (real = false -> imag = true -> one_of_each_offdiag p N L).
Proof.
  intros Hp HL ND.
  assert (In1 : forall c a, element p N c a -> (In (listed c a) L <->
     code N c <= code N a /\ (imag = true -> real = false -> code N c <> code N a))).
  { intros c a E. rewrite HL. split.
    - intros [c' [a' [Q [E' [C S]]]]]. apply listed_inj in Q; [destruct Q as [<- <-]; auto|].
      destruct E as [_ [_ [-> _]]]. destruct E' as [_ [_ [-> _]]]. reflexivity.
    - intros [C S]. exists c, a. auto. }
  split.
  - intro RI. split; [|split; [|split]].
    + intros c a E. rewrite (In1 c a E), (In1 a c (element_sym _ _ _ _ E)).
      destruct (le_ge_dec (code N c) (code N a)); [left|right]; (split; [assumption|]);
        intros; exfalso; destruct RI; congruence.
    + intros x H. apply HL in H as [c [a [-> [E _]]]]. exists c, a. auto.
    + assumption.
    + intros c a E H1 H2. apply In1 in H1; [|assumption]. apply In1 in H2; [|apply element_sym; assumption].
      apply (code_inj_elem p N); [assumption|assumption|lia].
  - intros R I. split; [|split; [|split]].
    + intros c a E D. rewrite (In1 c a E), (In1 a c (element_sym _ _ _ _ E)).
      assert (code N c <> code N a) by (intro Q; apply D, (code_inj_elem p N); assumption).
      destruct (le_ge_dec (code N c) (code N a)); [left|right]; split; auto; intros; lia.
    + intros x H. apply HL in H as [c [a [-> [E [_ S]]]]]. exists c, a. split; [assumption|]. split; [|reflexivity].
      intros ->. apply S; auto.
    + assumption.
    + intros c a E H1 H2. apply In1 in H1; [|assumption]. apply In1 in H2; [|apply element_sym; assumption].
      destruct H1 as [H1 H3], H2 as [H2 _]. specialize (H3 I R). lia.
Qed.

Lemma rdm1_NoDup N real imag : NoDup (rdm1_elements real imag (seq 0 N) (seq N N)).
Proof.
  apply NoDup_app_disj; try (apply rdm1_block_NoDup, seq_NoDup).
  intros x H1 H2. apply rdm1_block_In in H1 as [i [j [-> [H1 _]]]]. apply rdm1_block_In in H2 as [i' [j' [E [H2 _]]]].
  injection E as <- <-. rewrite in_seq in *. lia.
Qed.
Lemma rdm2_NoDup N real imag : NoDup (rdm2_elements real imag (seq 0 N) (seq N N)).
Proof.
  unfold rdm2_elements. cbv zeta.
  apply NoDup_app_disj; [apply rdm2_same_NoDup, seq_NoDup| |].
  - apply NoDup_app_disj; [apply rdm2_same_NoDup, seq_NoDup|apply rdm2_mixed_NoDup; apply seq_NoDup|].
    intros x H1 H2. apply rdm2_same_In in H1 as [i [k [l [j [-> [H1 _]]]]]].
    apply rdm2_mixed_In in H2 as [i' [k' [l' [j' [E [H2 _]]]]]]. injection E as <- <- <- <-. rewrite in_seq in *. lia.
  - intros x H1 H2. apply rdm2_same_In in H1 as [i [k [l [j [-> [H1 [H1' _]]]]]]]. rewrite in_app_iff in H2. destruct H2 as [H2|H2].
    + apply rdm2_same_In in H2 as [i' [k' [l' [j' [E [H2 _]]]]]]. injection E as <- <- <- <-. rewrite in_seq in *. lia.
    + apply rdm2_mixed_In in H2 as [i' [k' [l' [j' [E [H2 [H2' _]]]]]]]. injection E as <- <- <- <-. rewrite in_seq in *. lia.
Qed.
Lemma rdm3_NoDup N real imag : NoDup (rdm3_elements real imag (seq 0 N) (seq N N)).
Proof.
  unfold rdm3_elements. cbv zeta.
  assert (D : forall n g1 g2 g3 h1 h2 h3 x, In x (rdm3_block real imag n g1 g2 g3) -> In x (rdm3_block real imag n h1 h2 h3) ->
     exists i k m, In i g1 /\ In i h1 /\ In k g2 /\ In k h2 /\ In m g3 /\ In m h3).
  { intros n g1 g2 g3 h1 h2 h3 x H1 H2. apply rdm3_block_In in H1 as [i [k [m [n1 [l [j [-> [A [B [C _]]]]]]]]]].
    apply rdm3_block_In in H2 as [i' [k' [m' [n' [l' [j' [E [A' [B' [C' _]]]]]]]]]].
    injection E as <- <- <- <- <- <-. exists i, k, m. auto 10. }
  apply NoDup_app_disj; [apply rdm3_block_NoDup; apply seq_NoDup| |].
  - apply NoDup_app_disj; [apply rdm3_block_NoDup; apply seq_NoDup| |].
    + apply NoDup_app_disj; try (apply rdm3_block_NoDup; apply seq_NoDup).
      intros x H1 H2. destruct (D _ _ _ _ _ _ _ _ H1 H2) as [i [k [m H]]]. rewrite !in_seq in H. lia.
    + intros x H1 H2. rewrite in_app_iff in H2. destruct H2 as [H2|H2];
        destruct (D _ _ _ _ _ _ _ _ H1 H2) as [i [k [m H]]]; rewrite !in_seq in H; lia.
  - intros x H1 H2. rewrite !in_app_iff in H2. destruct H2 as [H2|[H2|H2]];
      destruct (D _ _ _ _ _ _ _ _ H1 H2) as [i [k [m H]]]; rewrite !in_seq in H; lia.
Qed.

Definition rdm_elements (p : nat) : bool -> bool -> list nat -> list nat -> list (list nat) :=
  match p with 1 => rdm1_elements | 2 => rdm2_elements | 3 => rdm3_elements | _ => rdm4_elements end.

Theorem enumeration p N real imag : 1 <= p <= 3 ->
  (real = true \/ imag = false -> one_of_each p N (rdm_elements p real imag (seq 0 N) (seq N N)))
  /\ (real = false -> imag = true -> one_of_each_offdiag p N (rdm_elements p real imag (seq 0 N) (seq N N))).
Proof.
  intro Hp. destruct p as [|[|[|[|p]]]]; try lia; unfold rdm_elements;
  (apply one_of_each_intro; [lia| |]).
  - apply rdm1_In. - apply rdm1_NoDup. - apply rdm2_In. - apply rdm2_NoDup. - apply rdm3_In. - apply rdm3_NoDup.
Qed.

(** * Any layout: completeness of the 1- and 2-body lists *)
Theorem rdm1_any_layout real imag alp bet i j : real = true \/ imag = false ->
  (In i alp /\ In j alp) \/ (In i bet /\ In j bet) ->
  In [i; j] (rdm1_elements real imag alp bet) \/ In [j; i] (rdm1_elements real imag alp bet).
Proof.
  intros R H. unfold rdm1_elements. rewrite !in_app_iff, !rdm1_block_In.
  assert (Q : imag = true -> real = false -> False) by (destruct R; congruence).
  destruct (le_ge_dec i j); [left|right]; (destruct H as [H|H]; [left|right]);
    eexists; eexists; split; try reflexivity; intuition.
Qed.
Theorem rdm2_any_layout real imag alp bet i k j l : real = true \/ imag = false ->
  (i < k /\ j < l /\ incl [i; k; j; l] alp) \/ (i < k /\ j < l /\ incl [i; k; j; l] bet)
  \/ (incl [i; j] alp /\ incl [k; l] bet) ->
  In (listed [i; k] [j; l]) (rdm2_elements real imag alp bet) \/ In (listed [j; l] [i; k]) (rdm2_elements real imag alp bet).
Proof.
  intros R H. unfold rdm2_elements, listed. cbv zeta. simpl. rewrite !in_app_iff, !rdm2_same_In, !rdm2_mixed_In.
  assert (Q : imag = true -> real = false -> False) by (destruct R; congruence).
  assert (G : forall g (l : list nat) x, incl l g -> In x l -> In x g) by (intros g l' x I X; apply I, X).
  destruct (le_ge_dec (i * length alp + k) (j * length alp + l)); [left|right];
  (destruct H as [[A [B H]]|[[A [B H]]|[H H']]]; [left|right; left|right; right]);
  [exists i, k, l, j|exists i, k, l, j|exists i, k, l, j|exists j, l, k, i|exists j, l, k, i|exists j, l, k, i];
  (split; [reflexivity|]); repeat split; try assumption; try (intros; exfalso; auto; fail);
  first [apply (G _ _ _ H); simpl; tauto | apply (G _ _ _ H'); simpl; tauto].
Qed.

(** * The 4-body list *)
Lemma rdm4_block_In real imag N g1 g2 g3 g4 x : In x (rdm4_block real imag N g1 g2 g3 g4) ->
  exists i k m o p n l j, x = [i; k; m; o; p; n; l; j] /\ In i g1 /\ In k g2 /\ In m g3 /\ In o g4
    /\ i < k /\ k < m /\ o < m.
Proof.
  unfold rdm4_block. cbv zeta. intro H.
  apply in_flat_map in H as [i [Hi H]]. apply in_flat_map in H as [k [Hk H]].
  destruct (k <=? i) eqn:E0; [easy|].
  apply in_flat_map in H as [m [Hm H]]. destruct (m <=? k) eqn:E1; [easy|].
  apply in_flat_map in H as [o [Ho H]]. destruct (m <=? o) eqn:E2; [easy|].
  apply in_flat_map in H as [p [Hp H]]. apply in_flat_map in H as [n [Hn H]]. destruct (p <=? n); [easy|].
  apply in_flat_map in H as [l [Hl H]]. destruct (n <=? l); [easy|].
  apply in_flat_map in H as [j [Hj H]]. destruct (_ || _); [easy|]. destruct (skip_diag _ _ _); [easy|].
  destruct H as [<-|[]]. ltb_all. exists i, k, m, o, p, n, l, j. auto 10.
Qed.

(** No entry has exactly three spin-up creators, in whatever order. *)
Theorem rdm4_no_uuud N real imag x :
  In x (rdm4_elements real imag (seq 0 N) (seq N N)) -> up_count N (firstn 4 x) <> 3.
Proof.
  unfold rdm4_elements. cbv zeta. rewrite !in_app_iff. intro H.
  destruct H as [H|[H|[H|[H|H]]]]; apply rdm4_block_In in H as [i [k [m [o [p [n [l [j [-> [Hi [Hk [Hm [Ho [L1 [L2 L3]]]]]]]]]]]]]]];
    rewrite !in_seq in *; simpl firstn; rewrite !up_count_cons, up_count_nil;
    destruct (i <? N) eqn:E1, (k <? N) eqn:E2, (m <? N) eqn:E3, (o <? N) eqn:E4; ltb_all; simpl; lia.
Qed.
(** No entry has its creators in ascending order. *)
Theorem rdm4_never_ascending N real imag c a : element 4 N c a ->
  ~ In (listed c a) (rdm4_elements real imag (seq 0 N) (seq N N)).
Proof.
  intros [Sc [Sa [Lc [La _]]]] H.
  destruct c as [|c1 [|c2 [|c3 [|c4 [|? ?]]]]]; try discriminate.
  assert (L : c3 < c4).
  { inversion_clear Sc as [|? ? S1 _]. inversion_clear S1 as [|? ? S2 _]. inversion_clear S2 as [|? ? _ F]. inversion_clear F. assumption. }
  unfold rdm4_elements in H. cbv zeta in H. rewrite !in_app_iff in H. unfold listed in H.
  destruct H as [H|[H|[H|[H|H]]]]; apply rdm4_block_In in H as [i [k [m [o [p [n [l [j [E [_ [_ [_ [_ [L1 [L2 L3]]]]]]]]]]]]]]];
    injection E as <- <- <- <- _; lia.
Qed.

(** * Recursive.permute *)
Lemma StronglySorted_snoc t i : StronglySorted lt (t ++ [i]) <-> StronglySorted lt t /\ Forall (fun x => x < i) t.
Proof.
  induction t as [|x t IH]; simpl.
  - split; [intros; split; constructor|repeat constructor].
  - split.
    + intro H. inversion_clear H as [|? ? S F]. apply IH in S as [S1 S2]. rewrite Forall_app in F. destruct F as [F1 F2].
      inversion_clear F2. split; constructor; assumption.
    + intros [S F]. inversion_clear S as [|? ? S1 S2]. inversion_clear F. constructor; [apply IH; auto|].
      rewrite Forall_app. split; [assumption|repeat constructor; assumption].
Qed.
Lemma last_lt_all t i : t <> [] -> StronglySorted lt t -> (last t 0 < i <-> Forall (fun x => x < i) t).
Proof.
  intros Hn S. destruct (exists_last Hn) as [t' [y ->]]. rewrite last_last, Forall_app. apply StronglySorted_snoc in S as [S F].
  split.
  - intro. split; [|repeat constructor; assumption]. revert F. apply Forall_impl. intros. lia.
  - intros [_ F']. inversion_clear F'. assumption.
Qed.
Lemma permute_in_spec d : forall temp ch x, StronglySorted lt temp ->
  (In x (permute_in d temp ch) <-> exists q, x = temp ++ q /\ length q = d /\ incl q ch /\ StronglySorted lt x).
Proof.
  induction d as [|d IH]; intros temp ch x S; simpl.
  - split.
    + intros [<-|[]]. exists []. rewrite app_nil_r. repeat split; auto. intros ? [].
    + intros [q [-> [L _]]]. destruct q; [|discriminate]. rewrite app_nil_r. auto.
  - assert (R : forall i, In i ch -> (In x (match temp with [] => permute_in d (temp ++ [i]) ch
        | _ => if last temp 0 <? i then permute_in d (temp ++ [i]) ch else [] end) <->
        Forall (fun y => y < i) temp /\ In x (permute_in d (temp ++ [i]) ch))).
    { intros i Hi. destruct temp as [|y t]; [intuition|]. destruct (last (y :: t) 0 <? i) eqn:E; ltb_all.
      - apply last_lt_all in E; [intuition|discriminate|assumption].
      - split; [intros []|intros [F _]]. apply last_lt_all in F; [lia|discriminate|assumption]. }
    rewrite in_flat_map. split.
    + intros [i [Hi H]]. apply R in H as [F H]; [|assumption].
      apply IH in H; [|apply StronglySorted_snoc; auto]. destruct H as [q [-> [L [I Sx]]]].
      exists (i :: q). rewrite <- app_assoc in *. simpl. repeat split; auto. intros z [<-|Hz]; auto.
    + intros [[|i q] [-> [L [I Sx]]]]; [discriminate|]. exists i. assert (Hi : In i ch) by (apply I; left; reflexivity).
      split; [assumption|]. assert (F : StronglySorted lt (temp ++ [i])).
      { replace (temp ++ i :: q) with ((temp ++ [i]) ++ q) in Sx by (rewrite <- app_assoc; reflexivity).
        clear -Sx. revert Sx. generalize (temp ++ [i]). intros t. revert q. induction t as [|a t IHt]; intros q H; [constructor|].
        simpl in H. inversion_clear H as [|? ? S1 F1]. rewrite Forall_app in F1. constructor; [apply (IHt q); assumption|tauto]. }
      apply R; [assumption|]. apply StronglySorted_snoc in F as F'. split; [tauto|].
      apply IH; [assumption|]. exists q. rewrite <- app_assoc. simpl. repeat split; auto. intros z Hz. apply I. right. assumption.
Qed.
Lemma permute_in_NoDup d : forall temp ch, StronglySorted lt temp -> NoDup ch -> NoDup (permute_in d temp ch).
Proof.
  induction d as [|d IH]; intros temp ch S N; simpl; [repeat constructor; auto|].
  apply (NoDup_flat_map_key (fun x => nth (length temp) x 0)); [assumption| |].
  - intros i Hi. destruct temp as [|y t]; [apply IH; [repeat constructor|assumption]|].
    destruct (last _ _ <? i) eqn:E; [|constructor]. ltb_all. apply IH; [|assumption]. apply StronglySorted_snoc. split; [assumption|].
    apply last_lt_all; auto. discriminate.
  - intros i x Hi H.
    assert (H' : StronglySorted lt (temp ++ [i]) /\ In x (permute_in d (temp ++ [i]) ch)).
    { destruct temp as [|y t]; [split; [repeat constructor|assumption]|]. destruct (last _ _ <? i) eqn:E; [|destruct H].
      ltb_all. split; [|assumption]. apply StronglySorted_snoc. split; [assumption|]. apply last_lt_all; auto. discriminate. }
    destruct H' as [S' H']. apply permute_in_spec in H' as [q [-> _]]; [|assumption].
    rewrite <- app_assoc, app_nth2, Nat.sub_diag by lia. reflexivity.
Qed.
Theorem permute_spec d ch t :
  In t (permute d ch) <-> StronglySorted lt t /\ length t = d /\ incl t ch.
Proof.
  unfold permute. rewrite permute_in_spec by constructor. simpl. split.
  - intros [q [-> [L [I S]]]]. auto.
  - intros [S [L I]]. exists t. auto.
Qed.
Theorem permute_NoDup d ch : NoDup ch -> NoDup (permute d ch).
Proof. intro. apply permute_in_NoDup; [constructor|assumption]. Qed.
