(** Facts about Fock-space RDM elements: antisymmetry, hermiticity, selection rules, contraction. *)
From Coq Require Import Bool List Arith Permutation Lia Ring.
From Verif Require Import Coeff MatSpec MatLemmas OpSpec FockSpec CircuitSpec FermiModel FermiProofs AdjProofs RdmSpec.
Import ListNotations.

(** Number of occupied modes satisfying P. *)
Fixpoint pcnt (P : nat -> bool) (i : nat) (n : bits) : nat :=
  match n with [] => 0 | b :: t => (if b && P i then 1 else 0) + pcnt P (S i) t end.
Definition chi (P : nat -> bool) (j : nat) : nat := if P j then 1 else 0.
(** Number of the operators [o] in l on modes satisfying P. *)
Fixpoint ocnt (P : nat -> bool) (o : fop) (l : list (fop * nat)) : nat :=
  match l with [] => 0 | (o', j) :: t => (if fop_dec o o' then chi P j else 0) + ocnt P o t end.

Lemma popcount_pcnt x : forall i, popcount x = pcnt (fun _ => true) i x.
Proof. unfold popcount. induction x as [|[] x IH]; intro i; simpl; [reflexivity| |]; rewrite (IH (S i)); reflexivity. Qed.
Lemma popcount_firstn N x : forall i, popcount (firstn N x) = pcnt (fun k => k <? i + N) i x.
Proof.
  revert N. induction x as [|b x IH]; intros N i.
  - rewrite firstn_nil. reflexivity.
  - destruct N as [|N].
    + simpl. rewrite Nat.add_0_r. replace (i <? i) with false by (symmetry; apply Nat.ltb_ge; lia). rewrite andb_false_r.
      simpl. assert (G : forall y k, i < k -> pcnt (fun z => z <? i) k y = 0).
      { intro y. induction y as [|c y IHy]; intros k Hk; simpl; [reflexivity|].
        replace (k <? i) with false by (symmetry; apply Nat.ltb_ge; lia). rewrite andb_false_r. apply IHy. lia. }
      rewrite G by lia. reflexivity.
    + simpl. replace (i <? i + S N) with true by (symmetry; apply Nat.ltb_lt; lia). rewrite andb_true_r.
      specialize (IH N (S i)). replace (i + S N) with (S i + N) by lia.
      unfold popcount in *. simpl filter. destruct b; simpl length; rewrite IH; reflexivity.
Qed.
Lemma pcnt_upd P j b : forall n i x, nth_error n j = Some x ->
  pcnt P i (upd j b n) + (if x then chi P (i + j) else 0) = pcnt P i n + (if b then chi P (i + j) else 0).
Proof.
  induction j as [|j IH]; intros n i x H; destruct n as [|y n]; try discriminate; simpl in *.
  - injection H as ->. rewrite Nat.add_0_r. unfold chi. destruct x, b, (P i); simpl; lia.
  - specialize (IH n (S i) x H). rewrite Nat.add_succ_r. simpl in IH. lia.
Qed.
Lemma fock1_count P o j n s m : fock1 o j n = Some (s, m) -> ladder o = true ->
  pcnt P 0 m + ocnt P Ann [(o, j)] = pcnt P 0 n + ocnt P Cre [(o, j)].
Proof.
  unfold fock1. destruct (nth_error n j) as [b|] eqn:E; [|discriminate].
  destruct (local o b) as [b'|] eqn:L; [|discriminate]. intro H. injection H as <- <-. intro Lo.
  pose proof (pcnt_upd P j b' n 0 b E) as G. simpl in G.
  destruct o; try discriminate; destruct b; simpl in L; try discriminate; injection L as <-; simpl; lia.
Qed.
Lemma ocnt_app P o l l' : ocnt P o (l ++ l') = ocnt P o l + ocnt P o l'.
Proof. induction l as [|[o' j] l IH]; simpl; [reflexivity|]. rewrite IH. lia. Qed.
Lemma fock_count P l : forall n s m, fock l n = Some (s, m) -> (forall e, In e l -> ladder (fst e) = true) ->
  pcnt P 0 m + ocnt P Ann l = pcnt P 0 n + ocnt P Cre l.
Proof.
  induction l as [|[o j] l IH]; intros n s m H L.
  - simpl in H. injection H as <- <-. reflexivity.
  - rewrite fock_cons in H. destruct (fock l n) as [[s1 m1]|] eqn:E; [|discriminate]. simpl in H.
    destruct (fock1 o j m1) as [[s2 m2]|] eqn:E1; [|discriminate]. injection H as <- <-.
    pose proof (IH n s1 m1 E (fun e He => L e (or_intror He))).
    pose proof (fock1_count P o j m1 s2 m2 E1 (L (o, j) (or_introl eq_refl))).
    simpl in *. lia.
Qed.

(** Operators of a list of creators or annihilators. *)
Definition cres (c : list nat) : list (fop * nat) := map (fun i => (Cre, i)) c.
Definition anns (a : list nat) : list (fop * nat) := map (fun i => (Ann, i)) a.
Definition cnt (P : nat -> bool) (l : list nat) : nat := length (filter P l).
Lemma ocnt_cres P c : ocnt P Cre (cres c) = cnt P c.
Proof. unfold cnt. induction c as [|x c IH]; simpl; [reflexivity|]. unfold chi. destruct (P x); simpl; congruence. Qed.
Lemma ocnt_cres' P c : ocnt P Ann (cres c) = 0.
Proof. induction c as [|x c IH]; simpl; [reflexivity|exact IH]. Qed.
Lemma ocnt_anns P a : ocnt P Ann (anns a) = cnt P a.
Proof. unfold cnt. induction a as [|x c IH]; simpl; [reflexivity|]. unfold chi. destruct (P x); simpl; congruence. Qed.
Lemma ocnt_anns' P a : ocnt P Cre (anns a) = 0.
Proof. induction a as [|x c IH]; simpl; [reflexivity|exact IH]. Qed.
Lemma cnt_rev P a : cnt P (rev a) = cnt P a.
Proof.
  unfold cnt. induction a as [|x a IH]; simpl; [reflexivity|]. rewrite filter_app, app_length, IH. simpl.
  destruct (P x); simpl; lia.
Qed.
Lemma ladders_letters c a e : In e (rdm_letters c a) -> ladder (fst e) = true.
Proof.
  unfold rdm_letters. rewrite in_app_iff, !in_map_iff. intros [[i [<- _]]|[i [<- _]]]; reflexivity.
Qed.
Lemma ladders_anns a e : In e (anns a) -> ladder (fst e) = true.
Proof. unfold anns. rewrite in_map_iff. intros [i [<- _]]. reflexivity. Qed.
Lemma letters_eq c a : rdm_letters c a = cres c ++ anns (rev a). Proof. reflexivity. Qed.

Lemma rdm_letters_count P c a n s m : fock (rdm_letters c a) n = Some (s, m) ->
  pcnt P 0 m + cnt P a = pcnt P 0 n + cnt P c.
Proof.
  intro H. pose proof (fock_count P _ _ _ _ H (ladders_letters c a)) as G.
  rewrite letters_eq, !ocnt_app, ocnt_cres, ocnt_cres', ocnt_anns, ocnt_anns', cnt_rev in G. lia.
Qed.
Lemma anns_count P a n s m : fock (anns a) n = Some (s, m) -> pcnt P 0 m + cnt P a = pcnt P 0 n.
Proof.
  intro H. pose proof (fock_count P _ _ _ _ H (ladders_anns a)) as G. rewrite ocnt_anns, ocnt_anns' in G. lia.
Qed.
Lemma cnt_all a : cnt (fun _ => true) a = length a.
Proof. unfold cnt. induction a; simpl; congruence. Qed.

(** Swapping neighbours of the same kind. *)
Lemma fock_rel_app s p l l' : fock_rel s l l' -> fock_rel s (p ++ l) (p ++ l').
Proof. intro H. induction p as [|x p IH]; [exact H|]. apply fock_rel_cons, IH. Qed.
Lemma fock_rel_app_r s l l' q : fock_rel s l l' -> fock_rel s (l ++ q) (l' ++ q).
Proof.
  intros H n. rewrite !fock_app. destruct (fock q n) as [[t m]|]; [|reflexivity]. cbn [bindo]. rewrite (H m).
  destruct (fock l' m) as [[t' m']|]; [|reflexivity]. simpl. f_equal. f_equal. destruct s, t, t'; reflexivity.
Qed.
Lemma fock_swap_same o x y l : o = Cre \/ o = Ann ->
  fock_rel true ((o, x) :: (o, y) :: l) ((o, y) :: (o, x) :: l).
Proof.
  intro Ho. destruct (Nat.eq_dec x y) as [->|D].
  - assert (Z : forall n, fock ((o, y) :: (o, y) :: l) n = None).
    { intro n. rewrite !fock_cons. destruct (fock l n) as [[s m]|]; [|reflexivity]. cbn [bindo].
      pose proof (fock1_same o o y m) as E. replace (merge_table o o) with (@None fop) in E by (destruct Ho; subst; reflexivity).
      destruct (fock1 o y m) as [[s1 m1]|]; [|reflexivity]. cbn [bindo] in *.
      destruct (fock1 o y m1) as [[s2 m2]|]; [discriminate|reflexivity]. }
    intro n. rewrite Z. reflexivity.
  - pose proof (fock_swap o x o y l D) as E. replace (ladder o && ladder o) with true in E by (destruct Ho; subst; reflexivity). exact E.
Qed.

Section RdmFock.
  Variable K : CoefRing.
  Add Ring KRing : (c_ring K).
  Local Open Scope coef_scope.

  Lemma expect_ext R (A B : mat K) psi : meq R A B -> expect R A psi = expect R B psi.
  Proof.
    intro H. unfold expect, mvec. apply sumbits_ext. intros r Hr. f_equal. apply sumbits_ext. intros c Hc.
    rewrite H by assumption. reflexivity.
  Qed.
  Lemma expect_scal R x (A : mat K) psi : expect R (mscal x A) psi = x * expect R A psi.
  Proof.
    unfold expect, mvec, mscal. rewrite <- sumbits_scal. apply sumbits_ext. intros r Hr.
    transitivity (cconj (psi r) * (x * sumbits R (fun c => A r c * psi c))); [|ring].
    f_equal. rewrite <- sumbits_scal. apply sumbits_ext. intros; ring.
  Qed.
  Lemma expect_madd R (A B : mat K) psi : expect R (madd A B) psi = expect R A psi + expect R B psi.
  Proof.
    unfold expect, mvec, madd. rewrite <- sumbits_add. apply sumbits_ext. intros r Hr.
    transitivity (cconj (psi r) * (sumbits R (fun c => A r c * psi c) + sumbits R (fun c => B r c * psi c))); [|ring].
    rewrite <- sumbits_add. f_equal. apply sumbits_ext. intros; ring.
  Qed.
  Lemma expect_adj R (A : mat K) psi : expect R (madj A) psi = cconj (expect R A psi).
  Proof.
    unfold expect, mvec, madj. rewrite sumbits_conj.
    transitivity (sumbits R (fun r => sumbits R (fun c => cconj (psi r) * (cconj (A c r) * psi c)))).
    { apply sumbits_ext. intros. rewrite <- sumbits_scal. reflexivity. }
    rewrite sumbits_swap. apply sumbits_ext. intros r Hr. rewrite cconj_mul, cconj_inv, sumbits_conj, <- sumbits_scal.
    apply sumbits_ext. intros c Hc. rewrite cconj_mul. ring.
  Qed.

  Lemma expect_fock_rel R s l l' (psi : bits -> K) : fock_rel s l l' ->
    expect R (fock_mat l) psi = sgn s * expect R (fock_mat l') psi.
  Proof.
    intro H. rewrite <- expect_scal. apply expect_ext. intros r c _ _. unfold mscal. apply fock_mat_rel. exact H.
  Qed.

  (** Antisymmetry. *)
  Lemma rdm_antisym_cre R (psi : bits -> K) l x y l' a :
    rdm_of R psi (l ++ x :: y :: l') a = - rdm_of R psi (l ++ y :: x :: l') a.
  Proof.
    unfold rdm_of. rewrite !letters_eq. unfold cres. rewrite !map_app. cbn [map].
    rewrite (expect_fock_rel R true _ ((map (fun i => (Cre, i)) l ++ (Cre, y) :: (Cre, x) :: map (fun i => (Cre, i)) l') ++ anns (rev a))).
    - cbn [sgn]. ring.
    - apply fock_rel_app_r, fock_rel_app, fock_swap_same. auto.
  Qed.
  Lemma rdm_herm R (psi : bits -> K) c a : rdm_of R psi a c = cconj (rdm_of R psi c a).
  Proof.
    unfold rdm_of. rewrite <- expect_adj. apply expect_ext.
    replace (rdm_letters a c) with (rev (map cadj (rdm_letters c a))); [apply fock_mat_adj|].
    unfold rdm_letters. rewrite map_app, rev_app_distr, !map_map. unfold cadj. cbn [fst snd fadj].
    rewrite <- !map_rev, rev_involutive. reflexivity.
  Qed.
  Lemma rdm_antisym_ann R (psi : bits -> K) l x y l' c :
    rdm_of R psi c (l ++ x :: y :: l') = - rdm_of R psi c (l ++ y :: x :: l').
  Proof.
    rewrite (rdm_herm R psi (l ++ x :: y :: l') c), rdm_antisym_cre, cconj_opp, <- rdm_herm. reflexivity.
  Qed.

  (** Elements that change the number of occupied modes satisfying P vanish in a state where that number is
      definite. *)
  Lemma rdm_selection R (psi : bits -> K) P k c a :
    (forall x, length x = R -> pcnt P 0 x <> k -> psi x = 0) -> cnt P c <> cnt P a -> rdm_of R psi c a = 0.
  Proof.
    intros H D. unfold rdm_of, expect, mvec.
    transitivity (sumbits R (fun _ => (0:K))); [|apply sumbits_0]. apply sumbits_ext. intros r Hr.
    rewrite <- sumbits_scal. transitivity (sumbits R (fun _ => (0:K))); [|apply sumbits_0].
    apply sumbits_ext. intros q Hq. unfold fock_mat, pmap_mat.
    destruct (fock (rdm_letters c a) q) as [[s m]|] eqn:E; [|ring].
    destruct (bits_eqb m r) eqn:Em; [|ring]. apply bits_eqb_spec in Em. subst m.
    pose proof (rdm_letters_count P c a q s r E) as G.
    destruct (Nat.eq_dec (pcnt P 0 q) k) as [Eq|Nq].
    - rewrite (H r Hr) by lia. rewrite cconj_0. ring.
    - rewrite (H q Hq Nq). ring.
  Qed.

  (** ** Contraction *)
  Lemma ofnat_add m n : @ofnat K (m + n) = ofnat m + ofnat n.
  Proof. induction m as [|m IH]; simpl; [ring|]. rewrite IH. ring. Qed.
  Lemma ofnat_mul m n : @ofnat K (m * n) = ofnat m * ofnat n.
  Proof. induction m as [|m IH]; simpl; [ring|]. rewrite ofnat_add, IH. ring. Qed.

  (** Sum over a list. *)
  Definition lsum {A} (l : list A) (f : A -> K) : K := fold_right (fun x s => f x + s) 0 l.
  Lemma lsum_ext {A} (l : list A) (f g : A -> K) : (forall x, In x l -> f x = g x) -> lsum l f = lsum l g.
  Proof.
    induction l as [|a l IH]; intro H; simpl; [reflexivity|]. rewrite (H a (or_introl eq_refl)), IH; [reflexivity|].
    intros; apply H; right; assumption.
  Qed.
  Lemma lsum_scal {A} (l : list A) x (f : A -> K) : lsum l (fun i => x * f i) = x * lsum l f.
  Proof. induction l as [|a l IH]; simpl; [ring|]. rewrite IH. ring. Qed.
  Lemma lsum_add {A} (l : list A) (f g : A -> K) : lsum l (fun i => f i + g i) = lsum l f + lsum l g.
  Proof. induction l as [|a l IH]; simpl; [ring|]. rewrite IH. ring. Qed.
  Lemma lsum_app {A} (l l' : list A) (f : A -> K) : lsum (l ++ l') f = lsum l f + lsum l' f.
  Proof. induction l as [|a l IH]; simpl; [ring|]. rewrite IH. ring. Qed.
  Lemma lsum_0 {A} (l : list A) : lsum l (fun _ => 0) = 0.
  Proof. induction l as [|a l IH]; simpl; [reflexivity|]. rewrite IH. ring. Qed.
  Lemma lsum_expect {X} R (l : list X) (A : X -> mat K) psi :
    lsum l (fun x => expect R (A x) psi) = expect R (fun r c => lsum l (fun x => A x r c)) psi.
  Proof.
    induction l as [|a l IH]; simpl.
    - unfold expect, mvec. symmetry. transitivity (sumbits R (fun _ => (0:K))); [|apply sumbits_0].
      apply sumbits_ext. intros r Hr. transitivity (cconj (psi r) * sumbits R (fun _ => (0:K))).
      + f_equal. apply sumbits_ext. intros. ring.
      + rewrite sumbits_0. ring.
    - rewrite IH, <- expect_madd. reflexivity.
  Qed.

  Lemma fock1_par x m : fock1 Par x m = if nth x m false then Some (false, m) else None.
  Proof.
    unfold fock1. revert x. induction m as [|b m IH]; intros [|x]; try reflexivity.
    - destruct b; reflexivity.
    - specialize (IH x). simpl in *. destruct (nth_error m x) as [b0|]; [|destruct (nth x m false); [discriminate|reflexivity]].
      destruct b0; simpl in *; [|destruct (nth x m false); [discriminate|reflexivity]].
      destruct (nth x m false); [|discriminate]. injection IH as IH. rewrite IH. reflexivity.
  Qed.
  Lemma fock_pair_par x A c : fock ((Cre, x) :: (Ann, x) :: A) c = bindo (fock A c) (fock1 Par x).
  Proof.
    rewrite !fock_cons. destruct (fock A c) as [[s m]|]; [|reflexivity]. cbn [bindo].
    pose proof (fock1_same Cre Ann x m) as E. cbn [merge_table] in E. rewrite <- E.
    destruct (fock1 Ann x m) as [[s1 m1]|]; [|reflexivity]. cbn [bindo].
    destruct (fock1 Cre x m1) as [[s2 m2]|]; [|reflexivity]. rewrite xorb_assoc. reflexivity.
  Qed.
  Lemma lsum_occ m : forall i (v : K), lsum (seq i (length m)) (fun x => if nth (x - i) m false then v else 0)
     = ofnat (popcount m) * v.
  Proof.
    induction m as [|b m IH]; intros i v; simpl; [unfold popcount; simpl; ring|].
    rewrite Nat.sub_diag. transitivity ((if b then v else 0) + lsum (seq (S i) (length m)) (fun x => if nth (x - S i) m false then v else 0)).
    - f_equal. apply lsum_ext. intros x Hx. apply in_seq in Hx. replace (x - i)%nat with (S (x - S i))%nat by lia. reflexivity.
    - rewrite (IH (S i) v). unfold popcount. simpl. destruct b; simpl; ring.
  Qed.

  Lemma contract_mat R C a r c : length c = R ->
    lsum (seq 0 R) (fun x => @fock_mat K (C ++ (Cre, x) :: (Ann, x) :: anns a) r c)
    = ofnat (popcount c - length a) * fock_mat (C ++ anns a) r c.
  Proof.
    intro Hc. unfold fock_mat, pmap_mat.
    destruct (fock (anns a) c) as [[s m]|] eqn:E.
    2:{ rewrite fock_app, E. cbn [bindo]. rewrite (lsum_ext _ _ (fun _ => 0)); [rewrite lsum_0; ring|].
        intros x _. rewrite fock_app, fock_pair_par, E. reflexivity. }
    pose proof (anns_count (fun _ => true) a c s m E) as G. rewrite cnt_all, <- !popcount_pcnt in G.
    replace (popcount c - length a)%nat with (popcount m) by lia.
    pose proof (fock_length _ _ _ _ E) as Lm.
    rewrite <- (lsum_occ m 0). rewrite Lm, Hc. apply lsum_ext. intros x Hx. rewrite Nat.sub_0_r.
    rewrite !fock_app, fock_pair_par, E. cbn [bindo]. rewrite fock1_par. destruct (nth x m false); [|reflexivity].
    cbn [bindo]. rewrite xorb_false_r. reflexivity.
  Qed.

  Theorem rdm_contract R Ne (psi : bits -> K) c a : has_particles R Ne psi ->
    lsum (seq 0 R) (fun x => rdm_of R psi (c ++ [x]) (a ++ [x])) = ofnat (Ne - length a) * rdm_of R psi c a.
  Proof.
    intro H. unfold rdm_of. rewrite lsum_expect, <- expect_scal. unfold expect, mvec. apply sumbits_ext. intros r Hr.
    f_equal. apply sumbits_ext. intros q Hq. unfold mscal.
    destruct (Nat.eq_dec (popcount q) Ne) as [Eq|Nq].
    - f_equal. rewrite <- Eq, letters_eq.
      replace (length a) with (length (rev a)) by apply rev_length.
      rewrite <- (contract_mat R (cres c) (rev a) r q Hq). apply lsum_ext. intros x _.
      rewrite letters_eq. unfold cres, anns. rewrite rev_app_distr, map_app. cbn [rev app map]. rewrite <- app_assoc. reflexivity.
    - rewrite (H q Hq Nq). ring.
  Qed.
End RdmFock.
Arguments lsum {_ _}.
