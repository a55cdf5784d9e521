(** Proofs about the encodings, and the generic correctness of the transforms that multiply the terms
    from the left in a forward loop. *)
From Coq Require Import Bool List Arith ZArith Lia Ring Permutation.
From Verif Require Import Coeff MatSpec MatLemmas PauliModel PauliProofs OperatorModel OperatorProofs
  FockSpec FermiModel FermiProofs TransformModel TwoTerm JWProofs AdjProofs EncSpec.
Import ListNotations.

(** * Prefix parities *)
Definition pre (n : bits) (a : nat) : bool := parity (firstn a n).
Definition at_ (n : bits) (j : nat) : bool := nth j n false.

Lemma parity_app l m : parity (l ++ m) = xorb (parity l) (parity m).
Proof. unfold parity. induction l as [|b l IH]; cbn in *; [destruct (fold_right xorb false m); reflexivity|]. rewrite IH, xorb_assoc. reflexivity. Qed.

Lemma pre_S n a : pre n (S a) = xorb (pre n a) (at_ n a).
Proof.
  unfold pre, at_. revert a. induction n as [|b n IH]; intro a; [destruct a; reflexivity|].
  destruct a as [|a]; [cbn; destruct b; reflexivity|].
  change (firstn (S (S a)) (b :: n)) with (b :: firstn (S a) n). change (firstn (S a) (b :: n)) with (b :: firstn a n).
  cbn [parity fold_right nth]. fold (parity (firstn (S a) n)). fold (parity (firstn a n)). rewrite IH, xorb_assoc. reflexivity.
Qed.

Lemma range_parity n s e : s <= e -> parity (skipn s (firstn e n)) = xorb (pre n e) (pre n s).
Proof.
  intro H. unfold pre. rewrite <- (firstn_skipn s (firstn e n)) at 2. rewrite parity_app, firstn_firstn, Nat.min_l by exact H.
  destruct (parity (firstn s n)), (parity (skipn s (firstn e n))); reflexivity.
Qed.

Section Enc.
  Variable first : nat -> nat.
  Variable first_le : forall j, first j <= j.
  Notation enc := (range_enc first).

  Lemma enc_length n : length (enc n) = length n.
  Proof. unfold range_enc. rewrite map_length, seq_length. reflexivity. Qed.

  Lemma enc_at n j : j < length n -> at_ (enc n) j = xorb (pre n (S j)) (pre n (first j)).
  Proof.
    intro H. unfold at_, range_enc.
    rewrite (nth_indep _ false (parity (skipn (first 0) (firstn 1 n)))) by (rewrite map_length, seq_length; exact H).
    rewrite (map_nth (fun j => parity (skipn (first j) (firstn (S j) n)))), seq_nth by exact H. cbn [Nat.add].
    apply range_parity. specialize (first_le j). lia.
  Qed.

  Lemma at_ext n m : length n = length m -> (forall j, j < length n -> at_ n j = at_ m j) -> n = m.
  Proof. intros L H. apply (nth_ext _ _ false false L). exact H. Qed.

  Lemma enc_inj n m : length n = length m -> enc n = enc m -> n = m.
  Proof.
    intros L E.
    assert (P : forall a, a <= length n -> pre n a = pre m a).
    { intro a. induction a as [a IH] using lt_wf_ind. intro Ha. destruct a as [|j]; [reflexivity|].
      assert (Ej : at_ (enc n) j = at_ (enc m) j) by (rewrite E; reflexivity).
      rewrite !enc_at in Ej by lia. rewrite (IH (first j)) in Ej by (pose proof (first_le j); lia).
      destruct (pre n (S j)), (pre m (S j)), (pre m (first j)); cbn in Ej; congruence. }
    apply at_ext; [exact L|]. intros j Hj.
    pose proof (P (S j) ltac:(lia)) as E1. rewrite !pre_S, (P j ltac:(lia)) in E1.
    destruct (pre m j), (at_ n j), (at_ m j); cbn in E1; congruence.
  Qed.

  (** * Flipping one mode *)
  Definition flip (q : nat) (n : bits) : bits := upd q (negb (at_ n q)) n.

  Lemma upd_length {A} q (b : A) l : length (upd q b l) = length l.
  Proof. revert q. induction l as [|x l IH]; intros [|q]; cbn; auto. Qed.
  Lemma at_upd q b n j : q < length n -> at_ (upd q b n) j = if Nat.eqb j q then b else at_ n j.
  Proof.
    unfold at_. revert q j. induction n as [|x n IH]; intros q j H; [cbn in H; lia|].
    destruct q as [|q], j as [|j]; cbn in *; try reflexivity. apply IH. lia.
  Qed.
  Lemma at_flip q n j : q < length n -> at_ (flip q n) j = xorb (at_ n j) (Nat.eqb j q).
  Proof.
    intro H. unfold flip. rewrite at_upd by exact H. destruct (Nat.eqb_spec j q) as [->|D].
    - destruct (at_ n q); reflexivity.
    - destruct (at_ n j); reflexivity.
  Qed.
  Lemma pre_flip q n a : q < length n -> pre (flip q n) a = xorb (pre n a) (Nat.ltb q a).
  Proof.
    intro H. induction a as [|a IH]; [reflexivity|]. rewrite !pre_S, IH, at_flip by exact H.
    destruct (Nat.eqb_spec a q) as [->|D].
    - rewrite Nat.ltb_irrefl. replace (q <? S q) with true by (symmetry; apply Nat.ltb_lt; lia).
      destruct (pre n q), (at_ n q); reflexivity.
    - replace (q <? S a) with (q <? a).
      2:{ destruct (Nat.ltb_spec q a), (Nat.ltb_spec q (S a)); lia. }
      destruct (pre n a), (at_ n a), (q <? a); reflexivity.
  Qed.

  Lemma enc_flip_at q n j : q < length n -> j < length n ->
    at_ (enc (flip q n)) j = xorb (at_ (enc n) j) (Nat.leb (first j) q && Nat.leb q j).
  Proof.
    intros H Hj. assert (L : length (flip q n) = length n) by apply upd_length.
    rewrite !enc_at by lia. rewrite !pre_flip by exact H.
    replace (q <? S j) with (q <=? j) by reflexivity.
    replace (first j <=? q) with (negb (q <? first j)) by (rewrite Nat.ltb_antisym, negb_involutive; reflexivity).
    assert (X : q <? first j = true -> q <=? j = true).
    { intro G. apply Nat.ltb_lt in G. apply Nat.leb_le. pose proof (first_le j). lia. }
    destruct (pre n (S j)), (pre n (first j)), (q <? first j), (q <=? j); cbn; try reflexivity; discriminate (X eq_refl).
  Qed.
End Enc.

(** * Pauli strings as signed permutations *)
Definition xbit (p : pauli) : bool := match p with PX | PY => true | _ => false end.
Definition zbit (p : pauli) : bool := match p with PZ | PY => true | _ => false end.
Definition is_y (p : pauli) : bool := match p with PY => true | _ => false end.
Definition pat (s : list pauli) (j : nat) : pauli := nth j s PI.
(** xor over the positions below a *)
Fixpoint xsum (f : nat -> bool) (a : nat) : bool := match a with O => false | S a' => xorb (xsum f a') (f a') end.
Definition zdot (s : list pauli) (c : bits) : bool := xsum (fun j => zbit (pat s j) && at_ c j) (length s).
Fixpoint ycount (s : list pauli) : nat := match s with [] => 0 | p :: s' => if is_y p then S (ycount s') else ycount s' end.
Definition same_x (s : list pauli) (r c : bits) : Prop :=
  forall j, j < length s -> at_ r j = xorb (at_ c j) (xbit (pat s j)).

Lemma xsum_ext f g a : (forall j, j < a -> f j = g j) -> xsum f a = xsum g a.
Proof. induction a as [|a IH]; intro H; cbn; [reflexivity|]. rewrite IH, (H a) by (intros; try apply H; lia). reflexivity. Qed.
Lemma xsum_shift f a : xsum f (S a) = xorb (f 0) (xsum (fun j => f (S j)) a).
Proof.
  induction a as [|a IH]; [cbn; destruct (f 0); reflexivity|].
  change (xsum f (S (S a))) with (xorb (xsum f (S a)) (f (S a))). rewrite IH. cbn. rewrite xorb_assoc. reflexivity.
Qed.

Section PAct.
  Variable K : CoefRing.
  Add Ring KRing : (c_ring K).
  Local Open Scope coef_scope.

  Lemma pmat_no s (r c : bits) : length r = length s -> length c = length s -> ~ same_x s r c -> @pmat K s r c = 0.
  Proof.
    revert r c. induction s as [|p s IH]; intros [|a r] [|b c] Hr Hc H; try discriminate.
    - exfalso. apply H. intros j Hj. inversion Hj.
    - cbn. destruct (Bool.bool_dec a (xorb b (xbit p))) as [E|E].
      + rewrite IH; [ring|auto|auto|]. intro G. apply H. intros [|j] Hj; [exact E|]. apply (G j). cbn in Hj. lia.
      + destruct p, a, b; cbn in *; try (exfalso; apply E; reflexivity); ring.
  Qed.
  Lemma pmat_yes s (r c : bits) : length r = length s -> length c = length s -> same_x s r c ->
    @pmat K s r c = cpow ci (ycount s) * sgn (zdot s c).
  Proof.
    unfold zdot. revert r c. induction s as [|p s IH]; intros [|a r] [|b c] Hr Hc H; try discriminate.
    - cbn. ring.
    - assert (E : a = xorb b (xbit p)) by (apply (H 0%nat); cbn; lia).
      cbn [pmat length]. rewrite xsum_shift. rewrite (IH r c); [|auto|auto|].
      2:{ intros j Hj. apply (H (S j)). cbn. lia. }
      unfold pat, at_. cbn [nth]. rewrite sgn_xorb. subst a.
      destruct p, b; cbn; ring.
  Qed.
  Lemma same_x_dec s r c : {same_x s r c} + {~ same_x s r c}.
  Proof.
    unfold same_x. induction (length s) as [|a [IH|IH]].
    - left. intros j Hj. lia.
    - destruct (Bool.bool_dec (at_ r a) (xorb (at_ c a) (xbit (pat s a)))) as [E|E].
      + left. intros j Hj. destruct (Nat.eq_dec j a) as [->|]; [exact E|apply IH; lia].
      + right. intro H. apply E, H. lia.
    - right. intro H. apply IH. intros j Hj. apply H. lia.
  Qed.
End PAct.

(** * One term in the encoded basis *)
Section Term.
  Variable K : CoefRing.
  Add Ring KRing : (c_ring K).
  Local Open Scope coef_scope.
  Variable first : nat -> nat.
  Variable first_le : forall j, first j <= j.
  Notation enc := (range_enc first).

  Lemma xhalf : (chalf + chalf : K) = 1. Proof. apply chalf_dbl. Qed.

  Lemma fock1_flip o q n : ladder o = true -> q < length n ->
    fock1 o q n = if Bool.eqb (at_ n q) (match o with Ann => true | _ => false end)
                  then Some (pre n q, flip q n) else None.
  Proof.
    intros Ho H. unfold fock1. rewrite (nth_error_nth' n false H). fold (at_ n q). unfold flip.
    destruct o; try discriminate; destruct (at_ n q); cbn; reflexivity.
  Qed.

  Lemma ladder_enc o q s1 s2 N : ladder o = true -> q < N -> length s1 = N -> length s2 = N ->
    ycount s1 = 0%nat -> ycount s2 = 1%nat ->
    (forall j, j < N -> xbit (pat s1 j) = Nat.leb (first j) q && Nat.leb q j) ->
    (forall j, j < N -> xbit (pat s2 j) = xbit (pat s1 j)) ->
    (forall n, length n = N -> zdot s1 (enc n) = pre n q) ->
    (forall n, length n = N -> zdot s2 (enc n) = pre n (S q)) ->
    in_basis enc N (madd (mscal chalf (pmat s1)) (mscal (ladder_c2 o) (pmat s2))) (@fock_mat K [(o, q)]).
  Proof.
    intros Ho Hq L1 L2 Y1 Y2 X1 X2 Z1 Z2 r c Hr Hc. unfold madd, mscal.
    assert (FL : length (flip q c) = N) by (unfold flip; rewrite upd_length; exact Hc).
    assert (SX : same_x s1 (enc r) (enc c) <-> r = flip q c).
    { split.
      - intro H. apply (enc_inj first first_le); [congruence|]. apply at_ext.
        + rewrite !enc_length. congruence.
        + rewrite enc_length, Hr. intros j Hj. rewrite (H j) by congruence. rewrite X1 by exact Hj.
          rewrite enc_flip_at by (auto; lia). reflexivity.
      - intros -> j Hj. rewrite enc_flip_at by (auto; lia). rewrite X1 by congruence. reflexivity. }
    assert (SX2 : same_x s2 (enc r) (enc c) <-> same_x s1 (enc r) (enc c)).
    { unfold same_x. rewrite L1, L2. split; intros H j Hj; [rewrite <- X2 by exact Hj|rewrite X2 by exact Hj]; apply H; exact Hj. }
    unfold fock_mat, pmap_mat. rewrite fock_cons. cbn [fock bindo]. rewrite fock1_flip by (auto; lia).
    destruct (same_x_dec s1 (enc r) (enc c)) as [E|E].
    - rewrite (pmat_yes K s1), (pmat_yes K s2); try (rewrite enc_length; congruence); [|apply SX2; exact E|exact E].
      rewrite Y1, Y2, Z1, Z2 by exact Hc. rewrite pre_S. apply SX in E. subst r.
      assert (Ci : (ci * ci : K) = - (1)) by apply ci_sq.
      assert (H1 : (1 - chalf : K) = chalf) by apply one_minus_half.
      assert (Hh : (chalf + chalf : K) = 1) by apply xhalf.
      destruct o; try discriminate; cbn [ladder_c2]; rewrite ?H1; destruct (at_ c q), (pre c q); cbn;
        rewrite ?bits_eqb_refl; cbn;
        first [ring [Ci]
              |transitivity (chalf + chalf : K); [ring [Ci]|exact Hh]
              |transitivity (- (chalf + chalf) : K); [ring [Ci]|rewrite Hh; reflexivity]].
    - rewrite (pmat_no K s1), (pmat_no K s2); try (rewrite enc_length; congruence); [|rewrite SX2; exact E|exact E].
      destruct (Bool.eqb (at_ c q) _); cbn; [|ring].
      destruct (bits_eqb (flip q c) r) eqn:B; [|ring]. apply bits_eqb_spec in B. exfalso. apply E, SX. congruence.
  Qed.

  Lemma fock1_number o q n : ladder o = false -> q < length n ->
    fock1 o q n = if Bool.eqb (at_ n q) (match o with Par => true | _ => false end)
                  then Some (false, n) else None.
  Proof.
    intros Ho H. unfold fock1. rewrite (nth_error_nth' n false H). fold (at_ n q).
    assert (U : forall b, at_ n q = b -> upd q b n = n).
    { intros b E. apply at_ext; [apply upd_length|]. rewrite upd_length. intros j Hj. rewrite at_upd by exact H.
      destruct (Nat.eqb_spec j q) as [->|D]; congruence. }
    destruct o; try discriminate; destruct (at_ n q) eqn:E; cbn; try reflexivity; rewrite U by reflexivity; reflexivity.
  Qed.

  Lemma number_enc o q s2 N : ladder o = false -> q < N -> length s2 = N -> ycount s2 = 0%nat ->
    (forall j, j < N -> xbit (pat s2 j) = false) ->
    (forall n, length n = N -> zdot s2 (enc n) = at_ n q) ->
    in_basis enc N (madd (mscal chalf (pmat (repeat PI N))) (mscal (number_c2 o) (pmat s2))) (@fock_mat K [(o, q)]).
  Proof.
    intros Ho Hq L2 Y2 X2 Z2 r c Hr Hc. unfold madd, mscal.
    rewrite pmat_identity by (rewrite enc_length; assumption). unfold mone.
    assert (SX : same_x s2 (enc r) (enc c) <-> r = c).
    { split.
      - intro H. apply (enc_inj first first_le); [congruence|]. apply at_ext.
        + rewrite !enc_length. congruence.
        + rewrite enc_length, Hr. intros j Hj. rewrite (H j) by congruence. rewrite X2 by exact Hj. apply xorb_false_r.
      - intros -> j Hj. rewrite X2 by congruence. symmetry. apply xorb_false_r. }
    unfold fock_mat, pmap_mat. rewrite fock_cons. cbn [fock bindo]. rewrite fock1_number by (auto; lia).
    destruct (same_x_dec s2 (enc r) (enc c)) as [E|E].
    - rewrite (pmat_yes K s2); try (rewrite enc_length; congruence); [|exact E].
      rewrite Y2, Z2 by exact Hc. apply SX in E. subst r. rewrite bits_eqb_refl.
      assert (H1 : (1 - chalf : K) = chalf) by apply one_minus_half.
      assert (Hh : (chalf + chalf : K) = 1) by apply xhalf.
      destruct o; try discriminate; cbn [number_c2]; rewrite ?H1; destruct (at_ c q); cbn;
        rewrite ?bits_eqb_refl; cbn;
        first [ring|transitivity (chalf + chalf : K); [ring|exact Hh]].
    - rewrite (pmat_no K s2); try (rewrite enc_length; congruence); [|exact E].
      assert (B : bits_eqb (enc r) (enc c) = false).
      { destruct (bits_eqb (enc r) (enc c)) eqn:B; [|reflexivity]. exfalso. apply E, SX. apply bits_eqb_spec in B.
        apply (enc_inj first first_le); congruence. }
      rewrite B. destruct (Bool.eqb (at_ c q) _); cbn; [|ring].
      destruct (bits_eqb c r) eqn:B'; [|ring]. apply bits_eqb_spec in B'. exfalso. apply E, SX. congruence.
  Qed.
End Term.

(** * Products in the encoded basis *)
Fixpoint allbits (n : nat) : list bits :=
  match n with O => [[]] | S m => map (cons false) (allbits m) ++ map (cons true) (allbits m) end.

Lemma allbits_In n b : In b (allbits n) <-> length b = n.
Proof.
  revert b. induction n as [|n IH]; intro b; cbn.
  - split; [intros [<-|[]]; reflexivity|]. destruct b; [left; reflexivity|discriminate].
  - rewrite in_app_iff, !in_map_iff. split.
    + intros [[x [<- H]]|[x [<- H]]]; apply IH in H; cbn; congruence.
    + destruct b as [|[] b]; [discriminate| |]; intro H; injection H as H; apply IH in H; [right|left]; exists b; auto.
Qed.
Lemma NoDup_app_disj {A} (l m : list A) : NoDup l -> NoDup m -> (forall x, In x l -> ~ In x m) -> NoDup (l ++ m).
Proof.
  induction l as [|x l IH]; intros Hl Hm D; [exact Hm|]. cbn. inversion Hl as [|? ? Hn Hl']; subst. constructor.
  - rewrite in_app_iff. intros [H|H]; [contradiction|]. exact (D x (or_introl eq_refl) H).
  - apply IH; [exact Hl'|exact Hm|]. intros y Hy. apply D. right. exact Hy.
Qed.
Lemma allbits_NoDup n : NoDup (allbits n).
Proof.
  induction n as [|n IH]; cbn; [repeat constructor; intros []|]. apply NoDup_app_disj.
  - apply FinFun.Injective_map_NoDup; [|exact IH]. intros x y E. congruence.
  - apply FinFun.Injective_map_NoDup; [|exact IH]. intros x y E. congruence.
  - intros x H G. apply in_map_iff in H, G. destruct H as [a [<- _]], G as [b [E _]]. discriminate.
Qed.

Section Conj.
  Variable K : CoefRing.
  Add Ring KRing : (c_ring K).
  Local Open Scope coef_scope.

  Definition suml (l : list bits) (f : bits -> K) : K := fold_right (fun b a => f b + a) 0 l.
  Lemma suml_app l m f : suml (l ++ m) f = suml l f + suml m f.
  Proof. unfold suml. induction l as [|x l IH]; cbn in *; [ring|]. rewrite IH. ring. Qed.
  Lemma suml_map g l f : suml (map g l) f = suml l (fun b => f (g b)).
  Proof. unfold suml. induction l as [|x l IH]; cbn in *; [reflexivity|]. rewrite IH. reflexivity. Qed.
  Lemma sumbits_suml n (f : bits -> K) : sumbits n f = suml (allbits n) f.
  Proof.
    revert f. induction n as [|n IH]; intro f; [cbn; ring|]. cbn [sumbits allbits]. rewrite suml_app, !suml_map, !IH. reflexivity.
  Qed.
  Lemma suml_perm l m f : Permutation l m -> suml l f = suml m f.
  Proof.
    unfold suml. intro H. induction H as [|x l l' H IH|x y l|l l' l'' H1 IH1 H2 IH2]; cbn in *.
    - reflexivity.
    - rewrite IH. reflexivity.
    - ring.
    - rewrite IH1. exact IH2.
  Qed.

  Variable enc : bits -> bits.
  Variable enc_len : forall n, length (enc n) = length n.
  Variable enc_i : forall n m, length n = length m -> enc n = enc m -> n = m.

  Lemma enc_perm N : Permutation (map enc (allbits N)) (allbits N).
  Proof.
    apply NoDup_Permutation_bis.
    - apply (NoDup_map_on enc); [apply allbits_NoDup|]. intros x y Hx Hy. apply allbits_In in Hx, Hy. apply enc_i. congruence.
    - rewrite map_length. lia.
    - intros b Hb. apply in_map_iff in Hb. destruct Hb as [x [<- Hx]]. apply allbits_In in Hx. apply allbits_In.
      rewrite enc_len. exact Hx.
  Qed.

  Lemma sumbits_enc N (f : bits -> K) : sumbits N f = sumbits N (fun b => f (enc b)).
  Proof. rewrite !sumbits_suml. transitivity (suml (map enc (allbits N)) f); [apply suml_perm, Permutation_sym, enc_perm|apply suml_map]. Qed.

  Lemma in_basis_mul N (A' B' A B : mat K) : in_basis enc N A' A -> in_basis enc N B' B ->
    in_basis enc N (mmul N A' B') (mmul N A B).
  Proof.
    intros HA HB r c Hr Hc. unfold mmul. rewrite sumbits_enc. apply sumbits_ext. intros b Hb.
    rewrite HA, HB by assumption. reflexivity.
  Qed.
  Lemma in_basis_one N : in_basis enc N mone (@mone K).
  Proof.
    intros r c Hr Hc. unfold mone. destruct (bits_eqb r c) eqn:E.
    - apply bits_eqb_spec in E. subst. rewrite bits_eqb_refl. reflexivity.
    - destruct (bits_eqb (enc r) (enc c)) eqn:E'; [|reflexivity]. apply bits_eqb_spec in E'.
      apply enc_i in E'; [|congruence]. subst. rewrite bits_eqb_refl in E. discriminate.
  Qed.
  Lemma in_basis_meq N (A' B' A B : mat K) : in_basis enc N A' A -> meq N B' A' -> meq N A B -> in_basis enc N B' B.
  Proof.
    intros H E1 E2 r c Hr Hc. rewrite E1 by (rewrite enc_len; assumption). rewrite H by assumption. apply E2; assumption.
  Qed.
  Lemma in_basis_scal N x (A' A : mat K) : in_basis enc N A' A -> in_basis enc N (mscal x A') (mscal x A).
  Proof. intros H r c Hr Hc. unfold mscal. rewrite H by assumption. reflexivity. Qed.
End Conj.

(** * Reversing a product of operators on distinct modes *)
Definition lcount (l : list (fop * nat)) : nat := length (filter (fun e => ladder (fst e)) l).

Lemma fock_move x i l : (forall e, In e l -> snd e <> i) ->
  fock_rel (ladder x && Nat.odd (lcount l)) (l ++ [(x, i)]) ((x, i) :: l).
Proof.
  induction l as [|[o j] l IH]; intro H.
  - cbn. rewrite andb_false_r. apply fock_rel_refl.
  - cbn [app].
    pose proof (fock_rel_cons _ (o, j) _ _ (IH (fun e He => H e (or_intror He)))) as R1.
    pose proof (fock_swap o j x i l (fun E => H (o, j) (or_introl eq_refl) E)) as R2.
    pose proof (fock_rel_trans _ _ _ _ _ R1 R2) as R.
    replace (ladder x && Nat.odd (lcount ((o, j) :: l)))
      with (xorb (ladder x && Nat.odd (lcount l)) (ladder o && ladder x)); [exact R|].
    unfold lcount. cbn [filter fst]. destruct (ladder o) eqn:Eo; cbn [length].
    + rewrite Nat.odd_succ, <- Nat.negb_odd. destruct (ladder x), (Nat.odd (length (filter (fun e => ladder (fst e)) l))); reflexivity.
    + rewrite xorb_false_r. reflexivity.
Qed.

Lemma rev_odd_S k : rev_odd (S k) = xorb (rev_odd k) (Nat.odd k).
Proof.
  unfold rev_odd. replace (S k * (S k - 1)) with (k * (k - 1) + 2 * k) by (destruct k; cbn; lia).
  assert (D : Nat.div2 (k * (k - 1) + 2 * k) = Nat.div2 (k * (k - 1)) + k).
  { rewrite !Nat.div2_div. rewrite (Nat.mul_comm 2 k), Nat.div_add by lia. reflexivity. }
  rewrite D, Nat.odd_add. reflexivity.
Qed.

Lemma fock_reverse l : NoDup (map snd l) -> fock_rel (rev_odd (lcount l)) (rev l) l.
Proof.
  induction l as [|[o i] l IH]; intro ND; [apply fock_rel_refl|]. cbn [rev]. inversion ND as [|? ? Hn ND']; subst.
  assert (R1 : fock_rel (rev_odd (lcount l)) (rev l ++ [(o, i)]) (l ++ [(o, i)])).
  { intro n. rewrite !fock_app. destruct (fock [(o, i)] n) as [[s m]|]; [|reflexivity]. cbn [bindo].
    rewrite (IH ND' m). destruct (fock l m) as [[s' m']|]; [|reflexivity]. cbn.
    destruct s, s', (rev_odd (lcount l)); reflexivity. }
  pose proof (fock_move o i l) as R2.
  assert (Hi : forall e, In e l -> snd e <> i).
  { intros e He E. apply Hn. cbn. rewrite <- E. apply in_map. exact He. }
  pose proof (fock_rel_trans _ _ _ _ _ R1 (R2 Hi)) as R.
  replace (rev_odd (lcount ((o, i) :: l))) with (xorb (rev_odd (lcount l)) (ladder o && Nat.odd (lcount l))); [exact R|].
  unfold lcount. cbn [filter fst]. destruct (ladder o); cbn [length].
  - rewrite rev_odd_S. reflexivity.
  - rewrite xorb_false_r. reflexivity.
Qed.

Lemma ssorted_NoDup l : ssorted l -> NoDup (map snd l).
Proof.
  induction l as [|[o i] l IH]; intro S; [constructor|]. cbn. constructor.
  - intro H. apply in_map_iff in H. destruct H as [e [E He]]. pose proof (ssorted_lt _ _ _ S e He). lia.
  - apply IH. eapply ssorted_tail. exact S.
Qed.

Lemma lcount_flat i s : lcount (flat i s) = n_ladder s.
Proof.
  unfold lcount, n_ladder. revert i. induction s as [|[o|] s IH]; intro i; cbn; [reflexivity| |apply IH].
  destruct (ladder o); cbn; rewrite IH; reflexivity.
Qed.

(** * The forward loop *)
Section Forward.
  Variable K : CoefRing.
  Add Ring KRing : (c_ring K).
  Local Open Scope coef_scope.
  Notation pop := (opv K (list pauli)).
  Variable N : nat.
  Variable term : nat -> fop -> pop.
  Variable enc : bits -> bits.
  Variable enc_len : forall n, length (enc n) = length n.
  Variable enc_i : forall n m, length n = length m -> enc n = enc m -> n = m.
  Variable term_ok : forall q o, q < N -> okterm N (fun j => q <= j) (fun j => S q <= j) (term q o).
  Variable term_mat : forall q o, q < N -> in_basis enc N (omat (term q o)) (@fock_mat K [(o, q)]).

  Lemma forward_loop_spec (c : K) s q k new :
    (q + length s <= N)%nat -> Inv N c k (fun j => q <= j) new ->
    small (cpow chalf (length (flat 0 s) + k) * c) = false ->
    (exists T, meq N (omat (forward_loop term q s new)) (mmul N T (omat new))
       /\ in_basis enc N T (fock_mat (rev (flat q s))))
    /\ Inv N c (length (flat 0 s) + k) (fun _ => False) (forward_loop term q s new)
    /\ length (forward_loop term q s new) = (2 ^ length (flat 0 s) * length new)%nat.
  Proof.
    revert q k new. induction s as [|[o|] s IH]; intros q k new HN HI HS.
    - cbn. split; [exists mone; split|split].
      + apply meq_sym, mmul_one_l.
      + intros r c0 Hr Hc. rewrite (in_basis_one K enc enc_i N) by assumption. symmetry. apply (fock_mat_nil K N); assumption.
      + destruct HI as [H1 [H2 [H3 H4]]]. split; [|split; [|split]]; auto. intros e e' j He He' [].
      + lia.
    - cbn [forward_loop]. cbn [length] in HN. cbn [flat length] in HS. rewrite (length_flat 1 0) in HS.
      assert (HS' : small (cpow chalf (S k) * c) = false).
      { clear - HS. revert HS. replace (S (length (flat 0 s)) + k)%nat with (length (flat 0 s) + S k)%nat by lia.
        generalize (length (flat 0 s)). intro a. induction a as [|a IH]; [auto|].
        intro H. apply IH. apply small_cpow. exact H. }
      destruct (pop_mul_step K N c k _ _ (term q o) new HI (term_ok q o ltac:(lia)) HS') as [HI' [HM HL]].
      destruct (IH (S q) (S k) (pop_mul (term q o) new) ltac:(lia) HI') as [[T [M B]] [I' L']].
      { replace (length (flat 0 s) + S k)%nat with (S (length (flat 0 s)) + k)%nat by lia. exact HS. }
      split; [exists (mmul N T (omat (term q o))); split|split].
      + intros r c0 Hr Hc. rewrite M by assumption.
        rewrite (mmul_meq K N _ _ _ _ (meq_refl K N _) HM) by assumption.
        apply mmul_assoc; assumption.
      + cbn [flat rev]. intros r c0 Hr Hc.
        rewrite (in_basis_mul K enc enc_len enc_i N _ _ _ _ B (term_mat q o ltac:(lia))) by assumption.
        symmetry. apply fock_mat_app; assumption.
      + cbn [flat length]. rewrite (length_flat 1 0).
        replace (S (length (flat 0 s)) + k)%nat with (length (flat 0 s) + S k)%nat by lia. exact I'.
      + cbn [flat length]. rewrite (length_flat 1 0). rewrite L', HL. cbn [Nat.pow]. lia.
    - cbn [forward_loop]. cbn [length] in HN. cbn [flat length] in *. rewrite (length_flat 1 0) in *.
      assert (HI' : Inv N c k (fun j => S q <= j) new).
      { destruct HI as [H1 [H2 [H3 H4]]]. split; [|split; [|split]]; auto. intros. apply H3; auto. lia. }
      destruct (IH (S q) k new ltac:(lia) HI' HS) as [M [I' L']]. split; [|split]; assumption.
  Qed.

  Lemma forward_string_spec s (c : K) : length s = N -> small (cpow chalf (length (flat 0 s)) * c) = false ->
    let R := forward_loop term 0 s (pop_add_string [] (repeat PI N, c)) in
    in_basis enc N (omat R) (mscal (sgn (rev_odd (n_ladder s)) * c) (fstr_mat s))
    /\ NoDup (map fst R) /\ wf N R /\ length R = (2 ^ length (flat 0 s))%nat.
  Proof.
    intros HL HS. cbn zeta.
    destruct (forward_loop_spec c s 0 0 (pop_add_string [] (repeat PI N, c))) as [[T [M B]] [I' L']].
    - lia.
    - apply Inv_init.
    - rewrite Nat.add_0_r. exact HS.
    - split; [|split; [|split]].
      + intros r q Hr Hq. rewrite M by (rewrite enc_len; assumption).
        cbn [pop_add_string op_add_string op_get op_set fst snd].
        rewrite (mmul_meq K _ _ _ _ (mscal c mone) (meq_refl K _ _)); [|
          intros r' q' Hr' Hq'; cbn; unfold madd, mscal, mzero; rewrite pmat_identity by assumption; ring
          |rewrite enc_len; assumption|rewrite enc_len; assumption].
        rewrite mmul_scal_r by (rewrite enc_len; assumption). unfold mscal.
        rewrite mmul_one_r by (rewrite enc_len; assumption). rewrite B by assumption.
        pose proof (fock_reverse (flat 0 s) (ssorted_NoDup _ (proj1 (ssorted_flat 0 s)))) as R.
        rewrite lcount_flat in R. rewrite (fock_mat_rel' K _ _ _ N R) by assumption. unfold mscal, fstr_mat. ring.
      + apply I'.
      + apply I'.
      + rewrite L'. cbn. lia.
  Qed.
End Forward.
