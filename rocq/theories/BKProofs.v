(** The Bravyi-Kitaev transform in the Fenwick-tree encoding. *)
From Coq Require Import Bool List Arith ZArith Lia Ring.
From Verif Require Import Coeff MatSpec MatLemmas PauliModel PauliProofs OperatorModel OperatorProofs
  FockSpec FermiModel FermiProofs TransformModel TwoTerm JWProofs EncSpec EncProofs ParityProofs.
Import ListNotations.

(** * First mode stored at j *)
Notation first_bk := (fun j => Nat.land j (S j)).
Definition start (j : nat) : nat := Nat.land j (S j).

Lemma bit_small k m i : m < 2 ^ k -> k <= i -> Nat.testbit m i = false.
Proof.
  intros H L. rewrite <- (Nat.mod_small m (2 ^ k)) by exact H. apply Nat.mod_pow2_bits_high. exact L.
Qed.
Lemma pow_add_bits k m i : m < 2 ^ k -> Nat.testbit (2 ^ k + m) i = Nat.eqb k i || Nat.testbit m i.
Proof.
  intro H. rewrite Nat.add_nocarry_lxor.
  - rewrite Nat.lxor_spec, Nat.pow2_bits_eqb. destruct (Nat.eqb_spec k i) as [<-|D].
    + rewrite (bit_small k) by auto. reflexivity.
    + destruct (Nat.testbit m i); reflexivity.
  - apply Nat.bits_inj_0. intro j. rewrite Nat.land_spec, Nat.pow2_bits_eqb.
    destruct (Nat.eqb_spec k j) as [<-|D]; [|reflexivity]. rewrite (bit_small k) by auto. reflexivity.
Qed.
Lemma start_le j : start j <= j.
Proof.
  unfold start. apply Nat.ldiff_le. apply Nat.bits_inj_0. intro i. rewrite Nat.ldiff_spec, Nat.land_spec.
  destruct (Nat.testbit j i), (Nat.testbit (S j) i); reflexivity.
Qed.
Lemma start_shift k m : S m < 2 ^ k -> start (2 ^ k + m) = 2 ^ k + start m.
Proof.
  intro H. unfold start. replace (S (2 ^ k + m)) with (2 ^ k + S m) by lia. apply Nat.bits_inj. intro i.
  assert (L : Nat.land m (S m) < 2 ^ k) by (pose proof (start_le m); unfold start in *; lia).
  rewrite Nat.land_spec, !pow_add_bits, Nat.land_spec by lia.
  destruct (Nat.eqb k i); reflexivity.
Qed.
Lemma start_top k : start (2 ^ k - 1) = 0.
Proof.
  unfold start. assert (2 ^ k <> 0) by (apply Nat.pow_nonzero; lia). replace (S (2 ^ k - 1)) with (2 ^ k) by lia.
  rewrite Nat.land_comm. replace (2 ^ k - 1) with (Nat.ones k) by (rewrite Nat.ones_equiv; lia).
  rewrite Nat.land_ones. apply Nat.mod_same. assumption.
Qed.

(** * The three sets *)
Section Sets.
  Implicit Types p : nat -> bool.
  Definition ev p (j : nat) : bool := xorb (p (S j)) (p (start j)).

  Lemma pow2_pos k : 0 < 2 ^ k.
  Proof. assert (2 ^ k <> 0) by (apply Nat.pow_nonzero; lia). lia. Qed.
  Lemma pow2_S k : 2 ^ S k = 2 * 2 ^ k.
  Proof. reflexivity. Qed.

  Lemma ev_shift p k i : S i < 2 ^ k -> ev p (i + 2 ^ k) = ev (fun a => p (2 ^ k + a)) i.
  Proof.
    intro H. unfold ev. rewrite (Nat.add_comm i), start_shift by exact H. replace (2 ^ k + S i) with (S (2 ^ k + i)) by lia. reflexivity.
  Qed.

  Lemma xlist_app g l m : xlist g (l ++ m) = xorb (xlist g l) (xlist g m).
  Proof. induction l as [|x l IH]; unfold xlist in *; cbn [fold_right app] in *; [destruct (fold_right (fun x a => xorb (g x) a) false m); reflexivity|].
    rewrite IH, xorb_assoc. reflexivity. Qed.
  Lemma xlist_map g f l : xlist g (map f l) = xlist (fun i => g (f i)) l.
  Proof. induction l as [|x l IH]; unfold xlist in *; cbn in *; [reflexivity|]. rewrite IH. reflexivity. Qed.
  Lemma xlist_ext g g' l : (forall i, In i l -> g i = g' i) -> xlist g l = xlist g' l.
  Proof. induction l as [|x l IH]; intro H; unfold xlist in *; cbn in *; [reflexivity|]. rewrite IH by auto. rewrite (H x) by auto. reflexivity. Qed.

  Ltac lvl k' := pose proof (pow2_pos k'); rewrite ?pow2_S in *.

  Lemma bk_parity_lt k : forall j i, In i (bk_parity k j) -> i < j.
  Proof.
    induction k as [|k IH]; intros j i H; cbn [bk_parity] in H; [destruct H|].
    destruct (Nat.ltb_spec j (2 ^ k)); [apply IH; exact H|]. apply in_app_or in H. destruct H as [H|[<-|[]]].
    - apply in_map_iff in H. destruct H as [x [<- Hx]]. apply IH in Hx. lia.
    - lvl k. lia.
  Qed.
  Lemma bk_flip_lt k : forall j i, In i (bk_flip k j) -> i < j.
  Proof.
    induction k as [|k IH]; intros j i H; cbn [bk_flip] in H; [destruct H|].
    destruct (Nat.ltb_spec j (2 ^ k)); [apply IH; exact H|].
    destruct (Nat.ltb_spec j (2 * 2 ^ k - 1)).
    - apply in_map_iff in H. destruct H as [x [<- Hx]]. apply IH in Hx. lia.
    - apply in_app_or in H. destruct H as [H|[<-|[]]].
      + apply in_map_iff in H. destruct H as [x [<- Hx]]. apply IH in Hx. lia.
      + lvl k. lia.
  Qed.
  Lemma bk_update_bounds k : forall j i, j < 2 ^ k -> In i (bk_update k j) -> j < i /\ i < 2 ^ k.
  Proof.
    induction k as [|k IH]; intros j i Hj H; cbn [bk_update] in H; [destruct H|]. lvl k.
    destruct (Nat.ltb_spec j (2 ^ k)).
    - apply in_app_or in H. destruct H as [H|[<-|[]]]; [apply IH in H; lia|lia].
    - apply in_map_iff in H. destruct H as [x [<- Hx]]. apply IH in Hx; lia.
  Qed.
  Lemma bk_flip_parity k : forall j i, j < 2 ^ k -> In i (bk_flip k j) -> In i (bk_parity k j).
  Proof.
    induction k as [|k IH]; intros j i Hj H; cbn [bk_flip bk_parity] in *; [destruct H|]. lvl k.
    destruct (Nat.ltb_spec j (2 ^ k)); [apply IH; auto|].
    apply in_or_app. destruct (Nat.ltb_spec j (2 * 2 ^ k - 1)).
    - left. apply in_map_iff in H. destruct H as [x [<- Hx]]. apply (in_map (fun i => i + 2 ^ k)). apply IH; [lia|exact Hx].
    - apply in_app_or in H. destruct H as [H|H]; [|right; exact H].
      left. apply in_map_iff in H. destruct H as [x [<- Hx]]. apply (in_map (fun i => i + 2 ^ k)). apply IH; [lia|exact Hx].
  Qed.
  Lemma NoDup_snoc {A} (l : list A) x : NoDup l -> ~ In x l -> NoDup (l ++ [x]).
  Proof.
    intros H Hx. apply NoDup_app_disj; [exact H|constructor; [auto|constructor]|].
    intros y Hy [<-|[]]. exact (Hx Hy).
  Qed.
  Lemma NoDup_shift h l : NoDup l -> NoDup (map (fun i => i + h) l).
  Proof. intro H. apply FinFun.Injective_map_NoDup; [|exact H]. intros x y E. lia. Qed.
  Lemma bk_parity_NoDup k : forall j, NoDup (bk_parity k j).
  Proof.
    induction k as [|k IH]; intro j; cbn [bk_parity]; [constructor|]. lvl k.
    destruct (Nat.ltb_spec j (2 ^ k)); [apply IH|]. apply NoDup_snoc; [apply NoDup_shift, IH|].
    intro C. apply in_map_iff in C. destruct C as [x [E _]]. lia.
  Qed.
  Lemma bk_flip_NoDup k : forall j, NoDup (bk_flip k j).
  Proof.
    induction k as [|k IH]; intro j; cbn [bk_flip]; [constructor|]. lvl k.
    destruct (Nat.ltb_spec j (2 ^ k)); [apply IH|]. destruct (Nat.ltb_spec j (2 * 2 ^ k - 1)); [apply NoDup_shift, IH|].
    apply NoDup_snoc; [apply NoDup_shift, IH|].
    intro C. apply in_map_iff in C. destruct C as [x [E _]]. lia.
  Qed.
  Lemma bk_update_NoDup k : forall j, j < 2 ^ k -> NoDup (bk_update k j).
  Proof.
    induction k as [|k IH]; intros j Hj; cbn [bk_update]; [constructor|]. lvl k.
    destruct (Nat.ltb_spec j (2 ^ k)); [|apply NoDup_shift, IH; lia]. apply NoDup_snoc; [apply IH; assumption|].
    intro C. apply bk_update_bounds in C; lia.
  Qed.
  Lemma bk_flip_even k : forall j, j < 2 ^ k -> Nat.even j = true -> bk_flip k j = [].
  Proof.
    induction k as [|k IH]; intros j Hj E; cbn [bk_flip]; [reflexivity|]. lvl k.
    destruct (Nat.ltb_spec j (2 ^ k)); [apply IH; assumption|].
    destruct (Nat.ltb_spec j (2 * 2 ^ k - 1)).
    - rewrite IH; [reflexivity|lia|]. rewrite Nat.even_sub by lia. rewrite E. destruct k; [cbn in *; lia|].
      rewrite pow2_S, Nat.even_mul. reflexivity.
    - assert (j = 2 * 2 ^ k - 1) by lia. subst j. rewrite Nat.even_sub, Nat.even_mul in E by lia. discriminate.
  Qed.

  Lemma parity_set p k : forall j, j < 2 ^ k -> xlist (ev p) (bk_parity k j) = xorb (p j) (p 0).
  Proof.
    revert p. induction k as [|k IH]; intros p j Hj; cbn [bk_parity].
    - assert (j = 0) by (cbn in Hj; lia). subst. destruct (p 0); reflexivity.
    - lvl k. destruct (Nat.ltb_spec j (2 ^ k)) as [L|L]; [apply IH; exact L|].
      rewrite xlist_app, xlist_map. rewrite (xlist_ext _ (ev (fun a => p (2 ^ k + a)))).
      + rewrite IH by lia. cbn [xlist fold_right]. unfold ev. rewrite start_top.
        replace (2 ^ k + (j - 2 ^ k)) with j by lia. replace (S (2 ^ k - 1)) with (2 ^ k) by lia. rewrite Nat.add_0_r.
        destruct (p j), (p (2 ^ k)), (p 0); reflexivity.
      + intros i Hi. apply bk_parity_lt in Hi. apply ev_shift. lia.
  Qed.
  Lemma flip_set p k : forall j, j < 2 ^ k -> xorb (ev p j) (xlist (ev p) (bk_flip k j)) = xorb (p (S j)) (p j).
  Proof.
    revert p. induction k as [|k IH]; intros p j Hj; cbn [bk_flip].
    - assert (j = 0) by (cbn in Hj; lia). subst. unfold ev, start. cbn. destruct (p 1), (p 0); reflexivity.
    - lvl k. destruct (Nat.ltb_spec j (2 ^ k)) as [L|L]; [apply IH; exact L|].
      assert (EX : xlist (ev p) (map (fun i => i + 2 ^ k) (bk_flip k (j - 2 ^ k)))
                 = xlist (ev (fun a => p (2 ^ k + a))) (bk_flip k (j - 2 ^ k))).
      { rewrite xlist_map. apply xlist_ext. intros i Hi. apply bk_flip_lt in Hi. apply ev_shift. lia. }
      pose proof (IH (fun a => p (2 ^ k + a)) (j - 2 ^ k) ltac:(lia)) as I. cbn beta in I.
      replace (2 ^ k + S (j - 2 ^ k)) with (S j) in I by lia. replace (2 ^ k + (j - 2 ^ k)) with j in I by lia.
      destruct (Nat.ltb_spec j (2 * 2 ^ k - 1)) as [L'|L'].
      + rewrite EX. replace (ev p j) with (ev (fun a => p (2 ^ k + a)) (j - 2 ^ k)); [exact I|].
        rewrite <- ev_shift by lia. f_equal. lia.
      + assert (EJ : j = 2 * 2 ^ k - 1) by lia. rewrite xlist_app, EX. cbn [xlist fold_right].
        unfold ev at 1 3. replace (start j) with 0 by (rewrite EJ, <- pow2_S, start_top; reflexivity).
        unfold ev at 1 in I. replace (start (j - 2 ^ k)) with 0 in I
          by (replace (j - 2 ^ k) with (2 ^ k - 1) by lia; rewrite start_top; reflexivity).
        replace (2 ^ k + S (j - 2 ^ k)) with (S j) in I by lia. rewrite Nat.add_0_r in I. rewrite start_top.
        replace (S (2 ^ k - 1)) with (2 ^ k) by lia. fold (xlist (ev p) []).
        set (X := xlist (ev (fun a => p (2 ^ k + a))) (bk_flip k (j - 2 ^ k))) in *.
        destruct (p (S j)), (p 0), (p (2 ^ k)), (p j), X; cbn in *; congruence.
  Qed.

  Lemma memb_shift h l j : memb j (map (fun i => i + h) l) = Nat.leb h j && memb (j - h) l.
  Proof.
    destruct (memb j (map (fun i => i + h) l)) eqn:E.
    - apply memb_In, in_map_iff in E. destruct E as [x [<- Hx]]. replace (x + h - h) with x by lia.
      apply memb_In in Hx. rewrite Hx. destruct (Nat.leb_spec h (x + h)); [reflexivity|lia].
    - destruct (Nat.leb_spec h j); [|reflexivity]. cbn. symmetry. destruct (memb (j - h) l) eqn:E'; [|reflexivity].
      apply memb_In in E'. rewrite <- E. symmetry. apply memb_In, in_map_iff. exists (j - h). split; [lia|exact E'].
  Qed.
  Lemma memb_app l m j : memb j (l ++ m) = memb j l || memb j m.
  Proof. apply existsb_app. Qed.
  Lemma memb_false j l : ~ In j l -> memb j l = false.
  Proof. intro H. destruct (memb j l) eqn:E; [|reflexivity]. apply memb_In in E. contradiction. Qed.

  Lemma update_set k : forall q j, q < 2 ^ k -> j < 2 ^ k ->
    Nat.leb (start j) q && Nat.leb q j = Nat.eqb j q || memb j (bk_update k q).
  Proof.
    induction k as [|k IH]; intros q j Hq Hj; cbn [bk_update].
    - assert (j = 0) by (cbn in Hj; lia). assert (q = 0) by (cbn in Hq; lia). subst. reflexivity.
    - lvl k. destruct (Nat.ltb_spec q (2 ^ k)) as [Lq|Lq].
      + rewrite memb_app. cbn [memb existsb]. rewrite orb_false_r. destruct (le_lt_dec (2 ^ k) j) as [Lj|Lj].
        * rewrite (memb_false j (bk_update k q)) by (intro C; apply bk_update_bounds in C; lia).
          destruct (Nat.eqb_spec j q); [lia|]. destruct (Nat.leb_spec q j); [|lia]. rewrite andb_true_r. cbn [orb].
          destruct (Nat.eqb_spec j (2 * 2 ^ k - 1)) as [->|D].
          -- rewrite <- pow2_S, start_top. reflexivity.
          -- replace j with (2 ^ k + (j - 2 ^ k)) by lia. rewrite start_shift by lia.
             destruct (Nat.leb_spec (2 ^ k + start (j - 2 ^ k)) q); [lia|reflexivity].
        * rewrite IH by assumption. destruct (Nat.eqb_spec j (2 * 2 ^ k - 1)); [lia|]. rewrite orb_false_r. reflexivity.
      + rewrite memb_shift. destruct (Nat.leb_spec (2 ^ k) j) as [Lj|Lj].
        * cbn [andb]. pose proof (IH (q - 2 ^ k) (j - 2 ^ k) ltac:(lia) ltac:(lia)) as I.
          replace (Nat.eqb j q) with (Nat.eqb (j - 2 ^ k) (q - 2 ^ k))
            by (destruct (Nat.eqb_spec (j - 2 ^ k) (q - 2 ^ k)), (Nat.eqb_spec j q); try reflexivity; lia).
          rewrite <- I. replace (Nat.leb (q - 2 ^ k) (j - 2 ^ k)) with (Nat.leb q j)
            by (destruct (Nat.leb_spec (q - 2 ^ k) (j - 2 ^ k)), (Nat.leb_spec q j); try reflexivity; lia).
          f_equal. destruct (Nat.eq_dec j (2 * 2 ^ k - 1)) as [->|D].
          -- rewrite <- pow2_S, start_top. rewrite pow2_S. replace (2 * 2 ^ k - 1 - 2 ^ k) with (2 ^ k - 1) by lia.
             rewrite start_top. reflexivity.
          -- replace (start j) with (2 ^ k + start (j - 2 ^ k)) by (rewrite <- start_shift by lia; f_equal; lia).
             destruct (Nat.leb_spec (2 ^ k + start (j - 2 ^ k)) q), (Nat.leb_spec (start (j - 2 ^ k)) (q - 2 ^ k)); try reflexivity; lia.
        * destruct (Nat.leb_spec q j); [lia|]. destruct (Nat.eqb_spec j q); [lia|]. rewrite andb_false_r. reflexivity.
  Qed.
End Sets.

(** * The truncated sets *)
Lemma levels_ge N : 0 < N -> N <= 2 ^ bk_levels N.
Proof.
  intro H. unfold bk_levels. destruct (Nat.eq_dec N 1) as [->|D]; [cbn; lia|]. apply Nat.log2_up_spec. lia.
Qed.
Lemma trunc_id N l : (forall i, In i l -> i < N) -> bk_trunc N l = l.
Proof.
  intro H. unfold bk_trunc. induction l as [|x l IH]; [reflexivity|]. cbn [filter].
  destruct (Nat.ltb_spec x N) as [L|L]; [f_equal; apply IH; intros i Hi; apply H; right; exact Hi|].
  specialize (H x (or_introl eq_refl)). lia.
Qed.
Lemma memb_trunc N l j : memb j (bk_trunc N l) = memb j l && Nat.ltb j N.
Proof.
  destruct (memb j l && Nat.ltb j N) eqn:E.
  - apply andb_prop in E. destruct E as [E1 E2]. apply memb_In, filter_In. split; [apply memb_In; exact E1|exact E2].
  - apply memb_false. intro C. apply filter_In in C. destruct C as [C1 C2]. apply memb_In in C1. rewrite C1, C2 in E. discriminate.
Qed.
Lemma pat_upd i x s j : i < length s -> pat (upd i x s) j = if Nat.eqb j i then x else pat s j.
Proof.
  unfold pat. revert s j. induction i as [|i IH]; intros [|y s] j H; cbn in H; try lia.
  - destruct j; reflexivity.
  - destruct j as [|j]; [reflexivity|]. cbn. apply IH. lia.
Qed.
Lemma put_length x l s : length (put x l s) = length s.
Proof. unfold put. revert s. induction l as [|i l IH]; intro s; [reflexivity|]. cbn. rewrite IH, upd_length. reflexivity. Qed.
Lemma pat_put x l s j : (forall i, In i l -> i < length s) -> pat (put x l s) j = if memb j l then x else pat s j.
Proof.
  unfold put. revert s. induction l as [|i l IH]; intros s H; [reflexivity|]. cbn [fold_left memb existsb]. fold (memb j l).
  rewrite IH by (intros k Hk; rewrite upd_length; apply H; right; exact Hk).
  rewrite pat_upd by (apply H; left; reflexivity).
  destruct (memb j l), (Nat.eqb j i); reflexivity.
Qed.

Section BK.
  Variable K : CoefRing.
  Add Ring KRing : (c_ring K).
  Local Open Scope coef_scope.

  Variables (N q : nat).
  Hypothesis Hq : q < N.
  Let U := bk_updates N q. Let P := bk_parities N q. Let F := bk_flips N q. Let R := bk_rho N q.
  Let k := bk_levels N.

  Lemma Nk : N <= 2 ^ k. Proof. apply levels_ge. lia. Qed.
  Lemma P_eq : P = bk_parity k q.
  Proof. unfold P, bk_parities. apply trunc_id. intros i Hi. apply bk_parity_lt in Hi. lia. Qed.
  Lemma F_eq : F = bk_flip k q.
  Proof. unfold F, bk_flips. apply trunc_id. intros i Hi. apply bk_flip_lt in Hi. lia. Qed.
  Lemma P_lt i : In i P -> i < q. Proof. rewrite P_eq. apply bk_parity_lt. Qed.
  Lemma F_lt i : In i F -> i < q. Proof. rewrite F_eq. apply bk_flip_lt. Qed.
  Lemma R_P i : In i R -> In i P.
  Proof. unfold R, bk_rho. destruct (Nat.even q); [auto|]. intro H. apply filter_In in H. apply H. Qed.
  Lemma U_gt i : In i U -> q < i < N.
  Proof.
    unfold U, bk_updates. intro H. apply filter_In in H. destruct H as [H1 H2]. apply Nat.ltb_lt in H2.
    apply bk_update_bounds in H1; [lia|pose proof Nk; unfold k in *; lia].
  Qed.
  Lemma P_ND : NoDup P. Proof. rewrite P_eq. apply bk_parity_NoDup. Qed.
  Lemma F_ND : NoDup F. Proof. rewrite F_eq. apply bk_flip_NoDup. Qed.
  Lemma R_ND : NoDup R.
  Proof. unfold R, bk_rho. destruct (Nat.even q); [apply P_ND|apply NoDup_filter, P_ND]. Qed.

  Lemma enc_ev n j : length n = N -> j < N -> at_ (bk_enc n) j = ev (pre n) j.
  Proof. intros Hn Hj. unfold bk_enc. rewrite enc_at; [reflexivity|apply start_le|lia]. Qed.
  Lemma xl_ev n l : length n = N -> (forall i, In i l -> i < N) -> xlist (at_ (bk_enc n)) l = xlist (ev (pre n)) l.
  Proof. intros Hn H. apply xlist_ext. intros i Hi. apply enc_ev; auto. Qed.

  Lemma val_P n : length n = N -> xlist (at_ (bk_enc n)) P = pre n q.
  Proof.
    intro Hn. rewrite xl_ev by (auto; intros i Hi; apply P_lt in Hi; lia). rewrite P_eq, parity_set by (pose proof Nk; lia).
    cbn. apply xorb_false_r.
  Qed.
  Lemma val_F n : length n = N -> xorb (at_ (bk_enc n) q) (xlist (at_ (bk_enc n)) F) = at_ n q.
  Proof.
    intro Hn. rewrite enc_ev by auto. rewrite xl_ev by (auto; intros i Hi; apply F_lt in Hi; lia).
    rewrite F_eq, flip_set by (pose proof Nk; lia). rewrite pre_S. destruct (pre n q), (at_ n q); reflexivity.
  Qed.
  Lemma xlist_diff g l m : NoDup l -> NoDup m -> (forall i, In i m -> In i l) ->
    xlist g (filter (fun i => negb (memb i m)) l) = xorb (xlist g l) (xlist g m).
  Proof.
    intros NL NM HS. set (a := S (list_max l)).
    assert (B : forall p, In p l -> p < a).
    { intros p Hp. unfold a. pose proof (list_max_le l (list_max l)) as [X _]. specialize (X (le_n _)).
      rewrite Forall_forall in X. specialize (X p Hp). lia. }
    rewrite <- (xsum_memb g _ a), <- (xsum_memb g l a), <- (xsum_memb g m a); auto.
    - rewrite <- xsum_xorb. apply xsum_ext. intros j Hj.
      destruct (memb j (filter (fun i => negb (memb i m)) l)) eqn:E.
      + apply memb_In, filter_In in E. destruct E as [E1 E2]. apply memb_In in E1. rewrite E1.
        destruct (memb j m); [discriminate|]. destruct (g j); reflexivity.
      + destruct (memb j m) eqn:Em.
        * apply memb_In in Em. apply HS, memb_In in Em. rewrite Em. destruct (g j); reflexivity.
        * destruct (memb j l) eqn:El; [|reflexivity]. exfalso.
          assert (X : memb j (filter (fun i => negb (memb i m)) l) = true).
          { apply memb_In, filter_In. apply memb_In in El. rewrite Em. auto. }
          congruence.
    - apply NoDup_filter. exact NL.
    - intros p Hp. apply filter_In in Hp. apply B, Hp.
  Qed.
  Lemma val_R n : length n = N -> xorb (at_ (bk_enc n) q) (xlist (at_ (bk_enc n)) R) = pre n (S q).
  Proof.
    intro Hn. pose proof (val_P n Hn) as VP. pose proof (val_F n Hn) as VF. rewrite pre_S.
    unfold R, bk_rho. destruct (Nat.even q) eqn:E.
    - rewrite F_eq, bk_flip_even in VF by (auto; pose proof Nk; lia). cbn in VF. rewrite xorb_false_r in VF.
      fold P. rewrite VP, VF. apply xorb_comm.
    - fold P. fold F. fold (memb). change (fun i => negb (existsb (Nat.eqb i) F)) with (fun i => negb (memb i F)).
      rewrite xlist_diff; [|apply P_ND|apply F_ND|].
      + rewrite VP. rewrite <- VF. destruct (at_ (bk_enc n) q), (pre n q), (xlist (at_ (bk_enc n)) F); reflexivity.
      + intros i Hi. rewrite P_eq. rewrite F_eq in Hi. apply bk_flip_parity; [pose proof Nk; lia|exact Hi].
  Qed.

  Definition s1 := upd q PX (put PZ P (put PX U (repeat PI N))).
  Definition s2 := upd q PY (put PZ R (put PX U (repeat PI N))).
  Definition fz := upd q PZ (put PZ F (repeat PI N)).
  Lemma s1_len : length s1 = N. Proof. unfold s1. rewrite upd_length, !put_length, repeat_length. reflexivity. Qed.
  Lemma s2_len : length s2 = N. Proof. unfold s2. rewrite upd_length, !put_length, repeat_length. reflexivity. Qed.
  Lemma fz_len : length fz = N. Proof. unfold fz. rewrite upd_length, !put_length, repeat_length. reflexivity. Qed.

  Ltac bounds := rewrite ?put_length, ?repeat_length; auto;
    try (intros ? Hi; first [apply U_gt in Hi|apply R_P, P_lt in Hi|apply P_lt in Hi|apply F_lt in Hi]; lia).
  Lemma pat_s1 j : j < N -> pat s1 j = if Nat.eqb j q then PX else if memb j P then PZ else if memb j U then PX else PI.
  Proof. intro Hj. unfold s1. rewrite pat_upd, !pat_put by bounds. rewrite pat_repeat by exact Hj. reflexivity. Qed.
  Lemma pat_s2 j : j < N -> pat s2 j = if Nat.eqb j q then PY else if memb j R then PZ else if memb j U then PX else PI.
  Proof. intro Hj. unfold s2. rewrite pat_upd, !pat_put by bounds. rewrite pat_repeat by exact Hj. reflexivity. Qed.
  Lemma pat_fz j : j < N -> pat fz j = if Nat.eqb j q then PZ else if memb j F then PZ else PI.
  Proof. intro Hj. unfold fz. rewrite pat_upd, !pat_put by bounds. rewrite pat_repeat by exact Hj. reflexivity. Qed.

  Lemma update_N j : j < N -> Nat.leb (start j) q && Nat.leb q j = Nat.eqb j q || memb j U.
  Proof.
    intro Hj. rewrite (update_set k) by (pose proof Nk; lia). unfold U, bk_updates. rewrite memb_trunc.
    destruct (Nat.ltb_spec j N); [|lia]. rewrite andb_true_r. reflexivity.
  Qed.
  Lemma PU j : memb j P = true -> memb j U = false.
  Proof. intro H. apply memb_false. intro C. apply memb_In, P_lt in H. apply U_gt in C. lia. Qed.
  Lemma RU j : memb j R = true -> memb j U = false.
  Proof. intro H. apply memb_false. intro C. apply memb_In, R_P, P_lt in H. apply U_gt in C. lia. Qed.
  Lemma qP : memb q P = false. Proof. apply memb_false. intro C. apply P_lt in C. lia. Qed.
  Lemma qR : memb q R = false. Proof. apply memb_false. intro C. apply R_P, P_lt in C. lia. Qed.
  Lemma qF : memb q F = false. Proof. apply memb_false. intro C. apply F_lt in C. lia. Qed.

  Lemma add_two t1 (a1 : K) t2 a2 : t1 <> t2 -> small a1 = false -> small a2 = false ->
    pop_add (pop_add [] (pop_add_string [] (t1, a1))) (pop_add_string [] (t2, a2)) = [(t1, a1); (t2, a2)].
  Proof.
    intros H S1 S2. unfold pop_add, pop_add_string, op_add, op_clean, op_add_string. cbn [op_get op_set fold_left fst snd filter].
    rewrite S1. cbn [negb]. cbn [op_get op_set].
    assert (E : pauli_list_eqb t2 t1 = false).
    { destruct (pauli_list_eqb t2 t1) eqn:E; [|reflexivity]. apply pauli_list_eqb_spec in E. congruence. }
    rewrite E. cbn [op_get op_set filter snd]. rewrite ?E. cbn [filter snd]. rewrite S1, S2. reflexivity.
  Qed.
  Lemma small_c (x : K) : (exists z, x = ipow z * chalf) -> small x = false.
  Proof. intros [z ->]. rewrite small_ipow. apply small_half. Qed.

  Lemma bk_term_eq o : @bk_term K N q o = if ladder o then [(s1, chalf); (s2, ladder_c2 o)]
    else [(repeat PI N, chalf); (fz, number_c2 o)].
  Proof.
    unfold bk_term. fold U P R F. fold s1 s2 fz. destruct (ladder o).
    - apply add_two.
      + apply (pat_ne _ _ q). rewrite pat_s1, pat_s2, Nat.eqb_refl by exact Hq. discriminate.
      + apply small_half.
      + apply small_c, ladder_c2_eq.
    - apply add_two.
      + apply (pat_ne _ _ q). rewrite pat_fz, Nat.eqb_refl, pat_repeat by exact Hq. discriminate.
      + apply small_half.
      + apply small_c, number_c2_eq.
  Qed.

  Lemma bk_term_mat o : in_basis bk_enc N (omat (@bk_term K N q o)) (fock_mat [(o, q)]).
  Proof.
    assert (FL : forall j, first_bk j <= j) by (intro; apply start_le).
    assert (EL : forall n, length (bk_enc n) = length n) by (intro; apply enc_length).
    assert (TM : forall t1 (a1 : K) t2 a2, meq N (omat [(t1, a1); (t2, a2)]) (madd (mscal a1 (pmat t1)) (mscal a2 (pmat t2)))).
    { intros t1 a1 t2 a2 r c _ _. rewrite !omat_cons. cbn [omat]. unfold mzero, madd, mscal. ring. }
    rewrite bk_term_eq. destruct (ladder o) eqn:Ho; (eapply (in_basis_meq K bk_enc EL); [|apply TM|apply meq_refl]).
    - apply (ladder_enc K first_bk FL); auto using s1_len, s2_len.
      + apply ycount_zero. rewrite s1_len. intros j Hj. rewrite pat_s1 by exact Hj.
        destruct (Nat.eqb j q), (memb j P), (memb j U); reflexivity.
      + apply (ycount_one _ q); rewrite s2_len; auto. intros j Hj. rewrite pat_s2 by exact Hj.
        destruct (Nat.eqb j q), (memb j R), (memb j U); reflexivity.
      + intros j Hj. fold (start j). rewrite update_N, pat_s1 by exact Hj.
        destruct (Nat.eqb j q); [reflexivity|]. destruct (memb j P) eqn:E; [rewrite PU by exact E; reflexivity|].
        destruct (memb j U); reflexivity.
      + intros j Hj. rewrite pat_s1, pat_s2 by exact Hj.
        destruct (Nat.eqb j q); [reflexivity|].
        destruct (memb j P) eqn:E; destruct (memb j R) eqn:E'; rewrite ?(PU j) by exact E; rewrite ?(RU j) by exact E'; reflexivity.
      + intros n Hn. unfold zdot. rewrite s1_len. rewrite (xsum_ext _ (fun j => memb j P && at_ (bk_enc n) j)).
        * rewrite xsum_memb; [apply val_P; exact Hn|apply P_ND|]. intros i Hi. apply P_lt in Hi. lia.
        * intros j Hj. rewrite pat_s1 by exact Hj. fold bk_enc. destruct (Nat.eqb_spec j q) as [->|D]; [rewrite qP; reflexivity|].
          destruct (memb j P), (memb j U); reflexivity.
      + intros n Hn. unfold zdot. rewrite s2_len.
        rewrite (xsum_ext _ (fun j => xorb (Nat.eqb j q && at_ (bk_enc n) j) (memb j R && at_ (bk_enc n) j))).
        * rewrite xsum_xorb, xsum_one by exact Hq.
          rewrite xsum_memb; [apply val_R; exact Hn|apply R_ND|]. intros i Hi. apply R_P, P_lt in Hi. lia.
        * intros j Hj. rewrite pat_s2 by exact Hj. fold bk_enc. destruct (Nat.eqb_spec j q) as [->|D].
          -- rewrite qR. cbn. unfold bk_enc. symmetry. apply xorb_false_r.
          -- unfold bk_enc. destruct (memb j R), (memb j U), (at_ (range_enc first_bk n) j); reflexivity.
    - apply (number_enc K first_bk FL); auto using fz_len.
      + apply ycount_zero. rewrite fz_len. intros j Hj. rewrite pat_fz by exact Hj.
        destruct (Nat.eqb j q), (memb j F); reflexivity.
      + intros j Hj. rewrite pat_fz by exact Hj. destruct (Nat.eqb j q), (memb j F); reflexivity.
      + intros n Hn. unfold zdot. rewrite fz_len.
        rewrite (xsum_ext _ (fun j => xorb (Nat.eqb j q && at_ (bk_enc n) j) (memb j F && at_ (bk_enc n) j))).
        * rewrite xsum_xorb, xsum_one by exact Hq.
          rewrite xsum_memb; [apply val_F; exact Hn|apply F_ND|]. intros i Hi. apply F_lt in Hi. lia.
        * intros j Hj. rewrite pat_fz by exact Hj. destruct (Nat.eqb_spec j q) as [->|D].
          -- rewrite qF. cbn. unfold bk_enc. symmetry. apply xorb_false_r.
          -- unfold bk_enc. destruct (memb j F), (at_ (range_enc first_bk n) j); reflexivity.
  Qed.

  Lemma bk_term_ok o : okterm N (fun j => q <= j) (fun j => S q <= j) (@bk_term K N q o).
  Proof.
    destruct (ladder_c2_eq K o) as [z Ez]. destruct (number_c2_eq K o) as [z' Ez'].
    rewrite bk_term_eq. destruct (ladder o).
    - exists s1, s2, 0%Z, z, q. rewrite <- half_ipow, <- Ez. do 3 (split; [first [reflexivity|apply s1_len|apply s2_len]|]).
      split; [lia|]. split.
      + change (pat s1 q <> pat s2 q). rewrite pat_s1, pat_s2, Nat.eqb_refl by exact Hq. discriminate.
      + intros j Hj. split; [lia|]. destruct (le_lt_dec N j) as [G|G].
        * rewrite !nth_overflow by (rewrite ?s1_len, ?s2_len; lia). reflexivity.
        * change (pat s1 j = pat s2 j). rewrite pat_s1, pat_s2 by exact G. destruct (Nat.eqb_spec j q); [lia|].
          rewrite (memb_false j P), (memb_false j R); [reflexivity| |]; intro C; [apply R_P in C|]; apply P_lt in C; lia.
    - exists (repeat PI N), fz, 0%Z, z', q. rewrite <- half_ipow, <- Ez'. do 3 (split; [first [reflexivity|apply repeat_length|apply fz_len]|]).
      split; [lia|]. split.
      + change (pat (repeat PI N) q <> pat fz q). rewrite pat_repeat, pat_fz, Nat.eqb_refl by exact Hq. discriminate.
      + intros j Hj. split; [lia|]. destruct (le_lt_dec N j) as [G|G].
        * rewrite !nth_overflow by (rewrite ?repeat_length, ?fz_len; lia). reflexivity.
        * change (pat (repeat PI N) j = pat fz j). rewrite pat_repeat, pat_fz by exact G. destruct (Nat.eqb_spec j q); [lia|].
          rewrite (memb_false j F); [reflexivity|]. intro C. apply F_lt in C. lia.
  Qed.
End BK.

Lemma bk_string_spec (K : CoefRing) s (c : K) : s <> [] -> small (cpow chalf (length (flat 0 s)) * c)%K = false ->
  exists R, bk_string (s, c) = Some R
    /\ in_basis bk_enc (length s) (omat R) (mscal (sgn (rev_odd (n_ladder s)) * c)%K (fstr_mat s))
    /\ NoDup (map fst R) /\ wf (length s) R
    /\ length R = 2 ^ length (flat 0 s).
Proof.
  intros Hs HS. eexists. split.
  - unfold bk_string. cbn [fst snd]. destruct s as [|x s]; [contradiction|]. reflexivity.
  - apply (forward_string_spec K (length s) (bk_term (length s)) bk_enc); auto.
    + intro n. apply enc_length.
    + intros n m. apply enc_inj. apply start_le.
    + intros q o Hq. apply bk_term_ok. exact Hq.
    + intros q o Hq. apply bk_term_mat. exact Hq.
Qed.
