(** The Parity transform in the parity encoding. *)
From Coq Require Import Bool List Arith ZArith Lia Ring.
From Verif Require Import Coeff MatSpec MatLemmas PauliModel PauliProofs OperatorModel OperatorProofs
  FockSpec FermiModel FermiProofs TransformModel TwoTerm JWProofs EncSpec EncProofs.
Import ListNotations.

(** * Reading strings position by position *)
Lemma pat_repeat x k j : j < k -> pat (repeat x k) j = x.
Proof. unfold pat. revert j. induction k as [|k IH]; intros [|j] H; cbn; try lia; auto. apply IH. lia. Qed.
Lemma pat_app1 s t j : j < length s -> pat (s ++ t) j = pat s j.
Proof. intro H. unfold pat. apply app_nth1. exact H. Qed.
Lemma pat_app2 s t j : length s <= j -> pat (s ++ t) j = pat t (j - length s).
Proof. intro H. unfold pat. apply app_nth2. exact H. Qed.

Lemma pat3 a k x y b m j : j < k + S (S m) ->
  pat (repeat a k ++ x :: y :: repeat b m) j =
  if Nat.ltb j k then a else if Nat.eqb j k then x else if Nat.eqb j (S k) then y else b.
Proof.
  intro H. destruct (Nat.ltb_spec j k) as [L|L].
  - rewrite pat_app1 by (rewrite repeat_length; exact L). apply pat_repeat. exact L.
  - rewrite pat_app2 by (rewrite repeat_length; exact L). rewrite repeat_length.
    destruct (Nat.eqb_spec j k) as [->|D1]; [rewrite Nat.sub_diag; reflexivity|].
    destruct (Nat.eqb_spec j (S k)) as [->|D2]; [replace (S k - k) with 1 by lia; reflexivity|].
    replace (j - k) with (S (S (j - k - 2))) by lia. change (pat (x :: y :: ?l) (S (S ?i))) with (pat l i).
    apply pat_repeat. lia.
Qed.
Lemma pat2 x b m j : j < S m -> pat (x :: repeat b m) j = if Nat.eqb j 0 then x else b.
Proof. destruct j as [|j]; intro H; [reflexivity|]. change (pat (x :: ?l) (S j)) with (pat l j). cbn. apply pat_repeat. lia. Qed.

Lemma ycount_zero s : (forall j, j < length s -> is_y (pat s j) = false) -> ycount s = 0.
Proof.
  induction s as [|p s IH]; intro H; [reflexivity|]. cbn. pose proof (H 0 ltac:(cbn; lia)) as E. cbn in E. rewrite E.
  apply IH. intros j Hj. apply (H (S j)). cbn. lia.
Qed.
Lemma ycount_one s q : q < length s -> (forall j, j < length s -> is_y (pat s j) = Nat.eqb j q) -> ycount s = 1.
Proof.
  revert q. induction s as [|p s IH]; intros q Hq H; [cbn in Hq; lia|]. cbn. pose proof (H 0 ltac:(cbn; lia)) as E.
  change (pat (p :: s) 0) with p in E. rewrite E. destruct q as [|q]; cbn [Nat.eqb].
  - f_equal. apply ycount_zero. intros j Hj. pose proof (H (S j) ltac:(cbn; lia)) as E1. exact E1.
  - apply (IH q); [cbn in Hq; lia|]. intros j Hj. pose proof (H (S j) ltac:(cbn; lia)) as E1. exact E1.
Qed.

(** * Sums over a set of positions *)
Definition memb (j : nat) (l : list nat) : bool := existsb (Nat.eqb j) l.
Lemma memb_In j l : memb j l = true <-> In j l.
Proof.
  unfold memb. rewrite existsb_exists. split.
  - intros [x [H E]]. apply Nat.eqb_eq in E. congruence.
  - intro H. exists j. split; [exact H|apply Nat.eqb_refl].
Qed.
Definition xlist (g : nat -> bool) (l : list nat) : bool := fold_right (fun p a => xorb (g p) a) false l.

Lemma xsum_xorb f g a : xsum (fun j => xorb (f j) (g j)) a = xorb (xsum f a) (xsum g a).
Proof.
  induction a as [|a IH]; [reflexivity|]. cbn. rewrite IH.
  destruct (xsum f a), (xsum g a), (f a), (g a); reflexivity.
Qed.
Lemma xsum_one g p a : p < a -> xsum (fun j => Nat.eqb j p && g j) a = g p.
Proof.
  induction a as [|a IH]; intro H; [lia|]. cbn. destruct (Nat.eqb_spec a p) as [->|D]; cbn.
  - rewrite (xsum_ext _ (fun _ => false)).
    + assert (Z : xsum (fun _ => false) p = false) by (clear; induction p; cbn; [reflexivity|rewrite IHp; reflexivity]).
      rewrite Z. destruct (g p); reflexivity.
    + intros j Hj. destruct (Nat.eqb_spec j p); [lia|reflexivity].
  - rewrite IH by lia. apply xorb_false_r.
Qed.
Lemma xsum_zero a : xsum (fun _ => false) a = false.
Proof. induction a as [|a IH]; cbn; [reflexivity|rewrite IH; reflexivity]. Qed.
Lemma xsum_memb g l a : NoDup l -> (forall p, In p l -> p < a) ->
  xsum (fun j => memb j l && g j) a = xlist g l.
Proof.
  induction l as [|p l IH]; intros ND H.
  - cbn. apply xsum_zero.
  - inversion ND as [|? ? Hn ND']; subst. cbn [xlist fold_right].
    rewrite (xsum_ext _ (fun j => xorb (Nat.eqb j p && g j) (memb j l && g j))).
    + rewrite xsum_xorb, xsum_one by (apply H; left; reflexivity). f_equal. apply IH; [exact ND'|].
      intros x Hx. apply H. right. exact Hx.
    + intros j Hj. cbn [memb existsb]. fold (memb j l). destruct (Nat.eqb_spec j p) as [->|D]; [|cbn; destruct (memb j l), (g j); reflexivity].
      assert (M : memb p l = false).
      { destruct (memb p l) eqn:M; [|reflexivity]. apply memb_In in M. contradiction. }
      rewrite M. cbn. destruct (g p); reflexivity.
Qed.

(** * The parity encoding *)
Lemma parity_enc_at n j : j < length n -> at_ (parity_enc n) j = pre n (S j).
Proof. intro H. unfold parity_enc. rewrite enc_at by (auto; intro; lia). cbn. apply xorb_false_r. Qed.

Section Parity.
  Variable K : CoefRing.
  Add Ring KRing : (c_ring K).
  Local Open Scope coef_scope.

  Lemma two_term_mat N s1 (a1 : K) s2 a2 : s1 <> s2 ->
    meq N (omat (two_term s1 a1 s2 a2)) (madd (mscal a1 (pmat s1)) (mscal a2 (pmat s2))).
  Proof.
    intros H r c _ _. rewrite two_term_eq by exact H. rewrite !omat_cons. cbn [omat]. unfold mzero, madd, mscal. ring.
  Qed.
  Lemma pat_ne s t j : pat s j <> pat t j -> s <> t.
  Proof. intros H E. apply H. rewrite E. reflexivity. Qed.

  Ltac pats :=
    repeat match goal with
    | |- context [pat (repeat _ _ ++ _ :: _ :: repeat _ _) _] => rewrite pat3 by lia
    | |- context [pat (_ :: repeat _ _) _] => rewrite pat2 by lia
    end.
  Ltac cases_on j :=
    repeat match goal with
    | |- context [Nat.ltb ?a ?b] => destruct (Nat.ltb_spec a b)
    | |- context [Nat.eqb ?a ?b] => destruct (Nat.eqb_spec a b)
    | |- context [Nat.leb ?a ?b] => destruct (Nat.leb_spec a b)
    end; try lia; try reflexivity.

  Lemma parity_term_mat N q o : q < N -> in_basis parity_enc N (omat (@parity_term K N q o)) (fock_mat [(o, q)]).
  Proof.
    intro Hq. assert (FL : forall j, (fun _ : nat => 0%nat) j <= j) by (intro; lia).
    assert (EL : forall n, length (parity_enc n) = length n) by (intro; apply enc_length).
    unfold parity_term. destruct q as [|q].
    - destruct (ladder o) eqn:Ho.
      + eapply (in_basis_meq K parity_enc EL); [|apply two_term_mat|apply meq_refl].
        2:{ apply (pat_ne _ _ 0%nat). discriminate. }
        apply (ladder_enc K (fun _ => 0%nat) FL); auto.
        * cbn. rewrite repeat_length. lia.
        * cbn. rewrite repeat_length. lia.
        * apply ycount_zero. cbn [length]. rewrite repeat_length. intros j Hj. pats. cases_on j.
        * apply (ycount_one _ 0%nat); cbn [length]; [lia|]. rewrite repeat_length. intros j Hj. pats. cases_on j.
        * intros j Hj. pats. cases_on j.
        * intros j Hj. pats. cases_on j.
        * intros n Hn. unfold zdot. cbn [length]. rewrite repeat_length.
          rewrite (xsum_ext _ (fun _ => false)); [apply xsum_zero|]. intros j Hj. pats. cases_on j.
        * intros n Hn. unfold zdot. cbn [length]. rewrite repeat_length.
          rewrite (xsum_ext _ (fun j => Nat.eqb j 0 && at_ (parity_enc n) j)).
          -- rewrite xsum_one by lia. apply parity_enc_at. lia.
          -- intros j Hj. pats. cases_on j.
      + eapply (in_basis_meq K parity_enc EL); [|apply two_term_mat|apply meq_refl].
        2:{ apply (pat_ne _ _ 0%nat). discriminate. }
        replace (PI :: repeat PI (N - 0 - 1)) with (repeat PI N) by (destruct N; [lia|]; cbn; rewrite Nat.sub_0_r; reflexivity).
        apply (number_enc K (fun _ => 0%nat) FL); auto.
        * cbn. rewrite repeat_length. lia.
        * apply ycount_zero. cbn [length]. rewrite repeat_length. intros j Hj. pats. cases_on j.
        * intros j Hj. pats. cases_on j.
        * intros n Hn. unfold zdot. cbn [length]. rewrite repeat_length.
          rewrite (xsum_ext _ (fun j => Nat.eqb j 0 && at_ (parity_enc n) j)).
          -- rewrite xsum_one by lia. rewrite parity_enc_at by lia. rewrite pre_S. cbn. destruct (at_ n 0); reflexivity.
          -- intros j Hj. pats. cases_on j.
    - destruct (ladder o) eqn:Ho.
      + eapply (in_basis_meq K parity_enc EL); [|apply two_term_mat|apply meq_refl].
        2:{ apply (pat_ne _ _ q). pats. rewrite Nat.ltb_irrefl, Nat.eqb_refl. discriminate. }
        apply (ladder_enc K (fun _ => 0%nat) FL); auto.
        * rewrite app_length. cbn [length]. rewrite !repeat_length. lia.
        * rewrite app_length. cbn [length]. rewrite !repeat_length. lia.
        * apply ycount_zero. rewrite app_length. cbn [length]. rewrite !repeat_length. intros j Hj. pats. cases_on j.
        * apply (ycount_one _ (S q)); rewrite app_length; cbn [length]; rewrite !repeat_length; [lia|]. intros j Hj. pats. cases_on j.
        * intros j Hj. pats. cases_on j.
        * intros j Hj. pats. cases_on j.
        * intros n Hn. unfold zdot. rewrite app_length. cbn [length]. rewrite !repeat_length.
          rewrite (xsum_ext _ (fun j => Nat.eqb j q && at_ (parity_enc n) j)).
          -- rewrite xsum_one by lia. apply parity_enc_at. lia.
          -- intros j Hj. pats. cases_on j.
        * intros n Hn. unfold zdot. rewrite app_length. cbn [length]. rewrite !repeat_length.
          rewrite (xsum_ext _ (fun j => Nat.eqb j (S q) && at_ (parity_enc n) j)).
          -- rewrite xsum_one by lia. apply parity_enc_at. lia.
          -- intros j Hj. pats. cases_on j.
      + eapply (in_basis_meq K parity_enc EL); [|apply two_term_mat|apply meq_refl].
        2:{ apply (pat_ne _ _ q). pats. rewrite Nat.ltb_irrefl, Nat.eqb_refl. discriminate. }
        replace (repeat PI q ++ PI :: PI :: repeat PI (N - S q - 1)) with (repeat PI N).
        2:{ change (PI :: PI :: repeat PI (N - S q - 1)) with (repeat PI (S (S (N - S q - 1)))).
            rewrite <- repeat_app. f_equal. lia. }
        apply (number_enc K (fun _ => 0%nat) FL); auto.
        * rewrite app_length. cbn [length]. rewrite !repeat_length. lia.
        * apply ycount_zero. rewrite app_length. cbn [length]. rewrite !repeat_length. intros j Hj. pats. cases_on j.
        * intros j Hj. pats. cases_on j.
        * intros n Hn. unfold zdot. rewrite app_length. cbn [length]. rewrite !repeat_length.
          rewrite (xsum_ext _ (fun j => xorb (Nat.eqb j q && at_ (parity_enc n) j) (Nat.eqb j (S q) && at_ (parity_enc n) j))).
          -- rewrite xsum_xorb, !xsum_one by lia. rewrite !parity_enc_at by lia. rewrite !pre_S.
             destruct (pre n q), (at_ n q), (at_ n (S q)); reflexivity.
          -- intros j Hj. pats. unfold parity_enc; cases_on j; destruct (at_ (range_enc (fun _ : nat => 0%nat) n) j); reflexivity.
  Qed.

  Lemma parity_term_ok N q o : q < N -> okterm N (fun j => q <= j) (fun j => S q <= j) (@parity_term K N q o).
  Proof.
    intro Hq. unfold parity_term.
    destruct (ladder_c2_eq K o) as [z Ez]. destruct (number_c2_eq K o) as [z' Ez'].
    assert (G : forall s1 s2 (a1 a2 : K), (exists z1, a1 = ipow z1 * chalf) -> (exists z2, a2 = ipow z2 * chalf) ->
              length s1 = N -> length s2 = N -> pat s1 q <> pat s2 q -> (forall j, S q <= j -> j < N -> pat s1 j = pat s2 j) ->
              okterm N (fun j => q <= j) (fun j => S q <= j) (two_term s1 a1 s2 a2)).
    { intros s1 s2 a1 a2 [z1 ->] [z2 ->] L1 L2 D E. exists s1, s2, z1, z2, q.
      rewrite two_term_eq by (eapply pat_ne; exact D). do 5 (split; [first [reflexivity|assumption|lia]|]).
      intros j Hj. split; [lia|]. destruct (le_lt_dec N j) as [G|G].
      - rewrite !nth_overflow by lia. reflexivity.
      - apply E; assumption. }
    destruct q as [|q]; destruct (ladder o); apply G; try (exists 0%Z; apply half_ipow); try (eexists; eassumption);
      try (rewrite ?app_length; cbn [length]; rewrite ?repeat_length; lia).
    - discriminate.
    - intros j H1 H2. pats. cases_on j.
    - discriminate.
    - intros j H1 H2. pats. cases_on j.
    - pats. destruct (Nat.ltb_spec (S q) q); [lia|]. destruct (Nat.eqb_spec (S q) q); [lia|]. rewrite Nat.eqb_refl. discriminate.
    - intros j H1 H2. pats. cases_on j.
    - pats. destruct (Nat.ltb_spec (S q) q); [lia|]. destruct (Nat.eqb_spec (S q) q); [lia|]. rewrite Nat.eqb_refl. discriminate.
    - intros j H1 H2. pats. cases_on j.
  Qed.

  Lemma parity_string_spec s (c : K) : small (cpow chalf (length (flat 0 s)) * c) = false ->
    in_basis parity_enc (length s) (omat (parity_string (s, c)))
      (mscal (sgn (rev_odd (n_ladder s)) * c) (fstr_mat s))
    /\ NoDup (map fst (parity_string (s, c))) /\ wf (length s) (parity_string (s, c))
    /\ length (parity_string (s, c)) = (2 ^ length (flat 0 s))%nat.
  Proof.
    intro HS. unfold parity_string. cbn [fst snd].
    apply (forward_string_spec K (length s) (parity_term (length s)) parity_enc); auto.
    - intro n. apply enc_length.
    - intros n m. apply enc_inj. intro. lia.
    - intros q o Hq. apply parity_term_ok. exact Hq.
    - intros q o Hq. apply parity_term_mat. exact Hq.
  Qed.
End Parity.

Section ParityQP.
  Variable K : CoefRing.
  Add Ring KRing2 : (c_ring K).
  Local Open Scope coef_scope.

  Lemma qp_cre N q : @parity_qp_term K N q Cre = parity_term N q Ann.
  Proof.
    unfold parity_qp_term, parity_term. cbn [ladder].
    replace (@ladder_c2_qp K Cre) with (@ladder_c2 K Ann); [reflexivity|].
    unfold ladder_c2, ladder_c2_qp. rewrite <- (chalf_dbl K). ring.
  Qed.
  Lemma qp_number N q o : ladder o = false -> @parity_qp_term K N q o = parity_term N q o.
  Proof. intro H. unfold parity_qp_term, parity_term. rewrite H. reflexivity. Qed.
  Lemma qp_matrix N q : q < N ->
    in_basis parity_enc N (omat (@parity_qp_term K N q Cre)) (fock_mat [(Ann, q)])
    /\ in_basis parity_enc N (omat (@parity_qp_term K N q Par)) (fock_mat [(Par, q)])
    /\ in_basis parity_enc N (omat (@parity_qp_term K N q Hol)) (fock_mat [(Hol, q)]).
  Proof.
    intro H. rewrite qp_cre, !qp_number by reflexivity. repeat split; apply parity_term_mat; exact H.
  Qed.
  Definition qp_letter (o : fop) : fop := match o with Cre => Ann | x => x end.
  Lemma qp_loop s : forall q new, (forall x, In x s -> x <> Some Ann) -> forall N,
    forward_loop (@parity_qp_term K N) q s new = forward_loop (parity_term N) q (map (option_map qp_letter) s) new.
  Proof.
    induction s as [|[o|] s IH]; intros q new H N; [reflexivity| |]; cbn [forward_loop map option_map].
    - rewrite IH by (intros x Hx; apply H; right; exact Hx). f_equal. f_equal.
      destruct o; cbn [qp_letter]; [apply qp_cre|exfalso; apply (H (Some Ann)); [left|]; reflexivity| |]; apply qp_number; reflexivity.
    - apply IH. intros x Hx. apply H. right. exact Hx.
  Qed.
  Lemma qp_string s (c : K) : (forall x, In x s -> x <> Some Ann) ->
    parity_qp_string (s, c) = parity_string (map (option_map qp_letter) s, c).
  Proof. intro H. unfold parity_qp_string, parity_string. cbn [fst snd]. rewrite map_length. apply qp_loop. exact H. Qed.
End ParityQP.
