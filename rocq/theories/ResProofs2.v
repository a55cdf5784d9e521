(** The model of solvecACSE computes the residual. *)
From Coq Require Import Bool List Arith Lia Permutation.
From Verif Require Import Coeff MatSpec MatLemmas FockSpec OpSpec FermiModel FermiProofs AdjProofs OperatorModel
  CircuitSpec RdmSpec RdmModel RdmFock RdmProofs TaperSpec TaperProofs TaperProofs2 InvModel HamModel HamSpec HamProofs HamProofs2 HamProofs3 HamProofs4
  ResSpec ResModel ResProofs.
Import ListNotations.

Section ResProofs2.
  Variable K : CoefRing.
  Add Ring KRing : (c_ring K).
  Local Open Scope coef_scope.
  Notation tensor4 := (nat -> nat -> nat -> nat -> K).
  Notation dl := (delta K).

  Definition hit (i k j l : nat) (u : (nat * nat * nat * nat) * K) : K :=
    let '(a, b, c, d, v) := u in dl i a * (dl k b * (dl j c * (dl l d * v))).
  Lemma apply_all_at us : forall (t : tensor4) i k j l, apply_all us t i k j l = t i k j l + over us (hit i k j l).
  Proof.
    induction us as [|[[[[a b] c] d] v] us IH]; intros t i k j l; [cbn; ring|].
    change (apply_all ((a, b, c, d, v) :: us) t) with (apply_all us (upd4 (a, b, c, d, v) t)). rewrite IH.
    change (over ((a, b, c, d, v) :: us) (hit i k j l)) with (hit i k j l (a, b, c, d, v) + over us (hit i k j l)). unfold upd4, hit, delta.
    destruct (Nat.eqb i a), (Nat.eqb k b), (Nat.eqb j c), (Nat.eqb l d); cbn [andb]; ring.
  Qed.
  Lemma over_perm {A} (l l' : list A) (f : A -> K) : Permutation l l' -> over l f = over l' f.
  Proof. induction 1; cbn [over fold_right]; unfold over in *; [reflexivity|now rewrite IHPermutation|ring|congruence]. Qed.
  Lemma sum_range_upto n (f : nat -> K) : sum_range n f = upto n f.
  Proof. rewrite sum_range_lsum. reflexivity. Qed.
  Lemma tr2_S2 R (X Y : nat -> nat -> K) : tr2 R X Y = S2 K R (fun a b => X a b * Y a b).
  Proof. unfold tr2, S2. rewrite sum_range_upto. apply upto_ext. intros. apply sum_range_upto. Qed.
  Lemma S3_swap12 R (f : nat -> nat -> nat -> K) : upto R (fun r => S2 K R (fun a b => f a r b)) = S3 K R f.
  Proof. unfold S2, S3. apply (upto_swap K R R (fun r a => upto R (fun b => f a r b))). Qed.

  Section At.
    Variables (R : nat) (so : list nat).
    Hypothesis Hso : Permutation so (seq 0 R).
    Lemma over_so (f : nat -> K) : over so f = upto R f.
    Proof. now apply over_perm. Qed.
    Lemma over_so_delta a (f : nat -> K) : (a < R)%nat -> over so (fun x => dl a x * f x) = f a.
    Proof. intro H. rewrite over_so. now apply upto_delta. Qed.
    Lemma class_updates_at (D2 D3 : tensor K) (W : tensor4) i k j l : (i < R)%nat -> (k < R)%nat -> (j < R)%nat -> (l < R)%nat ->
      apply_all (class_updates R so D2 D3 W) (fun _ _ _ _ => 0) i k j l =
      - S2 K R (fun a b => D2 [a; b; j; l] * W a b i k) + S2 K R (fun a b => D2 [a; b; i; k] * W a b j l)
      + S3 K R (fun a r b => D3 [a; r; k; j; l; b] * W a r i b) - S3 K R (fun a r b => D3 [a; r; i; j; l; b] * W a r k b)
      - S3 K R (fun a r b => D3 [i; k; a; r; b; j] * W a l r b) + S3 K R (fun a r b => D3 [i; k; a; r; b; l] * W a j r b).
    Proof.
      intros Hi Hk Hj Hl. rewrite apply_all_at. unfold class_updates.
      pose (F := fun i k j l : nat =>
        - S2 K R (fun a b => D2 [a; b; j; l] * W a b i k) + S2 K R (fun a b => D2 [a; b; i; k] * W a b j l)
        + S3 K R (fun a r b => D3 [a; r; k; j; l; b] * W a r i b) - S3 K R (fun a r b => D3 [a; r; i; j; l; b] * W a r k b)
        - S3 K R (fun a r b => D3 [i; k; a; r; b; j] * W a l r b) + S3 K R (fun a r b => D3 [i; k; a; r; b; l] * W a j r b)).
      change (0 + over (flat_map (fun i => flat_map (fun j => flat_map (fun k => flat_map (fun l =>
        ((i, k, j, l), - tr2 R (fun a b => D2 [a; b; j; l]) (fun a b => W a b i k)) ::
        ((i, k, j, l), tr2 R (fun a b => D2 [a; b; i; k]) (fun a b => W a b j l)) ::
        flat_map (fun r =>
          [((i, k, j, l), tr2 R (fun a b => D3 [a; r; k; j; l; b]) (fun a b => W a r i b));
           ((i, k, j, l), - tr2 R (fun a b => D3 [a; r; i; j; l; b]) (fun a b => W a r k b));
           ((i, k, j, l), - tr2 R (fun a b => D3 [i; k; a; r; b; j]) (fun a b => W a l r b));
           ((i, k, j, l), tr2 R (fun a b => D3 [i; k; a; r; b; l]) (fun a b => W a j r b))]) so) so) so) so) so) (hit i k j l) = F i k j l).
      transitivity (over so (fun i' => dl i i' * over so (fun j' => dl j j' * over so (fun k' => dl k k' * over so (fun l' => dl l l' * F i' k' j' l'))))).
      2:{ rewrite (over_so_delta i (fun i' => over so (fun j' => dl j j' * over so (fun k' => dl k k' * over so (fun l' => dl l l' * F i' k' j' l')))) Hi).
          rewrite (over_so_delta j (fun j' => over so (fun k' => dl k k' * over so (fun l' => dl l l' * F i k' j' l'))) Hj).
          rewrite (over_so_delta k (fun k' => over so (fun l' => dl l l' * F i k' j l')) Hk). now rewrite (over_so_delta l (fun l' => F i k j l') Hl). }
      transitivity (over so (fun i' => over so (fun j' => over so (fun k' => over so (fun l' => dl i i' * (dl k k' * (dl j j' * (dl l l' * F i' k' j' l')))))))).
      2:{ apply over_ext. intros i' _. rewrite <- over_scal. apply over_ext. intros j' _. rewrite <- !over_scal. apply over_ext. intros k' _. rewrite <- !over_scal. apply over_ext. intros l' _. ring. }
      match goal with |- 0 + ?a = _ => transitivity a; [ring|] end.
      rewrite over_flat_map. apply over_ext. intros i' _. rewrite over_flat_map. apply over_ext. intros j' _. rewrite over_flat_map. apply over_ext. intros k' _.
      rewrite over_flat_map. apply over_ext. intros l' _.
      match goal with |- over (?x :: ?y :: ?z) ?h = _ => change (over (x :: y :: z) h) with (h x + (h y + over z h)) end.
      rewrite over_flat_map.
      rewrite (over_ext K so _ (fun r => (dl i i' * (dl k k' * (dl j j' * dl l l'))) *
         (S2 K R (fun a b => D3 [a; r; k'; j'; l'; b] * W a r i' b) + (- (1) * S2 K R (fun a b => D3 [a; r; i'; j'; l'; b] * W a r k' b)
          + (- (1) * S2 K R (fun a b => D3 [i'; k'; a; r; b; j'] * W a l' r b) + S2 K R (fun a b => D3 [i'; k'; a; r; b; l'] * W a j' r b)))))).
      2:{ intros r _. cbn [over fold_right hit]. rewrite !tr2_S2. ring. }
      rewrite over_scal, !over_add, !over_scal, !over_so.
      rewrite (S3_swap12 R (fun a r b => D3 [a; r; k'; j'; l'; b] * W a r i' b)), (S3_swap12 R (fun a r b => D3 [a; r; i'; j'; l'; b] * W a r k' b)).
      rewrite (S3_swap12 R (fun a r b => D3 [i'; k'; a; r; b; j'] * W a l' r b)), (S3_swap12 R (fun a r b => D3 [i'; k'; a; r; b; l'] * W a j' r b)).
      cbn [hit]. rewrite !tr2_S2. unfold F. ring.
    Qed.
  End At.

  (** Three-body terms vanish with fewer than three particles. *)
  Lemma few_particles R Ne (psi : bits -> K) c a : has_particles R Ne psi -> (Ne < length a)%nat -> rdm_of R psi c a = 0.
  Proof.
    intros H Ha. unfold rdm_of, expect, mvec. rewrite (sumbits_ext _ _ _ (fun _ => 0 * 0)); [rewrite sumbits_scal; ring|]. intros x Hx.
    rewrite (sumbits_ext _ _ _ (fun _ => 0 * 0)); [rewrite sumbits_scal; ring|]. intros y Hy.
    destruct (Nat.eq_dec (popcount y) Ne) as [E|N]; [|rewrite (H y Hy N); ring].
    unfold fock_mat, pmap_mat. rewrite letters_eq, fock_app. destruct (fock (anns (rev a)) y) as [[s m]|] eqn:F; [|cbn [bindo]; ring].
    exfalso. apply (anns_count (fun _ => true)) in F. rewrite cnt_all, rev_length, <- !(popcount_pcnt _ 0) in F. lia.
  Qed.

  Theorem class_residual_spec R Ne p (w : K) so (t : tensor K) (K2 : tensor4) (psi : bits -> K) :
    Permutation so (seq 0 R) -> real_symmetric K2 -> has_particles R Ne psi ->
    (p = 2%nat /\ (Ne < 3)%nat) \/ (p = 3%nat /\ (3 <= Ne)%nat /\ ofnat (Ne - 2) * w = 1) ->
    (forall c a, length c = p -> length a = p -> Forall (fun x => (x < R)%nat) c -> Forall (fun x => (x < R)%nat) a -> t (c ++ a) = rdm_of R psi c a) ->
    exists A, class_residual Ne p R w so t K2 = Some A /\
      forall i k j l, (i < R)%nat -> (k < R)%nat -> (j < R)%nat -> (l < R)%nat -> A i k j l = residual_of R K2 psi i k j l.
  Proof.
    intros Hso HK HN Hp Ht. unfold class_residual.
    assert (G : exists D2 D3, class_rdms Ne p R w t = Some (D2, D3)
      /\ (forall a b c d, (a < R)%nat -> (b < R)%nat -> (c < R)%nat -> (d < R)%nat -> D2 [a; b; c; d] = rdm_of R psi [a; b] [c; d])
      /\ (forall a b c d e f, (a < R)%nat -> (b < R)%nat -> (c < R)%nat -> (d < R)%nat -> (e < R)%nat -> (f < R)%nat -> D3 [a; b; c; d; e; f] = rdm_of R psi [a; b; c] [d; e; f])).
    { unfold class_rdms. destruct Hp as [[-> H3]|[-> [H3 Hw]]].
      - exists t, (fun _ => 0). rewrite (proj2 (Nat.ltb_lt _ _) H3). split; [reflexivity|]. split.
        + intros a b c d Ha Hb Hc Hd. apply (Ht [a; b] [c; d]); repeat constructor; assumption.
        + intros. symmetry. apply (few_particles R Ne); [exact HN|exact H3].
      - exists (reduce_order 3 R w t), t. replace (Ne <? 3) with false by (symmetry; apply Nat.ltb_ge; exact H3). split; [reflexivity|]. split.
        + intros a b c d Ha Hb Hc Hd. assert (E := reduce_order_contract K 3 R w t [a; b] [c; d] ltac:(auto) eq_refl eq_refl). cbn [app] in E. rewrite E.
          assert (C := rdm_contract K R Ne psi [a; b] [c; d] HN). cbn [app length] in C.
          transitivity (w * lsum (seq 0 R) (fun x => rdm_of R psi [a; b; x] [c; d; x])).
          * f_equal. clear E C. unfold lsum. assert (L : forall x, In x (seq 0 R) -> (x < R)%nat) by (intros x Hx; apply in_seq in Hx; lia).
            revert L. generalize (seq 0 R). intro s0. induction s0 as [|x s IH]; intro L; [reflexivity|]. cbn [map sumK fold_right]. rewrite <- IH by (intros y Hy; apply L; now right).
            assert (Hx := L x (or_introl eq_refl)). rewrite <- (Ht [a; b; x] [c; d; x]) by (repeat constructor; assumption). reflexivity.
          * rewrite C. transitivity ((ofnat (Ne - 2) * w) * rdm_of R psi [a; b] [c; d]); [ring|]. rewrite Hw. ring.
        + intros a b c d e f Ha Hb Hc Hd He Hf. apply (Ht [a; b; c] [d; e; f]); repeat constructor; assumption. }
    destruct G as [D2 [D3 [E [G2 G3]]]]. rewrite E. eexists. split; [reflexivity|]. intros i k j l Hi Hk Hj Hl.
    rewrite (class_updates_at R so Hso) by assumption. rewrite (residual_value K R psi K2 i k j l HK Hi Hk Hj Hl). cbn [app].
    assert (E2 : forall c d e f, (e < R)%nat -> (f < R)%nat -> S2 K R (fun a b => re (D2 [a; b; e; f]) * antisymmetrised K2 a b c d) =
      S2 K R (fun a b => rw K R psi [(Cre, a); (Cre, b); (Ann, f); (Ann, e)] * antisymmetrised K2 a b c d)).
    { intros c d e f He Hf. apply S2_ext. intros a b Ha Hb. rewrite (G2 a b e f Ha Hb He Hf). reflexivity. }
    assert (E3 : forall x y, (x < R)%nat -> S3 K R (fun a r b => re (D3 [a; r; x; j; l; b]) * antisymmetrised K2 a r y b) =
      S3 K R (fun a r b => rw K R psi [(Cre, a); (Cre, r); (Cre, x); (Ann, b); (Ann, l); (Ann, j)] * antisymmetrised K2 a r y b)).
    { intros x y Hx. apply S3_ext. intros a r b Ha Hr Hb. rewrite (G3 a r x j l b) by assumption. reflexivity. }
    assert (E4 : forall x y, (x < R)%nat -> S3 K R (fun a r b => re (D3 [i; k; a; r; b; x]) * antisymmetrised K2 a y r b) =
      S3 K R (fun a r b => rw K R psi [(Cre, i); (Cre, k); (Cre, a); (Ann, x); (Ann, b); (Ann, r)] * antisymmetrised K2 a y r b)).
    { intros x y Hx. apply S3_ext. intros a r b Ha Hr Hb. rewrite (G3 i k a r b x) by assumption. reflexivity. }
    rewrite (E2 i k j l Hj Hl), (E2 j l i k Hi Hk), (E3 k i Hk), (E3 i k Hi), (E4 j l Hj), (E4 l j Hl). reflexivity.
  Qed.
End ResProofs2.
