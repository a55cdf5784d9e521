(** Facts about the matrix specification. *)
From Coq Require Import Bool List Lia Ring.
From Verif Require Import Coeff MatSpec.
Import ListNotations.
Local Open Scope coef_scope.

Lemma bits_eqb_spec a b : bits_eqb a b = true <-> a = b.
Proof.
  revert b. induction a as [|x a IH]; intros [|y b]; cbn; try (split; [discriminate|discriminate]).
  - split; reflexivity.
  - rewrite andb_true_iff, eqb_true_iff, IH. split; [intros [-> ->]; reflexivity|].
    intro H; inversion H; split; reflexivity.
Qed.

Lemma bits_eqb_refl a : bits_eqb a a = true.
Proof. apply bits_eqb_spec. reflexivity. Qed.

Lemma bits_eqb_sym a b : bits_eqb a b = bits_eqb b a.
Proof.
  destruct (bits_eqb b a) eqn:E.
  - apply bits_eqb_spec in E. subst. apply bits_eqb_refl.
  - destruct (bits_eqb a b) eqn:F; [|reflexivity]. apply bits_eqb_spec in F. subst.
    rewrite bits_eqb_refl in E. discriminate.
Qed.

Lemma pauli_eqb_spec a b : pauli_eqb a b = true <-> a = b.
Proof. destruct a, b; cbn; split; congruence. Qed.

Section MatLemmas.
  Variable K : CoefRing.
  Add Ring KRing : (c_ring K).

  Lemma sumbits_ext n (f g : bits -> K) :
    (forall b, length b = n -> f b = g b) -> sumbits n f = sumbits n g.
  Proof.
    revert f g. induction n as [|n IH]; intros f g H; cbn.
    - apply H. reflexivity.
    - f_equal; apply IH; intros b Hb; apply H; cbn; lia.
  Qed.

  Lemma sumbits_add n (f g : bits -> K) :
    sumbits n (fun b => f b + g b) = sumbits n f + sumbits n g.
  Proof.
    revert f g. induction n as [|n IH]; intros f g; cbn; [reflexivity|].
    rewrite (IH (fun b => f (false :: b)) (fun b => g (false :: b))).
    rewrite (IH (fun b => f (true :: b)) (fun b => g (true :: b))). ring.
  Qed.

  Lemma sumbits_scal n x (f : bits -> K) :
    sumbits n (fun b => x * f b) = x * sumbits n f.
  Proof.
    revert f. induction n as [|n IH]; intros f; cbn; [reflexivity|].
    rewrite (IH (fun b => f (false :: b))), (IH (fun b => f (true :: b))). ring.
  Qed.

  Lemma sumbits_scal_r n x (f : bits -> K) :
    sumbits n (fun b => f b * x) = sumbits n f * x.
  Proof.
    rewrite (sumbits_ext n (fun b => f b * x) (fun b => x * f b)) by (intros; ring).
    rewrite sumbits_scal. ring.
  Qed.

  Lemma sumbits_scal2 n x y (f g : bits -> K) :
    sumbits n (fun b => (x * f b) * (y * g b)) = x * y * sumbits n (fun b => f b * g b).
  Proof. rewrite <- sumbits_scal. apply sumbits_ext. intros; ring. Qed.

  Lemma sumbits_0 n : sumbits n (fun _ => (0:K)) = 0.
  Proof. induction n as [|n IH]; cbn; [reflexivity|]. rewrite IH. ring. Qed.

  Lemma sumbits_swap n m (f : bits -> bits -> K) :
    sumbits n (fun a => sumbits m (fun b => f a b)) = sumbits m (fun b => sumbits n (fun a => f a b)).
  Proof.
    revert f. induction n as [|n IH]; intro f; cbn; [reflexivity|].
    rewrite (IH (fun a b => f (false :: a) b)), (IH (fun a b => f (true :: a) b)).
    rewrite <- sumbits_add. reflexivity.
  Qed.

  (** Picking one term out of a sum. *)
  Lemma sumbits_pick n m (f : bits -> K) :
    length m = n -> sumbits n (fun b => if bits_eqb b m then f b else 0) = f m.
  Proof.
    revert m f. induction n as [|n IH]; intros m f Hm.
    - destruct m; [reflexivity|discriminate].
    - destruct m as [|x m]; [discriminate|]. injection Hm as Hm. cbn.
      destruct x; cbn.
      + rewrite sumbits_0. rewrite (IH m (fun b => f (true :: b)) Hm). ring.
      + rewrite sumbits_0. rewrite (IH m (fun b => f (false :: b)) Hm). ring.
  Qed.

  Lemma sumbits_conj n (f : bits -> K) : cconj (sumbits n f) = sumbits n (fun b => cconj (f b)).
  Proof.
    revert f. induction n as [|n IH]; intro f; cbn; [reflexivity|].
    rewrite cconj_add, !IH. reflexivity.
  Qed.

  Lemma meq_refl n (A : mat K) : meq n A A.
  Proof. intros r c _ _. reflexivity. Qed.
  Lemma meq_sym n (A B : mat K) : meq n A B -> meq n B A.
  Proof. intros H r c Hr Hc. symmetry. apply H; assumption. Qed.
  Lemma meq_trans n (A B D : mat K) : meq n A B -> meq n B D -> meq n A D.
  Proof. intros H G r c Hr Hc. rewrite H, G; auto. Qed.

  Lemma mmul_meq n (A A' B B' : mat K) :
    meq n A A' -> meq n B B' -> meq n (mmul n A B) (mmul n A' B').
  Proof.
    intros HA HB r c Hr Hc. unfold mmul. apply sumbits_ext. intros b Hb.
    rewrite HA, HB; auto.
  Qed.

  Lemma mmul_assoc n (A B D : mat K) :
    meq n (mmul n A (mmul n B D)) (mmul n (mmul n A B) D).
  Proof.
    intros r c Hr Hc. unfold mmul.
    rewrite (sumbits_ext n _ (fun k => sumbits n (fun j => A r k * B k j * D j c))).
    2:{ intros b Hb. rewrite <- sumbits_scal. apply sumbits_ext. intros; ring. }
    rewrite sumbits_swap. apply sumbits_ext. intros b Hb. rewrite sumbits_scal_r. reflexivity.
  Qed.

  Lemma mmul_one_l n (A : mat K) : meq n (mmul n mone A) A.
  Proof.
    intros r c Hr Hc. unfold mmul, mone.
    rewrite (sumbits_ext n _ (fun k => if bits_eqb k r then A k c else 0)).
    - apply (sumbits_pick n r (fun k => A k c)). exact Hr.
    - intros b Hb. rewrite (bits_eqb_sym r b). destruct (bits_eqb b r); ring.
  Qed.

  Lemma mmul_one_r n (A : mat K) : meq n (mmul n A mone) A.
  Proof.
    intros r c Hr Hc. unfold mmul, mone.
    rewrite (sumbits_ext n _ (fun k => if bits_eqb k c then A r k else 0)).
    - apply (sumbits_pick n c (fun k => A r k)). exact Hc.
    - intros b Hb. destruct (bits_eqb b c); ring.
  Qed.

  Lemma mmul_add_l n (A B D : mat K) :
    meq n (mmul n (madd A B) D) (madd (mmul n A D) (mmul n B D)).
  Proof.
    intros r c Hr Hc. unfold mmul, madd. rewrite <- sumbits_add. apply sumbits_ext. intros; ring.
  Qed.
  Lemma mmul_add_r n (A B D : mat K) :
    meq n (mmul n D (madd A B)) (madd (mmul n D A) (mmul n D B)).
  Proof.
    intros r c Hr Hc. unfold mmul, madd. rewrite <- sumbits_add. apply sumbits_ext. intros; ring.
  Qed.
  Lemma mmul_scal_l n x (A B : mat K) : meq n (mmul n (mscal x A) B) (mscal x (mmul n A B)).
  Proof.
    intros r c Hr Hc. unfold mmul, mscal. rewrite <- sumbits_scal. apply sumbits_ext. intros; ring.
  Qed.
  Lemma mmul_scal_r n x (A B : mat K) : meq n (mmul n A (mscal x B)) (mscal x (mmul n A B)).
  Proof.
    intros r c Hr Hc. unfold mmul, mscal. rewrite <- sumbits_scal. apply sumbits_ext. intros; ring.
  Qed.
  Lemma mmul_zero_l n (A : mat K) : meq n (mmul n mzero A) mzero.
  Proof.
    intros r c Hr Hc. unfold mmul, mzero. rewrite (sumbits_ext n _ (fun _ => 0)).
    - apply sumbits_0.
    - intros; ring.
  Qed.
  Lemma mmul_zero_r n (A : mat K) : meq n (mmul n A mzero) mzero.
  Proof.
    intros r c Hr Hc. unfold mmul, mzero. rewrite (sumbits_ext n _ (fun _ => 0)).
    - apply sumbits_0.
    - intros; ring.
  Qed.

  Lemma omat_app (l m : list (list pauli * K)) r c : omat (l ++ m) r c = omat l r c + omat m r c.
  Proof.
    induction l as [|[s x] l IH]; cbn.
    - unfold mzero. ring.
    - unfold madd at 1. rewrite IH. unfold madd. ring.
  Qed.

  Lemma omat_cons s x (l : list (list pauli * K)) r c :
    omat ((s, x) :: l) r c = x * pmat s r c + omat l r c.
  Proof. reflexivity. Qed.

  Lemma pmat_identity n : meq n (@pmat K (repeat PI n)) mone.
  Proof.
    intros r. revert n. induction r as [|a r IH]; intros [|n] [|b c] Hr Hc; try discriminate.
    - reflexivity.
    - cbn. cbn in Hr, Hc. rewrite (IH n c) by lia. unfold mone. cbn.
      destruct a, b; cbn; try ring; destruct (bits_eqb r c); ring.
  Qed.

  Lemma pmat_adj s n : length s = n -> meq n (madj (@pmat K s)) (pmat s).
  Proof.
    intros Hs r c Hr Hc. unfold madj. revert n r c Hs Hr Hc.
    induction s as [|p s IH]; intros n [|a r] [|b c] Hs Hr Hc; cbn in *; subst; try discriminate.
    - apply cconj_1.
    - rewrite cconj_mul, (IH (length s)) by lia. f_equal.
      destruct p, a, b; cbn; rewrite ?cconj_0, ?cconj_opp, ?cconj_1, ?cconj_i; try reflexivity; ring.
  Qed.
End MatLemmas.
