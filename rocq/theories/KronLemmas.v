(** Facts about Kronecker products. *)
From Coq Require Import Bool List Arith Lia Ring.
From Verif Require Import Coeff MatSpec MatLemmas.
Import ListNotations.

Section Kron.
  Variable K : CoefRing.
  Add Ring KRing : (c_ring K).
  Local Open Scope coef_scope.

  Lemma pmat_kron s r c : @pmat K s r c = kron (map pauli1 s) r c.
  Proof.
    revert r c. induction s as [|p s IH]; intros [|a r] [|b c]; cbn; try reflexivity.
    rewrite IH. reflexivity.
  Qed.

  Inductive eqk : list (mat2 K) -> list (mat2 K) -> Prop :=
  | eqk_nil : eqk [] []
  | eqk_cons A B l m : eq2 A B -> eqk l m -> eqk (A :: l) (B :: m).

  Lemma eqk_refl l : eqk l l.
  Proof. induction l; [constructor|constructor; [intros a' b; reflexivity|assumption]]. Qed.

  Lemma eqk_app l l' m m' : eqk l l' -> eqk m m' -> eqk (l ++ m) (l' ++ m').
  Proof. intros H G. induction H; cbn; [exact G|constructor; assumption]. Qed.

  Lemma kron_eqk l m r c : eqk l m -> kron l r c = kron m r c.
  Proof.
    intro H. revert r c. induction H as [|A B l m HA HE IH]; intros [|a r] [|b c]; cbn; try reflexivity.
    rewrite HA, IH. reflexivity.
  Qed.

  Fixpoint zip2 (l m : list (mat2 K)) : list (mat2 K) :=
    match l, m with A :: l', B :: m' => mul2 A B :: zip2 l' m' | _, _ => [] end.

  Lemma kron_mul n l m : length l = n -> length m = n ->
    meq n (mmul n (kron l) (kron m)) (kron (zip2 l m)).
  Proof.
    revert l m. induction n as [|n IH]; intros [|A l] [|B m] Hl Hm [|a r] [|b c] Hr Hc; try discriminate.
    - cbn. ring.
    - cbn in Hl, Hm, Hr, Hc. unfold mmul in *. cbn [sumbits kron zip2].
      rewrite !sumbits_scal2. rewrite (IH l m) by lia. unfold mul2. ring.
  Qed.

  Lemma zip2_app l l' m m' : length l = length m -> zip2 (l ++ l') (m ++ m') = zip2 l m ++ zip2 l' m'.
  Proof.
    revert m. induction l as [|A l IH]; intros [|B m] H; try discriminate; cbn; [reflexivity|].
    rewrite IH by (cbn in H; lia). reflexivity.
  Qed.

  Lemma mul2_I_r (A : mat2 K) : eq2 (mul2 A (pauli1 PI)) A.
  Proof. intros a b. unfold mul2. destruct b; cbn; ring. Qed.
  Lemma mul2_I_l (A : mat2 K) : eq2 (mul2 (pauli1 PI) A) A.
  Proof. intros a b. unfold mul2. destruct a; cbn; ring. Qed.

  Lemma zip2_I_r l n : length l = n -> eqk (zip2 l (repeat (pauli1 PI) n)) l.
  Proof.
    revert n. induction l as [|A l IH]; intros [|n] H; try discriminate; cbn; constructor.
    - apply mul2_I_r.
    - apply IH. cbn in H. lia.
  Qed.
  Lemma zip2_I_l l n : length l = n -> eqk (zip2 (repeat (pauli1 PI) n) l) l.
  Proof.
    revert n. induction l as [|A l IH]; intros [|n] H; try discriminate; cbn; constructor.
    - apply mul2_I_l.
    - apply IH. cbn in H. lia.
  Qed.

  Lemma kron_one n : meq n (kron (repeat (pauli1 PI) n)) (@mone K).
  Proof.
    intros r c Hr Hc. rewrite <- (pmat_identity K n r c Hr Hc), pmat_kron. f_equal.
    clear. induction n; cbn; [reflexivity|]. rewrite IHn. reflexivity.
  Qed.
End Kron.
