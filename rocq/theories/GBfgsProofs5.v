(** Runs of the BFGS optimizer: statements in the vocabulary of the specification. *)
From Coq Require Import Bool List Arith QArith Qabs Lia Lqa Setoid.
From Verif Require Import AcseModel AcseSpec AcseProofs2 BfgsModel BfgsSpec BfgsProofs BfgsProofs2 GBfgsModel GBfgsSpec GBfgsProofs
  GBfgsProofs2 GBfgsProofs3 GBfgsProofs4.
Import ListNotations.
Local Open Scope Q_scope.

Lemma change_dot n a b s : length a = n -> length b = n -> length s = n -> inner n (change a b) (entry s) == dot (vsub a b) s.
Proof.
  intros La Lb Ls. rewrite (dot_ip n) by (rewrite ?vsub_length; congruence). unfold ip. apply inner_congr; [|reflexivity].
  intros i Hi. rewrite entry_vsub by congruence. reflexivity.
Qed.
Lemma inner_indicator n j a : (j < n)%nat -> inner n a (fun i => if Nat.eqb i j then 1 else 0) == a j.
Proof.
  induction n as [|n IH]; intro H; [lia|]. cbn [inner]. destruct (Nat.eqb_spec n j) as [-> |N].
  - rewrite (inner_zero j a (fun i => if Nat.eqb i j then 1 else 0)); [ring|]. intros i Hi.
    destruct (Nat.eqb_spec i j); [lia|reflexivity].
  - rewrite IH by lia. ring.
Qed.
Definition unit_vec (n j : nat) : vec := map (fun i => if Nat.eqb i j then 1 else 0) (seq 0 n).
Lemma unit_length n j : length (unit_vec n j) = n.
Proof. unfold unit_vec. rewrite map_length, seq_length. reflexivity. Qed.
Lemma unit_entry n j i : (i < n)%nat -> entry (unit_vec n j) i = if Nat.eqb i j then 1 else 0.
Proof.
  intro Hi. unfold entry, unit_vec. rewrite (nth_map0 _ _ _ 0%nat) by (rewrite seq_length; exact Hi). rewrite seq_nth by exact Hi. reflexivity.
Qed.
Lemma inverse_of n A B : square n A -> square n B -> (forall v, length v = n -> veq (mv A (mv B v)) v) -> inverse n A B.
Proof.
  intros HA HB H i j Hi Hj. assert (E := veq_entry _ _ i (H (unit_vec n j) (unit_length n j))).
  rewrite (mv_entry n) in E by (try assumption; rewrite mv_length; apply HB). rewrite (unit_entry n j i Hi) in E. rewrite <- E.
  apply inner_congr; [reflexivity|]. intros k Hk. rewrite (mv_entry n) by (try assumption; apply unit_length).
  rewrite (inner_congr n (mentry B k) (entry (unit_vec n j)) (mentry B k) (fun i => if Nat.eqb i j then 1 else 0)).
  - symmetry. apply inner_indicator. exact Hj.
  - reflexivity.
  - intros m Hm. rewrite unit_entry by exact Hm. reflexivity.
Qed.

Section Runs.
  Variables (f : vec -> Q) (g : vec -> vec) (n : nat).
  Hypothesis Lg : forall v, length v = n -> length (g v) = n.
  Definition paired (a : gb) : Prop :=
    square n (gb_B a) /\ symmetric n (gb_B a) /\ forall v, length v = n -> veq (mv (gb_B a) (mv (gb_Bi a) v)) v.
  Lemma moved_paired x g0 B Bi fz b : length g0 = n -> fine f g n b -> square n Bi -> square n B -> symmetric n B ->
    (forall v, length v = n -> veq (mv B (mv Bi v)) v) -> moved n x g0 B Bi fz b ->
    tiny <= inner n (change (gb_g b) g0) (entry (gb_s b)) -> tiny <= form n B (gb_s b) (gb_s b) -> paired b.
  Proof.
    intros L0 F HBi HB HS HI M C1 C2. destruct F as (F1 & F2 & F3 & F4 & _). destruct M as (_ & _ & EB & EBi & _).
    rewrite change_dot in C1 by assumption. rewrite form_dot in C2 by assumption.
    assert (Ly : length (vsub (gb_g b) g0) = n) by (rewrite vsub_length; congruence).
    unfold paired. rewrite EB, EBi. split; [apply square_hess; assumption|]. split; [apply hess_symmetric; assumption|].
    intros v Lv. apply (veq_entries n); [|exact Lv|].
    - rewrite mv_length. apply square_hess; assumption.
    - intros i Hi. apply hess_inverse; try assumption.
  Qed.
  Lemma run_paired fuel k prior start l : length start = n -> gb_run f g fuel k prior start = Some (Some l) ->
    (forall a l', l = a :: l' -> tiny <= inner n (change (gb_g a) (g start)) (entry (gb_s a)) /\
       tiny <= form n (ident n) (gb_s a) (gb_s a)) ->
    (forall a b, follows l a b -> tiny <= inner n (change (gb_g b) (gb_g a)) (entry (gb_s b)) /\
       tiny <= form n (gb_B a) (gb_s b) (gb_s b)) ->
    forall a, In a l -> paired a.
  Proof.
    intros L H C0 C. destruct (run_ok f g n Lg _ _ _ _ _ L H) as ((a0 & l' & -> & M0) & _ & I1 & I2).
    assert (P0 : paired a0).
    { destruct (C0 a0 l' eq_refl) as [D1 D2].
      refine (moved_paired _ _ _ _ _ _ (Lg start L) (I1 a0 (or_introl eq_refl)) (square_ident n) (square_ident n)
        (ident_symmetric n) _ M0 D1 D2).
      intros v Lv. eapply veq_trans; [apply mv_veq, mv_ident; exact Lv|apply mv_ident; exact Lv]. }
    clear C0 M0 H. revert a0 I1 I2 C P0. induction l' as [|b l' IH]; intros a0 I1 I2 C P0 a I.
    - destruct I as [<- |[]]. exact P0.
    - destruct I as [<- |I]; [exact P0|].
      refine (IH b (fun c J => I1 c (or_intror J)) (fun c d J => I2 c d (follows_cons a0 _ c d J))
        (fun c d J => C c d (follows_cons a0 _ c d J)) _ a I).
      assert (FO : follows (a0 :: b :: l') a0 b) by (exists [], l'; reflexivity).
      destruct (C _ _ FO) as [D1 D2]. destruct P0 as (Q1 & Q2 & Q3).
      destruct (I1 a0 (or_introl eq_refl)) as (_ & F2 & _ & F4 & _).
      exact (moved_paired _ _ _ _ _ _ F2 (I1 b (or_intror (or_introl eq_refl))) F4 Q1 Q2 Q3 (I2 _ _ FO) D1 D2).
  Qed.
  (** with no point taken for stuck, the objective never increases *)
  Lemma run_best fuel k prior start l : length start = n -> gb_run f g fuel k prior start = Some (Some l) ->
    (forall b, In b l -> gb_nstuck b = 0%nat) -> forall l1 a l2 b l3, l = l1 ++ a :: l2 ++ b :: l3 -> gb_best b <= gb_best a.
  Proof.
    intros L H NS l1 a l2. destruct (run_ok f g n Lg _ _ _ _ _ L H) as (_ & _ & I1 & I2).
    induction l2 as [|c l2 IH] using rev_ind; intros b l3 E.
    - assert (FO : follows l a b) by (exists l1, l3; exact E).
      destruct (I2 _ _ FO) as (_ & _ & _ & _ & D & _ & _ & _ & N). lra.
    - assert (E' : l = l1 ++ a :: l2 ++ c :: b :: l3) by (rewrite E, <- app_assoc; reflexivity).
      assert (D1 := IH c (b :: l3) E').
      assert (FO : follows l c b) by (exists (l1 ++ a :: l2), l3; rewrite E', <- app_assoc; reflexivity).
      destruct (I2 _ _ FO) as (_ & _ & _ & _ & D & _ & _ & _ & N). lra.
  Qed.
End Runs.
