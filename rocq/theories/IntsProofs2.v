(** Entries of the transformed integrals. *)
From Coq Require Import Bool List Arith Lia Ring.
From Verif Require Import Coeff MatSpec FockSpec InvModel HamModel HamSpec HamProofs HamProofs3 HamProofs4 IntsModel IntsSpec IntsProofs1.
Import ListNotations.
Section Ints2.
  Variable K : CoefRing.
  Add Ring KRing : (c_ring K).
  Local Open Scope coef_scope.
  Notation array2 := (nat -> nat -> K).
  Notation array4 := (nat -> nat -> nat -> nat -> K).
  Variable N : nat.

  Lemma over_pick (L : list (nat * nat)) x (g : nat -> K) : NoDup (map fst L) ->
    over L (fun e => if Nat.eqb (fst e) x then g (snd e) else 0) = match look L x with Some P => g P | None => 0 end.
  Proof.
    unfold look. induction L as [|[i P] L IH]; intros Nd; [reflexivity|]. cbn [map fst] in Nd. inversion Nd; subst.
    change (over ((i, P) :: L) ?f) with (f (i, P) + over L f). cbv beta. cbn [fst snd find]. destruct (Nat.eqb_spec i x) as [->|E].
    - cbn [option_map snd]. rewrite (over_zero K L); [ring|]. intros [j Q] HI. cbn [fst snd]. destruct (Nat.eqb_spec j x) as [->|_]; [|reflexivity].
      exfalso. apply H1. apply in_map_iff. now exists (x, Q).
    - rewrite IH by assumption. ring.
  Qed.
  Section Entry.
    Variables (U1 U2 : array2) (skip : bool) (place : nat -> nat -> nat -> nat -> q4) (ei : array4) (L1 L2 : list (nat * nat)).
    Variables (w : q4) (x z y u : nat).
    Hypothesis Hw : forall i k j l, q4_eqb (place i k j l) w = Nat.eqb i x && Nat.eqb k z && Nat.eqb j y && Nat.eqb l u.
    Hypotheses (N1 : NoDup (map fst L1)) (N2 : NoDup (map fst L2)) (M1 : NoDup (map snd L1)) (M2 : NoDup (map snd L2)).
    Lemma block_entry new : get K (ei2_block N U1 U2 skip place ei L1 L2 new) w = get K new w +
      match look L1 x, look L1 y, look L2 z, look L2 u with
      | Some P, Some Q, Some R, Some S' => if skip && (Nat.eqb x z || Nat.eqb y u) then 0 else T4 K N U1 U2 ei P Q R S'
      | _, _, _, _ => 0
      end.
    Proof.
      rewrite ei2_block_spec by assumption. f_equal.
      assert (El : forall i P j Q k R, over L2 (c_l K N U1 U2 skip place ei w i P j Q k R) =
        if Nat.eqb i x && Nat.eqb k z && Nat.eqb j y then match look L2 u with Some S' => if skip && Nat.eqb y u then 0 else T4 K N U1 U2 ei P Q R S' | None => 0 end else 0).
      { intros i P j Q k R. destruct (Nat.eqb i x && Nat.eqb k z && Nat.eqb j y) eqn:E.
        - rewrite <- (over_pick L2 u (fun S' => if skip && Nat.eqb y u then 0 else T4 K N U1 U2 ei P Q R S')) by assumption. apply over_ext. intros [l S'] _. unfold c_l, hit. cbn [fst snd]. rewrite Hw, E. cbn [andb].
          apply andb_prop in E. destruct E as [_ E]. apply Nat.eqb_eq in E. subst j. destruct (Nat.eqb_spec l u) as [->|_]; [reflexivity|now destruct (skip && Nat.eqb y l)].
        - apply over_zero. intros [l S'] _. unfold c_l, hit. cbn [fst snd]. rewrite Hw, E. cbn [andb]. now destruct (skip && Nat.eqb j l). }
      assert (Ek : forall i P j Q, over L2 (c_k K N U1 U2 skip place ei L2 w i P j Q) =
        if Nat.eqb i x && Nat.eqb j y then match look L2 z, look L2 u with Some R, Some S' => if skip && (Nat.eqb x z || Nat.eqb y u) then 0 else T4 K N U1 U2 ei P Q R S' | _, _ => 0 end else 0).
      { intros i P j Q. destruct (Nat.eqb i x && Nat.eqb j y) eqn:E.
        - transitivity (over L2 (fun e => if Nat.eqb (fst e) z then (fun R => match look L2 u with Some S' => if skip && (Nat.eqb x z || Nat.eqb y u) then 0 else T4 K N U1 U2 ei P Q R S' | _ => 0 end) (snd e) else 0)).
          + apply over_ext. intros [k R] _. unfold c_k. cbn [fst snd]. rewrite El. apply andb_prop in E. destruct E as [E1 E2]. rewrite E1, E2. cbn [andb]. rewrite andb_true_r.
            apply Nat.eqb_eq in E1. subst i. destruct (Nat.eqb_spec k z) as [->|_]; [|now destruct (skip && Nat.eqb x k)].
            destruct skip; cbn [andb]; [|reflexivity]. destruct (Nat.eqb x z); cbn [orb]; [now destruct (look L2 u)|reflexivity].
          + exact (over_pick L2 z (fun R => match look L2 u with Some S' => if skip && (Nat.eqb x z || Nat.eqb y u) then 0 else T4 K N U1 U2 ei P Q R S' | _ => 0 end) N2).
        - apply over_zero. intros [k R] _. unfold c_k. cbn [fst snd]. rewrite El. replace (Nat.eqb i x && Nat.eqb k z && Nat.eqb j y) with false; [now destruct (skip && Nat.eqb i k)|].
          destruct (Nat.eqb i x), (Nat.eqb j y), (Nat.eqb k z); cbn in E |- *; congruence. }
      transitivity (over L1 (fun e => if Nat.eqb (fst e) x then (fun P => match look L1 y, look L2 z, look L2 u with Some Q, Some R, Some S' => if skip && (Nat.eqb x z || Nat.eqb y u) then 0 else T4 K N U1 U2 ei P Q R S' | _, _, _ => 0 end) (snd e) else 0)).
      - apply over_ext. intros [i P] _. unfold c_i. cbn [fst snd]. destruct (Nat.eqb i x) eqn:E.
        + transitivity (over L1 (fun e => if Nat.eqb (fst e) y then (fun Q => match look L2 z, look L2 u with Some R, Some S' => if skip && (Nat.eqb x z || Nat.eqb y u) then 0 else T4 K N U1 U2 ei P Q R S' | _, _ => 0 end) (snd e) else 0)).
          * apply over_ext. intros [j Q] _. unfold c_j. cbn [fst snd]. rewrite Ek, E. reflexivity.
          * exact (over_pick L1 y (fun Q => match look L2 z, look L2 u with Some R, Some S' => if skip && (Nat.eqb x z || Nat.eqb y u) then 0 else T4 K N U1 U2 ei P Q R S' | _, _ => 0 end) N1).
        + apply over_zero. intros [j Q] _. unfold c_j. cbn [fst snd]. rewrite Ek, E. reflexivity.
      - exact (over_pick L1 x (fun P => match look L1 y, look L2 z, look L2 u with Some Q, Some R, Some S' => if skip && (Nat.eqb x z || Nat.eqb y u) then 0 else T4 K N U1 U2 ei P Q R S' | _, _, _ => 0 end) N1).
    Qed.
  End Entry.

  (** Layout of a region: distinct spin orbitals, alpha and beta apart, with distinct spatial orbitals within each. *)
  Lemma located_spec s2s l : (forall i, In i l -> exists P, s2s i = Some P /\ P < N /\ i < 2 * N)%nat ->
    exists A, located N s2s l = Some A /\ map fst A = l /\ (forall i P, In (i, P) A -> s2s i = Some P) /\ map (fun i => s2s i) l = map (fun e => Some (snd e)) A.
  Proof.
    unfold located. induction l as [|i l IH]; intros H; [exists []; repeat split; intros ? ? []|].
    destruct (H i (or_introl eq_refl)) as [P [E [H1 H2]]]. destruct IH as [A [I1 [I2 [I3 I4]]]]; [intros; apply H; now right|].
    cbn [map]. rewrite E. apply Nat.ltb_lt in H1. apply Nat.ltb_lt in H2. rewrite H1, H2. cbn [andb all_some]. rewrite I1. exists ((i, P) :: A). cbn [map fst snd]. rewrite I2, I4.
    repeat split. intros j Q [[= -> ->]|HI]; [assumption|now apply I3].
  Qed.

  (** Sums in the order of the specification. *)
  Lemma one_sum (U V h : nat -> nat -> K) P Q : upto N (fun b => V Q b * upto N (fun a => U P a * h a b)) = upto N (fun a => upto N (fun b => U P a * V Q b * h a b)).
  Proof.
    rewrite upto_swap. apply upto_ext. intros b _. rewrite <- upto_scal. apply upto_ext. intros a _. ring.
  Qed.
  Lemma T4_eq (U1 U2 : array2) (ei : array4) P Q R S' : T4 K N U1 U2 ei P Q R S' =
    upto N (fun a => upto N (fun b => upto N (fun c => upto N (fun d => U1 P a * U1 Q b * U2 R c * U2 S' d * ei a b c d)))).
  Proof.
    unfold T4, T3, T2, T1.
    transitivity (upto N (fun d => upto N (fun c => upto N (fun b => upto N (fun a => U1 P a * U1 Q b * U2 R c * U2 S' d * ei a b c d))))).
    - apply upto_ext. intros d _. rewrite <- upto_scal. apply upto_ext. intros c _. rewrite <- !upto_scal. apply upto_ext. intros b _. rewrite <- !upto_scal. apply upto_ext. intros a _. ring.
    - transitivity (upto N (fun d => upto N (fun c => upto N (fun a => upto N (fun b => U1 P a * U1 Q b * U2 R c * U2 S' d * ei a b c d))))).
      { apply upto_ext. intros d _. apply upto_ext. intros c _. apply upto_swap. }
      transitivity (upto N (fun d => upto N (fun a => upto N (fun c => upto N (fun b => U1 P a * U1 Q b * U2 R c * U2 S' d * ei a b c d))))).
      { apply upto_ext. intros d _. apply upto_swap. }
      rewrite upto_swap. apply upto_ext. intros a _.
      transitivity (upto N (fun d => upto N (fun b => upto N (fun c => U1 P a * U1 Q b * U2 R c * U2 S' d * ei a b c d)))).
      { apply upto_ext. intros d _. apply upto_swap. }
      rewrite upto_swap. apply upto_ext. intros b _. apply upto_swap.
  Qed.
End Ints2.
