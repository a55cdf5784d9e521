(** C182: the one-electron integrals between left and right orbitals (gen_spin_1ei_lr). *)
From Coq Require Import Bool List Arith ZArith Lia Ring.
From Verif Require Import Coeff MatSpec FockSpec InvModel HamModel HamSpec HamProofs HamProofs3 IntsModel IntsSpec IntsProofs2 IntsProofs3 LrModel LrSpec LrProofs.
Import ListNotations.
Local Open Scope nat_scope.

(** With region='full', for every left and right coefficients, active space and array given: the value returned has
    <i|h|j> at every pair of inactive or active spin orbitals of one spin and 0 elsewhere.  The entries of the virtual
    orbitals are left out (see [C182_virtual_refuted]). *)
Theorem C182_full_partial (K : CoefRing) (No_as No_core N : nat) (h La Ra Lb Rb : nat -> nat -> K) new : No_core + No_as <= N ->
  exists t, gen_spin_1ei_lr N h La Ra Lb Rb (alpha_mo No_as No_core N) (beta_mo No_as No_core N) (spin2spac N) Full new = Some (Some t) /\
    forall i j, t i j = if ranged N 0 (No_core + No_as) i && ranged N 0 (No_core + No_as) j then left_right N La Ra Lb Rb h i j else c0.
Proof.
  intros H. unfold gen_spin_1ei_lr. destruct (lr_located No_as No_core N H Full) as [-> ->]. eexists. split; [reflexivity|]. intros i j.
  rewrite lr_blocks by exact H. cbn [low]. unfold left_right. destruct (ranged _ _ _ i && ranged _ _ _ j), (Bool.eqb (down N i) (down N j)); reflexivity.
Qed.
(** With region='active' and an array: the entries between active spin orbitals of one spin become <i|h|j>, whatever they
    were, and every other entry stays. *)
Theorem C182_active (K : CoefRing) (No_as No_core N : nat) (h La Ra Lb Rb s : nat -> nat -> K) : No_core + No_as <= N ->
  exists t, gen_spin_1ei_lr N h La Ra Lb Rb (alpha_mo No_as No_core N) (beta_mo No_as No_core N) (spin2spac N) Active (Some s) = Some (Some t) /\
    forall i j, t i j = if ranged N No_core (No_core + No_as) i && ranged N No_core (No_core + No_as) j && Bool.eqb (down N i) (down N j)
                        then left_right N La Ra Lb Rb h i j else s i j.
Proof.
  intros H. unfold gen_spin_1ei_lr. destruct (lr_located No_as No_core N H Active) as [-> ->]. eexists. split; [reflexivity|]. intros i j.
  rewrite lr_blocks by exact H. reflexivity.
Qed.
(** With region='active' and no array the call raises as soon as there is an active orbital (the sibling
    generate_spin_1ei starts from zeros instead). *)
Theorem C182_no_array (K : CoefRing) (No_as No_core N : nat) (h La Ra Lb Rb : nat -> nat -> K) : No_core + No_as <= N -> No_as > 0 ->
  gen_spin_1ei_lr N h La Ra Lb Rb (alpha_mo No_as No_core N) (beta_mo No_as No_core N) (spin2spac N) Active None = None.
Proof.
  intros H Ha. unfold gen_spin_1ei_lr. destruct (lr_located No_as No_core N H Active) as [-> ->]. destruct (pairs_empty No_as No_core N H Active) as [P _]. cbn [low] in P.
  destruct (pairs_a No_as No_core N Active); [|reflexivity]. exfalso. destruct P as [P _]. specialize (P eq_refl). lia.
Qed.
(** Without virtual orbitals and with the right coefficients the transposes of the left ones the value is that of
    generate_spin_1ei. *)
Theorem C182_agrees (K : CoefRing) (No_as No_core N : nat) (h Ua Ub : nat -> nat -> K) new new' : No_core + No_as = N ->
  exists t u, gen_spin_1ei_lr N h Ua (fun b q => Ua q b) Ub (fun b q => Ub q b) (alpha_mo No_as No_core N) (beta_mo No_as No_core N) (spin2spac N) Full new = Some (Some t) /\
    generate_spin_1ei N h Ua Ub (alpha_mo No_as No_core N) (beta_mo No_as No_core N) Full (spin2spac N) new' = Some u /\ forall i j, t i j = u i j.
Proof.
  intros H. destruct (C182_full_partial K No_as No_core N h Ua (fun b q => Ua q b) Ub (fun b q => Ub q b) new) as [t [E T]]; [lia|].
  destruct (spin_1ei_spec K No_as No_core N ltac:(lia) h Ua Ub Full new') as [u [F U]]. exists t, u. split; [exact E|]. split; [exact F|]. intros i j. rewrite T, U.
  unfold inside, ranged. cbn [extent Nat.leb]. rewrite H, !andb_true_r. unfold left_right, one_electron. destruct ((i <? 2 * N) && (spatial N i <? N) && ((j <? 2 * N) && (spatial N j <? N))); [|reflexivity].
  cbn [andb]. destruct (Bool.eqb (down N i) (down N j)) eqn:S; [|reflexivity]. apply upto_ext. intros a _. apply upto_ext. intros b _.
  unfold left_component, right_component, component. destruct (down N i), (down N j); try discriminate; apply lr_comm.
Qed.
(** The region named 'full' is not the whole space: with one active and one virtual orbital, unit coefficients and
    h = 1 everywhere, the entry of the virtual orbital is 0 although <1|h|1> = 1. *)
Definition unit2 (a b : nat) : GaussQ := if Nat.eqb a b then gz 1%Z else gz 0%Z.
Theorem C182_virtual_refuted : exists (h L R : nat -> nat -> GaussQ), exists t,
  gen_spin_1ei_lr 2 h L R L R (alpha_mo 1 0 2) (beta_mo 1 0 2) (spin2spac 2) Full None = Some (Some t) /\
  left_right 2 L R L R h 1 1 = gz 1%Z /\ t 1 1 = gz 0%Z /\ t 1 1 <> left_right 2 L R L R h 1 1.
Proof.
  exists (fun _ _ => gz 1%Z), unit2, unit2. eexists. split; [reflexivity|].
  assert (A : left_right 2 unit2 unit2 unit2 unit2 (fun _ _ => gz 1%Z) 1 1 = gz 1%Z) by (apply (proj1 (ceqb_spec GaussQ _ _)); vm_compute; reflexivity).
  match goal with |- _ /\ ?t = _ /\ _ => assert (B : t = gz 0%Z) by (apply (proj1 (ceqb_spec GaussQ _ _)); vm_compute; reflexivity) end.
  split; [exact A|]. split; [exact B|]. rewrite A, B. intros E. apply (f_equal (fun z => @ceqb GaussQ z (gz 1%Z))) in E. vm_compute in E. discriminate.
Qed.
(** One inactive and one active orbital of two, different left and right coefficients: an entry of each spin, and one
    between the spins; with region='active' the inactive entry keeps the value it had. *)
Example C182_case :
  let h : nat -> nat -> GaussQ := fun a b => gz (Z.of_nat (1 + a + 2 * b)) in
  let L : nat -> nat -> GaussQ := fun p a => gz (Z.of_nat (p + 3 * a)) in
  let R : nat -> nat -> GaussQ := fun b q => gz (Z.of_nat (2 * b + 5 * q + 1)) in
  let M : nat -> nat -> GaussQ := fun p a => gz (Z.of_nat (2 + p * a)) in
  let at_ r new i j v := match gen_spin_1ei_lr 2 h L R M R (alpha_mo 1 1 2) (beta_mo 1 1 2) (spin2spac 2) r new with
                         | Some (Some t) => @ceqb GaussQ (t i j) v | _ => false end in
  at_ Full None 0 1 (gz 132%Z) && at_ Full None 2 3 (gz 148%Z) && at_ Full None 0 3 (gz 0%Z)
  && at_ Active (Some (fun _ _ => gz 7%Z)) 0 1 (gz 7%Z) && at_ Active (Some (fun _ _ => gz 7%Z)) 3 3 (gz 192%Z) = true.
Proof. vm_compute. reflexivity. Qed.
Print Assumptions C182_full_partial.
Print Assumptions C182_active.
Print Assumptions C182_no_array.
Print Assumptions C182_agrees.
Print Assumptions C182_virtual_refuted.
