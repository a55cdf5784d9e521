(** Proofs about VqeModel: the ansatz of a unitary coupled cluster calculation. *)
From Coq Require Import Bool List Arith Lia Ring.
From Verif Require Import Coeff MatSpec MatLemmas FockSpec OpSpec PauliModel OperatorModel TransformModel RdmFock VqeModel VqeSpec VqeProofs VqeProofs3.
Import ListNotations.
Local Open Scope nat_scope.

Definition pauli_dec (a b : pauli) : {a = b} + {a <> b}. Proof. decide equality. Defined.
Definition pkeq := list_eq_dec pauli_dec.

Lemma ucc_sub s d tr q ga gb ini L : ucc s d tr q ga gb ini = Some L -> forall t, In t L -> In t (the_list ga gb ini).
Proof.
  unfold ucc. destruct (negb s && (tr || q)); [discriminate|]. intros [= <-] t Ht. unfold the_list. apply in_app_iff in Ht. apply in_app_iff.
  destruct Ht as [Ht|Ht]; [left; destruct s; [exact Ht|destruct Ht]|right; destruct d; [exact Ht|destruct Ht]].
Qed.
Lemma occ_vir ga gb ini i j : is_occ ga gb ini i -> is_vir ga gb ini j -> i <> j.
Proof. intros [_ A] [_ B] ->. now apply B. Qed.
Lemma member_shape ga gb ini t : NoDup (ga ++ gb) -> In t (the_list ga gb ini) ->
  NoDup t /\ (forall i, In i t -> In i (ga ++ gb)) /\ exists m, length t = 2 * m /\ 0 < m /\ m <= 2 /\
  (forall P, P = (fun x => existsb (Nat.eqb x) ga) \/ P = (fun _ => true) -> cnt P (firstn m t) = cnt P (skipn m t)).
Proof.
  intros HN Ht. destruct (sound ga gb ini HN t Ht) as [(i & j & -> & Hi & Hj & HU)|(i & k & l & j & -> & Hi & Hk & N1 & Hl & Hj & N2 & HU)].
  - split; [|split].
    + repeat constructor; cbn; [intros [E|[]]; symmetry in E; now apply (occ_vir ga gb ini i j)|tauto].
    + intros x [<-|[<-|[]]]; apply in_app_iff; [apply Hi|apply Hj].
    + exists 1. split; [reflexivity|]. split; [lia|]. split; [lia|]. intros P [-> | ->]; [exact HU|reflexivity].
  - split; [|split].
    + pose proof (occ_vir ga gb ini i l Hi Hl). pose proof (occ_vir ga gb ini i j Hi Hj). pose proof (occ_vir ga gb ini k l Hk Hl). pose proof (occ_vir ga gb ini k j Hk Hj).
      repeat constructor; cbn; intuition congruence.
    + intros x [<-|[<-|[<-|[<-|[]]]]]; apply in_app_iff; [apply Hi|apply Hk|apply Hl|apply Hj].
    + exists 2. split; [reflexivity|]. split; [lia|]. split; [lia|]. intros P [-> | ->]; [exact HU|reflexivity].
Qed.
Section W.
  Variable K : CoefRing.
  Add Ring KRing : (c_ring K).
  Local Open Scope coef_scope.
  Lemma half2 (p : K) : small (cpow chalf 4 * p) = false -> small (cpow chalf 2 * p) = false.
  Proof.
    intro H. destruct (small (cpow chalf 2 * p)) eqn:E; [|reflexivity]. apply small_half_mul, small_half_mul in E.
    replace (chalf * (chalf * (cpow chalf 2 * p))) with (cpow chalf 4 * p) in E by (cbn [cpow]; ring). congruence.
  Qed.
  Lemma ucc_ansatz tiny N s d tr q ga gb ini L (ps : list K) : NoDup (ga ++ gb) -> (forall i, In i (ga ++ gb) -> (i < N)%nat) ->
    ucc s d tr q ga gb ini = Some L -> (forall p, In p ps -> cconj p = p /\ (tiny p = false -> small (cpow chalf 4 * p) = false)) ->
    exists bs, assign tiny N (combine L ps) = Some (concat bs) /\
      Forall2 (fun tp b => meq N (omat b) (generator (Nat.div2 (length (fst tp))) (fst tp) (snd tp)) /\ NoDup (keys b) /\
                           forall e, In e b -> length (fst e) = N /\ cconj (snd e) = - snd e)
        (filter (fun e => negb (tiny (snd e))) (combine L ps)) bs.
  Proof.
    intros HN HL HU HP. apply (assign_spec K pkeq). intros t p Hi Ht.
    pose proof (in_combine_l _ _ _ _ Hi) as It. pose proof (in_combine_r _ _ _ _ Hi) as Ip.
    apply (ucc_sub s d tr q ga gb ini L HU) in It. destruct (member_shape ga gb ini t HN It) as [ND [HI [m [E [M0 [M2 _]]]]]].
    destruct (HP p Ip) as [R S]. specialize (S Ht). split; [|split; [exact ND|split; [intros i Hi'; apply HL; now apply HI|exact R]]].
    exists m. split; [exact E|]. split; [exact M0|]. destruct m as [|[|[|m]]]; try lia; [now apply half2|exact S].
  Qed.
  Lemma ucc_conserves s d tr q ga gb ini L t (p : K) r c : NoDup (ga ++ gb) -> ucc s d tr q ga gb ini = Some L -> In t L ->
    generator (Nat.div2 (length t)) t p r c <> 0 ->
    count_in (fun x => existsb (Nat.eqb x) ga) r = count_in (fun x => existsb (Nat.eqb x) ga) c /\ count_in (fun _ => true) r = count_in (fun _ => true) c.
  Proof.
    intros HN HU Ht H. apply (ucc_sub s d tr q ga gb ini L HU) in Ht. destruct (member_shape ga gb ini t HN Ht) as [_ [_ [m [E [_ [_ HC]]]]]].
    rewrite E, Nat.div2_double in H. split; apply (generator_conserves K _ m t p r c E); auto.
  Qed.
End W.
