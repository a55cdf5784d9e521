(** The Hamiltonian of the transformed integrals. *)
From Coq Require Import Bool List Arith Lia Ring.
From Verif Require Import Coeff MatSpec MatLemmas FockSpec FermiModel FermiProofs InvModel HamModel HamSpec HamProofs HamProofs2 HamProofs3 HamProofs4 IntsModel IntsSpec IntsProofs1 IntsProofs2 IntsProofs3.
Import ListNotations.
Section Ints4.
  Variable K : CoefRing.
  Add Ring KRing : (c_ring K).
  Local Open Scope coef_scope.
  Notation array2 := (nat -> nat -> K).
  Notation array4 := (nat -> nat -> nat -> nat -> K).
  Variable N : nat.
  Variables (Ua Ub : array2).
  Notation comp := (component N Ua Ub).
  Notation R := (2 * N)%nat.
  Definition M (p a : nat) : K := if Bool.eqb (down N p) (down N a) then comp p (spatial N a) else 0.
  Definition up (i a : nat) : nat := if down N i then (a + N)%nat else a.

  Lemma upto_add_split n m (f : nat -> K) : upto (n + m) f = upto n f + upto m (fun i => f (i + n)%nat).
  Proof.
    unfold upto. rewrite seq_app, over_app. f_equal. rewrite <- (seq_shift_map n), over_map. reflexivity.
  Qed.
  Lemma upto_0 n : upto n (fun _ => (0 : K)) = 0. Proof. apply over_0. Qed.
  Lemma M_sum i (X : nat -> K) : upto R (fun a => M i a * X a) = upto N (fun a => comp i a * X (up i a)).
  Proof.
    replace R with (N + N)%nat by lia. rewrite upto_add_split. unfold M, up.
    assert (D1 : forall a, (a < N)%nat -> down N a = false /\ spatial N a = a). { intros a Ha. unfold spatial, down. replace (N <=? a) with false by (symmetry; apply Nat.leb_gt; lia). auto. }
    assert (D2 : forall a, down N (a + N) = true /\ spatial N (a + N) = a). { intros a. unfold spatial, down. replace (N <=? a + N) with true by (symmetry; apply Nat.leb_le; lia). split; [reflexivity|lia]. }
    destruct (down N i) eqn:E.
    - rewrite (upto_ext K N (fun a => _ * X a) (fun _ => 0)).
      + rewrite upto_0. transitivity (upto N (fun a => comp i a * X (a + N)%nat)); [|reflexivity].
        match goal with |- 0 + ?Y = ?Z => transitivity Y; [ring|] end. apply upto_ext. intros a _. destruct (D2 a) as [-> ->]. reflexivity.
      + intros a Ha. destruct (D1 a Ha) as [-> _]. cbn [Bool.eqb]. ring.
    - rewrite (upto_ext K N (fun a => _ * X (a + N)%nat) (fun _ => 0)).
      + rewrite upto_0. match goal with |- ?Y + 0 = ?Z => transitivity Y; [ring|] end. apply upto_ext. intros a Ha. destruct (D1 a Ha) as [-> ->]. reflexivity.
      + intros a Ha. destruct (D2 a) as [-> _]. cbn [Bool.eqb]. ring.
  Qed.
  Lemma down_up i a : (a < N)%nat -> down N (up i a) = down N i /\ spatial N (up i a) = a.
  Proof.
    intros Ha. unfold up. destruct (down N i); unfold spatial, down.
    - replace (N <=? a + N) with true by (symmetry; apply Nat.leb_le; lia). split; [reflexivity|lia].
    - replace (N <=? a) with false by (symmetry; apply Nat.leb_gt; lia). auto.
  Qed.
  Definition hso (h : array2) (a b : nat) : K := if Bool.eqb (down N a) (down N b) then h (spatial N a) (spatial N b) else 0.
  Definition Vso (V : array4) (a b c d : nat) : K := if Bool.eqb (down N a) (down N b) && Bool.eqb (down N c) (down N d) then V (spatial N a) (spatial N b) (spatial N c) (spatial N d) else 0.
  Lemma one_M h i j : one_electron N Ua Ub h i j = upto R (fun b => M j b * upto R (fun a => M i a * hso h a b)).
  Proof.
    rewrite M_sum. unfold one_electron.
    transitivity (upto N (fun b => comp j b * upto N (fun a => comp i a * (if Bool.eqb (down N i) (down N j) then h a b else 0)))).
    - rewrite one_sum. destruct (Bool.eqb (down N i) (down N j)).
      + reflexivity.
      + symmetry. transitivity (upto N (fun _ => (0 : K))); [|apply upto_0]. apply upto_ext. intros a _. transitivity (upto N (fun _ => (0 : K))); [|apply upto_0]. apply upto_ext. intros. ring.
    - apply upto_ext. intros b Hb. f_equal. rewrite M_sum. apply upto_ext. intros a Ha. f_equal. unfold hso. destruct (down_up i a Ha) as [-> ->], (down_up j b Hb) as [-> ->]. reflexivity.
  Qed.
  Lemma two_M V i j k l : two_electron N Ua Ub V i j k l =
    upto R (fun b => M j b * upto R (fun d => M l d * upto R (fun c => M k c * upto R (fun a => M i a * Vso V a b c d)))).
  Proof.
    rewrite M_sum. unfold two_electron.
    transitivity (upto N (fun b => comp j b * upto N (fun d => comp l d * upto N (fun c => comp k c * upto N (fun a => comp i a * (if Bool.eqb (down N i) (down N j) && Bool.eqb (down N k) (down N l) then V a b c d else 0)))))).
    - transitivity (upto N (fun b => upto N (fun d => upto N (fun c => upto N (fun a => comp i a * comp j b * comp k c * comp l d * (if Bool.eqb (down N i) (down N j) && Bool.eqb (down N k) (down N l) then V a b c d else 0)))))).
      + destruct (Bool.eqb (down N i) (down N j) && Bool.eqb (down N k) (down N l)).
        * rewrite upto_swap. apply upto_ext. intros b _.
          transitivity (upto N (fun a => upto N (fun d => upto N (fun c => comp i a * comp j b * comp k c * comp l d * V a b c d)))); [apply upto_ext; intros a _; apply upto_swap|].
          rewrite upto_swap. apply upto_ext. intros d _. apply upto_swap.
        * symmetry. do 3 (match goal with |- upto N ?f = 0 => transitivity (upto N (fun _ => (0 : K))); [apply upto_ext; intros ? _|apply upto_0] end).
          transitivity (upto N (fun _ => (0 : K))); [apply upto_ext; intros; ring|apply upto_0].
      + apply upto_ext. intros b _. rewrite <- upto_scal. apply upto_ext. intros d _. rewrite <- !upto_scal. apply upto_ext. intros c _. rewrite <- !upto_scal. apply upto_ext. intros a _. ring.
    - apply upto_ext. intros b Hb. f_equal. rewrite M_sum. apply upto_ext. intros d Hd. f_equal. rewrite M_sum. apply upto_ext. intros c Hc. f_equal. rewrite M_sum. apply upto_ext. intros a Ha. f_equal.
      unfold Vso. destruct (down_up i a Ha) as [-> ->], (down_up j b Hb) as [-> ->], (down_up k c Hc) as [-> ->], (down_up l d Hd) as [-> ->]. reflexivity.
  Qed.

  (** Moving a transformation from one factor of a sum to the other. *)
  Lemma shift1 (X Y : nat -> K) : upto R (fun p => upto R (fun a => M p a * X a) * Y p) = upto R (fun a => X a * upto R (fun p => M p a * Y p)).
  Proof.
    transitivity (upto R (fun p => upto R (fun a => M p a * X a * Y p))).
    - apply upto_ext. intros p _. transitivity (Y p * upto R (fun a => M p a * X a)); [ring|]. rewrite <- upto_scal. apply upto_ext. intros. ring.
    - rewrite upto_swap. apply upto_ext. intros a _. rewrite <- upto_scal. apply upto_ext. intros. ring.
  Qed.
  Lemma shift2 (X Y : nat -> nat -> K) : upto R (fun p => upto R (fun q => upto R (fun b => M q b * upto R (fun a => M p a * X a b)) * Y p q))
    = upto R (fun a => upto R (fun b => X a b * upto R (fun p => M p a * upto R (fun q => M q b * Y p q)))).
  Proof.
    transitivity (upto R (fun p => upto R (fun b => upto R (fun a => M p a * X a b) * upto R (fun q => M q b * Y p q)))).
    - apply upto_ext. intros p _. apply (shift1 (fun b => upto R (fun a => M p a * X a b)) (fun q => Y p q)).
    - rewrite upto_swap. transitivity (upto R (fun b => upto R (fun a => X a b * upto R (fun p => M p a * upto R (fun q => M q b * Y p q))))); [|apply upto_swap].
      apply upto_ext. intros b _. apply (shift1 (fun a => X a b) (fun p => upto R (fun q => M q b * Y p q))).
  Qed.
  Lemma shift4 (X Y : array4) :
    upto R (fun p => upto R (fun r => upto R (fun q => upto R (fun s => upto R (fun b => M q b * upto R (fun d => M s d * upto R (fun c => M r c * upto R (fun a => M p a * X a b c d)))) * Y p r q s))))
    = upto R (fun a => upto R (fun c => upto R (fun b => upto R (fun d => X a b c d *
        upto R (fun p => M p a * upto R (fun r => M r c * upto R (fun s => M s d * upto R (fun q => M q b * Y p r q s)))))))).
  Proof.
    (* s and q first, at fixed p and r *)
    transitivity (upto R (fun p => upto R (fun r => upto R (fun d => upto R (fun b => upto R (fun c => M r c * upto R (fun a => M p a * X a b c d)) * upto R (fun s => M s d * upto R (fun q => M q b * Y p r q s))))))).
    { apply upto_ext. intros p _. apply upto_ext. intros r _. rewrite upto_swap.
      transitivity (upto R (fun s => upto R (fun q => upto R (fun b => M q b * upto R (fun d => M s d * upto R (fun c => M r c * upto R (fun a => M p a * X a b c d)))) * Y p r q s))); [reflexivity|].
      exact (shift2 (fun d b => upto R (fun c => M r c * upto R (fun a => M p a * X a b c d))) (fun s q => Y p r q s)). }
    (* then p and r at fixed b and d *)
    transitivity (upto R (fun d => upto R (fun b => upto R (fun p => upto R (fun r => upto R (fun c => M r c * upto R (fun a => M p a * X a b c d)) * upto R (fun s => M s d * upto R (fun q => M q b * Y p r q s))))))).
    { transitivity (upto R (fun p => upto R (fun d => upto R (fun b => upto R (fun r => upto R (fun c => M r c * upto R (fun a => M p a * X a b c d)) * upto R (fun s => M s d * upto R (fun q => M q b * Y p r q s))))))).
      { apply upto_ext. intros p _. rewrite upto_swap. apply upto_ext. intros d _. apply upto_swap. }
      rewrite upto_swap. apply upto_ext. intros d _. apply upto_swap. }
    transitivity (upto R (fun d => upto R (fun b => upto R (fun a => upto R (fun c => X a b c d * upto R (fun p => M p a * upto R (fun r => M r c * upto R (fun s => M s d * upto R (fun q => M q b * Y p r q s))))))))).
    { apply upto_ext. intros d _. apply upto_ext. intros b _. exact (shift2 (fun a c => X a b c d) (fun p r => upto R (fun s => M s d * upto R (fun q => M q b * Y p r q s)))). }
    transitivity (upto R (fun d => upto R (fun a => upto R (fun b => upto R (fun c => X a b c d * upto R (fun p => M p a * upto R (fun r => M r c * upto R (fun s => M s d * upto R (fun q => M q b * Y p r q s))))))))); [apply upto_ext; intros d _; apply upto_swap|].
    rewrite upto_swap. apply upto_ext. intros a _.
    transitivity (upto R (fun d => upto R (fun c => upto R (fun b => X a b c d * upto R (fun p => M p a * upto R (fun r => M r c * upto R (fun s => M s d * upto R (fun q => M q b * Y p r q s)))))))); [apply upto_ext; intros d _; apply upto_swap|].
    rewrite upto_swap. apply upto_ext. intros c _. apply upto_swap.
  Qed.
  Lemma scal_l v (A B : mat K) x y : mmul R (fun x y => v * A x y) B x y = v * mmul R A B x y.
  Proof. unfold mmul. rewrite <- sumbits_scal. apply sumbits_ext. intros; ring. Qed.
  Lemma scal_r v (A B : mat K) x y : mmul R A (fun x y => v * B x y) x y = v * mmul R A B x y.
  Proof. unfold mmul. rewrite <- sumbits_scal. apply sumbits_ext. intros; ring. Qed.
  Lemma mmul_bcre a (B : mat K) x y : mmul R (basis_cre N Ua Ub a) B x y = upto R (fun p => M p a * mmul R (cre p) B x y).
  Proof.
    unfold basis_cre, upto at 1. rewrite (mmul_over_l K R (seq 0 R) (fun p => fun x y => M p a * cre p x y)). apply over_ext. intros p _. apply scal_l.
  Qed.
  Lemma mmul_bann a (B : mat K) x y : mmul R B (basis_ann N Ua Ub a) x y = upto R (fun p => M p a * mmul R B (ann p) x y).
  Proof.
    unfold basis_ann, upto at 1. rewrite (mmul_over_r K R (seq 0 R) (fun p => fun x y => M p a * ann p x y)). apply over_ext. intros p _. apply scal_r.
  Qed.
  Lemma mmul_bann_l a (B : mat K) x y : mmul R (basis_ann N Ua Ub a) B x y = upto R (fun p => M p a * mmul R (ann p) B x y).
  Proof.
    unfold basis_ann, upto at 1. rewrite (mmul_over_l K R (seq 0 R) (fun p => fun x y => M p a * ann p x y)). apply over_ext. intros p _. apply scal_l.
  Qed.
  Lemma push_r {A} (l : list A) (v : A -> K) (F : A -> mat K) (B : mat K) x y : mmul R B (fun x y => over l (fun a => v a * F a x y)) x y = over l (fun a => v a * mmul R B (F a) x y).
  Proof. rewrite (mmul_over_r K R l (fun a => fun x y => v a * F a x y)). apply over_ext. intros a _. apply scal_r. Qed.
  Lemma mmul_ext_r (A B C : mat K) x y : (forall u v, B u v = C u v) -> mmul R A B x y = mmul R A C x y.
  Proof. intros H. unfold mmul. apply sumbits_ext. intros. now rewrite H. Qed.
  Lemma words2 a b x y : mmul R (basis_cre N Ua Ub a) (basis_ann N Ua Ub b) x y = upto R (fun p => M p a * upto R (fun q => M q b * mmul R (cre p) (ann q) x y)).
  Proof. rewrite mmul_bcre. apply upto_ext. intros p _. f_equal. apply mmul_bann. Qed.
  Lemma words4 a c b d x y : mmul R (basis_cre N Ua Ub a) (mmul R (basis_cre N Ua Ub c) (mmul R (basis_ann N Ua Ub d) (basis_ann N Ua Ub b))) x y
    = upto R (fun p => M p a * upto R (fun r => M r c * upto R (fun s => M s d * upto R (fun q => M q b * mmul R (cre p) (mmul R (cre r) (mmul R (ann s) (ann q))) x y)))).
  Proof.
    rewrite mmul_bcre. apply upto_ext. intros p _. f_equal.
    rewrite (mmul_ext_r _ _ (fun x y => over (seq 0 R) (fun r => M r c * mmul R (cre r) (mmul R (basis_ann N Ua Ub d) (basis_ann N Ua Ub b)) x y))); [|intros; apply mmul_bcre].
    rewrite push_r. apply over_ext. intros r _. f_equal.
    rewrite (mmul_ext_r _ _ (fun x y => over (seq 0 R) (fun s => M s d * mmul R (cre r) (mmul R (ann s) (basis_ann N Ua Ub b)) x y))).
    2:{ intros u v. rewrite (mmul_ext_r _ _ (fun x y => over (seq 0 R) (fun s => M s d * mmul R (ann s) (basis_ann N Ua Ub b) x y))); [apply push_r|intros; apply mmul_bann_l]. }
    rewrite push_r. apply over_ext. intros s _. f_equal.
    rewrite (mmul_ext_r _ _ (fun x y => over (seq 0 R) (fun q => M q b * mmul R (cre r) (mmul R (ann s) (ann q)) x y))); [apply push_r|].
    intros u v. rewrite (mmul_ext_r _ _ (fun x y => over (seq 0 R) (fun q => M q b * mmul R (ann s) (ann q) x y))); [apply push_r|intros; apply mmul_bann].
  Qed.
  Lemma fock_same_end p r s x y : @fock_mat K [(Cre, p); (Cre, r); (Ann, s); (Ann, s)] x y = 0.
  Proof.
    apply fock_mat_zero. intro n. rewrite (fock_cons Cre p), (fock_cons Cre r). replace (fock [(Ann, s); (Ann, s)] n) with (@None (bool * bits)); [reflexivity|].
    symmetry. rewrite !fock_cons. cbn [fock bindo]. assert (E := fock1_same Ann Ann s n). destruct (fock1 Ann s n) as [[s1 m1]|]; [|reflexivity]. cbn [bindo] in *.
    destruct (fock1 Ann s m1) as [[s2 m2]|]; [|reflexivity]. discriminate E.
  Qed.
  Lemma ham_transformed (h : array2) (V : array4) (h' : array2) (V' : array4) : (forall p q, (p < R)%nat -> (q < R)%nat -> h' p q = one_electron N Ua Ub h p q) ->
    (forall p r q s, (p < R)%nat -> (r < R)%nat -> (q < R)%nat -> (s < R)%nat -> p <> r -> q <> s -> V' p r q s = two_electron N Ua Ub V p q r s) ->
    meq R (ham R h' V') (basis_ham N Ua Ub h V).
  Proof.
    intros Hh HV x y Lx Ly. unfold ham, basis_ham. f_equal; [|f_equal].
    - transitivity (upto R (fun p => upto R (fun q => upto R (fun b => M q b * upto R (fun a => M p a * hso h a b)) * mmul R (cre p) (ann q) x y))).
      + apply upto_ext. intros p Hp. apply upto_ext. intros q Hq. rewrite Hh by assumption. now rewrite one_M.
      + rewrite (shift2 (fun a b => hso h a b) (fun p q => mmul R (cre p) (ann q) x y)). apply upto_ext. intros a _. apply upto_ext. intros b _. now rewrite words2.
    - transitivity (upto R (fun p => upto R (fun r => upto R (fun q => upto R (fun s => upto R (fun b => M q b * upto R (fun d => M s d * upto R (fun c => M r c * upto R (fun a => M p a * Vso V a b c d))))
                       * mmul R (cre p) (mmul R (cre r) (mmul R (ann s) (ann q))) x y))))).
      + apply upto_ext. intros p Hp. apply upto_ext. intros r Hr. apply upto_ext. intros q Hq. apply upto_ext. intros s Hs.
        destruct (Nat.eq_dec p r) as [->|Npr]; [|destruct (Nat.eq_dec q s) as [->|Nqs]].
        * unfold cre, ann. rewrite (word4 K R (Cre, r) (Cre, r) (Ann, s) (Ann, q) x y Lx Ly), fock_same_zero by auto. ring.
        * unfold cre, ann. rewrite (word4 K R (Cre, p) (Cre, r) (Ann, s) (Ann, s) x y Lx Ly). rewrite fock_same_end. ring.
        * rewrite HV by assumption. now rewrite two_M.
      + rewrite (shift4 (fun a b c d => Vso V a b c d) (fun p r q s => mmul R (cre p) (mmul R (cre r) (mmul R (ann s) (ann q))) x y)).
        apply upto_ext. intros a _. apply upto_ext. intros c _. apply upto_ext. intros b _. apply upto_ext. intros d _. now rewrite words4.
  Qed.
End Ints4.
