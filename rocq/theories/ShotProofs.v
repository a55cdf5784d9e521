(** Means over independent shots; the average from counts is unbiased, its variance, Chebyshev's bound. *)
From Coq Require Import Bool List Arith ZArith QArith Reals Qreals Lia Lra.
From Verif Require Import Coeff ComplexR MatSpec MatLemmas OpSpec FockSpec CircuitSpec CircuitModel CircuitProofs2 TomoModel CountsProofs ShotSpec ShotModel.
Import ListNotations.
Local Open Scope R_scope.

Lemma osum_ext N : forall f g, (forall b, length b = N -> f b = g b) -> osum N f = osum N g.
Proof.
  induction N as [|N IH]; intros f g H; cbn [osum]; [apply H; reflexivity|].
  f_equal; apply IH; intros b L; apply H; cbn [length]; rewrite L; reflexivity.
Qed.
Lemma osum_plus N : forall f g, osum N (fun b => f b + g b) = osum N f + osum N g.
Proof. induction N as [|N IH]; intros f g; cbn [osum]; [reflexivity|]. rewrite !IH. ring. Qed.
Lemma osum_scal N a : forall f, osum N (fun b => a * f b) = a * osum N f.
Proof. induction N as [|N IH]; intros f; cbn [osum]; [reflexivity|]. rewrite !IH. ring. Qed.
Lemma osum_le N : forall f g, (forall b, length b = N -> f b <= g b) -> osum N f <= osum N g.
Proof.
  induction N as [|N IH]; intros f g H; cbn [osum]; [apply H; reflexivity|].
  apply Rplus_le_compat; apply IH; intros b L; apply H; cbn [length]; rewrite L; reflexivity.
Qed.

Lemma mean_ext N n p : forall f g, (forall l, sample N n l -> f l = g l) -> mean N n p f = mean N n p g.
Proof.
  induction n as [|n IH]; intros f g H; cbn [mean]; [apply H; split; [reflexivity|intros b []]|].
  apply osum_ext. intros b L. f_equal. apply IH. intros l [Ll Hl]. apply H. split; [cbn [length]; rewrite Ll; reflexivity|].
  intros x [<-|Hx]; [exact L|apply Hl; exact Hx].
Qed.
Lemma mean_plus N n p : forall f g, mean N n p (fun l => f l + g l) = mean N n p f + mean N n p g.
Proof.
  induction n as [|n IH]; intros f g; cbn [mean]; [reflexivity|].
  rewrite <- osum_plus. apply osum_ext. intros b _. rewrite (IH (fun l => f (b :: l)) (fun l => g (b :: l))). ring.
Qed.
Lemma mean_scal N n p a : forall f, mean N n p (fun l => a * f l) = a * mean N n p f.
Proof.
  induction n as [|n IH]; intros f; cbn [mean]; [reflexivity|].
  rewrite <- osum_scal. apply osum_ext. intros b _. rewrite (IH (fun l => f (b :: l))). ring.
Qed.
Lemma mean_const N n p c : osum N p = 1 -> mean N n p (fun _ => c) = c.
Proof.
  intro H. induction n as [|n IH]; cbn [mean]; [reflexivity|].
  rewrite (osum_ext N _ (fun b => c * p b)) by (intros b _; rewrite IH; ring). rewrite osum_scal, H. ring.
Qed.
Lemma mean_le N n p : (forall b, 0 <= p b) -> forall f g, (forall l, sample N n l -> f l <= g l) -> mean N n p f <= mean N n p g.
Proof.
  intro P. induction n as [|n IH]; intros f g H; cbn [mean]; [apply H; split; [reflexivity|intros b []]|].
  apply osum_le. intros b L. apply Rmult_le_compat_l; [apply P|]. apply IH. intros l [Ll Hl]. apply H. split; [cbn [length]; rewrite Ll; reflexivity|].
  intros x [<-|Hx]; [exact L|apply Hl; exact Hx].
Qed.

(** ** The average from the counts is that of the shots *)
Definition total (s : list pauli) (l : list (list bool)) : Z := zsum (map (eigenvalue s) l).
Lemma zsum_map_plus {A} (f g : A -> Z) l : (zsum (map (fun x => f x + g x) l) = zsum (map f l) + zsum (map g l))%Z.
Proof. unfold zsum. induction l as [|x l IH]; cbn [map fold_right]; [reflexivity|]. rewrite IH. ring. Qed.
Lemma zsum_pick (e : list bool -> Z) x ks : NoDup ks -> In x ks ->
  zsum (map (fun d => (if list_eq_dec bool_dec x d then 1 else 0) * e d)%Z ks) = e x.
Proof.
  unfold zsum. induction ks as [|k ks IH]; intros ND I; [destruct I|]. cbn [map fold_right]. apply NoDup_cons_iff in ND. destruct ND as [Nk ND].
  destruct (list_eq_dec bool_dec x k) as [->|D].
  - replace (fold_right Z.add 0%Z _) with 0%Z; [lia|]. clear IH ND I. induction ks as [|j ks IH]; [reflexivity|]. cbn [map fold_right].
    destruct (list_eq_dec bool_dec k j) as [->|]; [destruct Nk; left; reflexivity|]. rewrite <- IH; [reflexivity|]. intro C. apply Nk. right. exact C.
  - destruct I as [->|I]; [contradiction D; reflexivity|]. rewrite (IH ND I). lia.
Qed.
Lemma occ_sum (e : list bool -> Z) ks : NoDup ks -> forall l, (forall x, In x l -> In x ks) ->
  zsum (map (fun d => Z.of_nat (count_occ (list_eq_dec bool_dec) l d) * e d)%Z ks) = zsum (map e l).
Proof.
  intros ND l. induction l as [|x l IH]; intro H.
  - cbn [count_occ map]. clear. unfold zsum. induction ks as [|k ks IH]; [reflexivity|]. cbn [map fold_right] in *. rewrite IH. reflexivity.
  - transitivity (zsum (map (fun d => (if list_eq_dec bool_dec x d then 1 else 0) * e d + Z.of_nat (count_occ (list_eq_dec bool_dec) l d) * e d)%Z ks)).
    + f_equal. apply map_ext. intro d. cbn [count_occ]. destruct (list_eq_dec bool_dec x d); [rewrite Nat2Z.inj_succ|]; ring.
    + rewrite zsum_map_plus, (zsum_pick e x ks ND) by (apply H; left; reflexivity). rewrite IH by (intros; apply H; right; assumption). reflexivity.
Qed.
Lemma tallies_sum (e : list bool -> Z) l counts : tallies l counts -> zsum (map (fun c => snd c * e (fst c))%Z counts) = zsum (map e l).
Proof.
  intros [ND T]. transitivity (zsum (map (fun d => Z.of_nat (count_occ (list_eq_dec bool_dec) l d) * e d)%Z (map fst counts))).
  - rewrite map_map. f_equal. apply map_ext_in. intros [d k] I. cbn [fst snd]. apply T in I. destruct I as [-> _]. reflexivity.
  - apply occ_sum; [exact ND|]. intros x I. apply in_map_iff. exists (x, Z.of_nat (count_occ (list_eq_dec bool_dec) l x)). split; [reflexivity|].
    apply T. split; [reflexivity|]. apply (count_occ_In (list_eq_dec bool_dec)) in I. lia.
Qed.
Lemma zsum_ones {A} (l : list A) : zsum (map (fun _ => 1%Z) l) = Z.of_nat (length l).
Proof. unfold zsum. induction l as [|x l IH]; [reflexivity|]. cbn [map fold_right length]. rewrite IH. lia. Qed.
Lemma counts_value N n s l counts : (0 < n)%nat -> (length s <= N)%nat -> sample N n l -> tallies l counts ->
  exists q, measure_counts N s counts = Some q /\ Q2R q = IZR (total s l) / INR n.
Proof.
  intros Hn Hs [Ll Hl] T.
  assert (S : shots counts = Z.of_nat n).
  { unfold shots. rewrite <- Ll, <- (zsum_ones l), <- (tallies_sum (fun _ => 1%Z) l counts T). f_equal. apply map_ext. intro. ring. }
  exists (inject_Z (weighted s counts) / inject_Z (shots counts))%Q. split.
  - apply measure_counts_spec; [exact Hs| |lia]. intros d k I. apply T in I. destruct I as [-> I]. apply Hl. apply (count_occ_In (list_eq_dec bool_dec)). lia.
  - rewrite S. unfold weighted. rewrite (tallies_sum (eigenvalue s) l counts T). fold (total s l).
    rewrite Q2R_div. 2:{ intro C. apply (proj1 (inject_Z_injective (Z.of_nat n) 0)) in C. lia. }
    unfold Q2R, inject_Z. cbn [Qnum Qden]. rewrite INR_IZR_INZ. field. apply IZR_neq. lia.
Qed.

(** ** Moments *)
Lemma eig_sq s b : (eigenvalue s b * eigenvalue s b = 1)%Z.
Proof. unfold eigenvalue. destruct (outcome_parity s (rev b)); reflexivity. Qed.
Section Moments.
  Variables (N : nat) (p : list bool -> R) (s : list pauli).
  Hypothesis P : distribution N p.
  Let mu := average N p s.
  Lemma first_moment n : mean N n p (fun l => IZR (total s l)) = INR n * mu.
  Proof.
    induction n as [|n IH]; cbn [mean].
    - unfold total. cbn [map zsum fold_right INR]. ring.
    - rewrite (osum_ext N _ (fun b => p b * IZR (eigenvalue s b) + (INR n * mu) * p b)).
      + rewrite osum_plus, osum_scal, (proj2 P), S_INR. fold (average N p s). fold mu. ring.
      + intros b _. rewrite (mean_ext N n p _ (fun l => IZR (eigenvalue s b) + IZR (total s l))) by (intros l _; unfold total; cbn [map zsum fold_right]; apply plus_IZR).
        rewrite mean_plus, mean_const, IH by exact (proj2 P). ring.
  Qed.
  Lemma second_moment n : mean N n p (fun l => IZR (total s l) * IZR (total s l)) = INR n + INR n * (INR n - 1) * (mu * mu).
  Proof.
    induction n as [|n IH]; cbn [mean].
    - unfold total. cbn [map zsum fold_right INR]. ring.
    - rewrite (osum_ext N _ (fun b => (2 * INR n * mu) * (p b * IZR (eigenvalue s b)) + (1 + INR n + INR n * (INR n - 1) * (mu * mu)) * p b)).
      + rewrite osum_plus, !osum_scal, (proj2 P), S_INR. fold (average N p s). fold mu. ring.
      + intros b _.
        rewrite (mean_ext N n p _ (fun l => 1 + ((2 * IZR (eigenvalue s b)) * IZR (total s l) + IZR (total s l) * IZR (total s l)))).
        * rewrite mean_plus, mean_const by exact (proj2 P). rewrite mean_plus, mean_scal, first_moment, IH. ring.
        * intros l _. unfold total at 1 2. cbn [map zsum fold_right]. fold (zsum (map (eigenvalue s) l)). fold (total s l). rewrite plus_IZR.
          rewrite <- (eig_sq s b) at 1. rewrite mult_IZR. ring.
  Qed.
End Moments.

Lemma est_value N n s est : (0 < n)%nat -> (length s <= N)%nat -> estimates N n s est -> forall l, sample N n l -> est l = IZR (total s l) / INR n.
Proof.
  intros Hn Hs E l Hl. destruct (E l Hl) as [counts [q [T [M ->]]]]. destruct (counts_value N n s l counts Hn Hs Hl T) as [q' [M' V]].
  rewrite M in M'. injection M' as <-. exact V.
Qed.
Lemma n_pos n : (0 < n)%nat -> 0 < INR n.
Proof. intro H. apply lt_0_INR. exact H. Qed.
Theorem unbiased N n p s est : (0 < n)%nat -> (length s <= N)%nat -> distribution N p -> estimates N n s est -> mean N n p est = average N p s.
Proof.
  intros Hn Hs P E. rewrite (mean_ext N n p est (fun l => / INR n * IZR (total s l))).
  - rewrite mean_scal, (first_moment N p s P). field. apply Rgt_not_eq, n_pos. exact Hn.
  - intros l Hl. rewrite (est_value N n s est Hn Hs E l Hl). unfold Rdiv. ring.
Qed.
Theorem variance N n p s est : (0 < n)%nat -> (length s <= N)%nat -> distribution N p -> estimates N n s est ->
  mean N n p (fun l => (est l - average N p s) * (est l - average N p s)) = (1 - average N p s * average N p s) / INR n.
Proof.
  intros Hn Hs P E. set (mu := average N p s).
  rewrite (mean_ext N n p _ (fun l => (/ INR n * / INR n) * (IZR (total s l) * IZR (total s l)) + ((- 2 * mu * / INR n) * IZR (total s l) + mu * mu))).
  - rewrite mean_plus, mean_scal, mean_plus, mean_scal, mean_const, (first_moment N p s P), (second_moment N p s P) by exact (proj2 P). fold mu.
    field. apply Rgt_not_eq, n_pos. exact Hn.
  - intros l Hl. rewrite (est_value N n s est Hn Hs E l Hl). unfold Rdiv. ring.
Qed.
Theorem chebyshev N n p s est eps : (0 < n)%nat -> (length s <= N)%nat -> distribution N p -> estimates N n s est -> 0 < eps ->
  mean N n p (fun l => if Rle_dec eps (Rabs (est l - average N p s)) then 1 else 0) <= (1 - average N p s * average N p s) / (INR n * (eps * eps)).
Proof.
  intros Hn Hs P E He. set (mu := average N p s).
  apply Rle_trans with (mean N n p (fun l => (/ (eps * eps)) * ((est l - mu) * (est l - mu)))).
  - apply mean_le; [exact (proj1 P)|]. intros l _. assert (0 < eps * eps) by (apply Rmult_lt_0_compat; exact He).
    assert (0 < / (eps * eps)) by (apply Rinv_0_lt_compat; assumption).
    destruct (Rle_dec eps (Rabs (est l - mu))) as [L|L].
    + apply Rmult_le_reg_l with (eps * eps); [assumption|]. rewrite Rmult_1_r, <- Rmult_assoc, Rinv_r, Rmult_1_l by lra.
      pose proof (Rabs_pos (est l - mu)). replace ((est l - mu) * (est l - mu)) with (Rabs (est l - mu) * Rabs (est l - mu)).
      * apply Rmult_le_compat; lra.
      * rewrite <- Rabs_mult. apply Rabs_pos_eq. apply Rle_0_sqr.
    + apply Rmult_le_pos; [lra|apply Rle_0_sqr].
  - rewrite mean_scal. unfold mu. rewrite (variance N n p s est Hn Hs P E). right. pose proof (n_pos n Hn). field. split; lra.
Qed.

(** ** Born's rule *)
Lemma osum_fst N : forall (f : bits -> Cx), fst (sumbits N f) = osum N (fun b => fst (f b)).
Proof. induction N as [|N IH]; intro f; cbn [sumbits osum]; [reflexivity|]. rewrite <- !IH. reflexivity. Qed.
Lemma born_sum N (phi : bits -> Cx) (e : bits -> R) :
  osum N (fun b => born phi b * e (rev b)) = fst (sumbits N (fun b => cmul ((e b, 0) : Cx) (cmul (cconj (phi b)) (phi b)))).
Proof.
  rewrite <- (sumbits_rev Cx N). rewrite osum_fst. apply osum_ext. intros b _. unfold born. cbn. ring.
Qed.
Lemma born_distribution N (phi : bits -> Cx) : sumbits N (fun b => cmul (cconj (phi b)) (phi b)) = c1 -> distribution N (born phi).
Proof.
  intro H. split.
  - intro b. unfold born. apply Rplus_le_le_0_compat; apply Rle_0_sqr.
  - rewrite (osum_ext N _ (fun b => born phi b * (fun _ => 1) (rev b))) by (intros; ring). rewrite (born_sum N phi (fun _ => 1)).
    rewrite (sumbits_ext Cx N _ (fun b => cmul (cconj (phi b)) (phi b))); [rewrite H; reflexivity|]. intros b _. apply C_eq; cbn; ring.
Qed.
Lemma Crt_real : cconj Crt = Crt.
Proof. apply C_eq; cbn; ring. Qed.
Lemma born_average m p (psi : bits -> Cx) : agrees p m ->
  average (length m) (born (mvec (length m) (cmat (Crt : Cx) (length m) (basis_gates 0 m)) psi)) p = fst (expect (length m) (pmat p) psi).
Proof.
  intro A. pose proof (basis_average Cx Crt Crt_sq Crt_real m p psi A) as B. cbv zeta in B. rewrite <- B. clear B.
  set (phi := mvec _ _ psi). unfold average.
  rewrite (osum_ext (length m) _ (fun b => born phi b * (fun c => IZR (if outcome_parity p c then -1 else 1)) (rev b))) by reflexivity.
  rewrite (born_sum (length m) phi (fun c => IZR (if outcome_parity p c then -1 else 1))).
  f_equal. apply sumbits_ext. intros b _. unfold sgn. destruct (outcome_parity p b); apply C_eq; cbn; ring.
Qed.
