(** Properties C109 to C111 and C145: the optimizer 'bfgs'. *)
From Coq Require Import Bool List Arith QArith Qabs Lia Lqa.
From Verif Require Import AcseModel AcseSpec BfgsModel BfgsSpec BfgsProofs BfgsProofs2 GBfgsModel GBfgsSpec GBfgsProofs GBfgsProofs2 GBfgsProofs3
  GBfgsProofs4 GBfgsProofs5 GBfgsProofs6.
Import ListNotations.
Local Open Scope Q_scope.

(** * C109: the line search. *)
(** A step returned by the search from [x] along [p] lies strictly between 0 and 5, its value is the value of the
    objective there, and it meets both strong Wolfe conditions, with constants 3/5 and 9/10, relative to the reference
    value and slope the search was given. *)
Theorem C109_wolfe : forall (f : list Q -> Q) (g : list Q -> list Q) (x p : list Q) (fz gz : Q) (fuel : nat) (a v : Q),
  gz <= 0 -> gb_line f g x p fz gz fuel = Some (Some (a, v)) ->
  let z := vadd x (vscale a p) in
  0 < a < 5 /\ v = f z /\ decrease (3 # 5) fz gz a v /\ strong_curvature (9 # 10) gz (dot (g z) p).
Proof.
  intros f g x p fz gz fuel a v Hg H. cbn zeta. destruct (line_ok _ _ _ _ _ _ _ _ _ H) as (A & B & C & D).
  unfold phi, dphi, gb_c1, gb_c2 in *. split; [exact A|]. split; [exact B|]. split.
  - unfold decrease. assert (E : (3 # 5) == (6 # 10)) by reflexivity. rewrite E. exact C.
  - unfold strong_curvature. rewrite (Qabs_neg gz Hg). lra.
Qed.
Print Assumptions C109_wolfe.

(** The search stops (with a step, or raising after twenty halvings) exactly when one of the steps 1, 3, 4, 9/2, ...
    fails the sufficient decrease or has a slope of at least 9/10 of the first one; it looks at no more of these steps
    than the first such one. *)
Theorem C109_stops : forall (f : list Q -> Q) (g : list Q -> list Q) (x p : list Q) (fz gz : Q) (fuel : nat), gz <= 0 ->
  (gb_line f g x p fz gz fuel <> None <->
   exists k, (k < fuel)%nat /\
     let z := vadd x (vscale (trial k) p) in
     ~ decrease (6 # 10) fz gz (trial k) (f z) \/ weak_curvature (9 # 10) gz (dot (g z) p)).
Proof.
  intros f g x p fz gz fuel Hg. rewrite line_done. split; intros (k & Hk & E); exists k; (split; [exact Hk|]).
  - apply stops_spec in E; assumption.
  - apply stops_spec; assumption.
Qed.
Print Assumptions C109_stops.
Theorem C109_trial : forall k, inject_Z (2 ^ Z.of_nat k) * (5 - trial k) == 4.
Proof. exact trial_eq. Qed.
Print Assumptions C109_trial.

(** On (x^2 + 2 y^2)/2 from (1,1) the search along (-1,-2) needs two halvings of the first step. *)
Definition q2 (x : list Q) : Q := let a := Qred (nth 0 x 0) in let b := Qred (nth 1 x 0) in Qred ((1 # 2) * a * a + b * b).
Definition q2g (x : list Q) : list Q := let a := Qred (nth 0 x 0) in let b := Qred (nth 1 x 0) in [a; 2 * b].
Example C109_example : match gb_line q2 q2g [1; 1] [-(1); -(2)] (3 # 2) (-(5)) 1 with
  | Some (Some (a, v)) => Qeq_bool a (1 # 4) && Qeq_bool v (17 # 32) | _ => false end = true.
Proof. vm_compute. reflexivity. Qed.

(** * C110: the matrices. *)
(** Any objective and gradient function, any start and any number of steps: the inverse Hessian is always symmetric and
    positive definite, so that every direction searched from a non-zero gradient is a descent direction, and every step
    lies along it. *)
Theorem C110_positive : forall (f : list Q -> Q) (g : list Q -> list Q) (n : nat),
  (forall v, length v = n -> length (g v) = n) ->
  forall (fuel k : nat) (prior : option Q) (start : list Q) (l : list gb), length start = n ->
  gb_run f g fuel k prior start = Some (Some l) ->
  length l = S k /\
  (forall a, In a l -> square n (gb_Bi a) /\ symmetric n (gb_Bi a) /\ positive n (gb_Bi a)) /\
  (forall a b, follows l a b -> nonzero n (gb_g a) ->
     ip n (gb_g a) (gb_s b) < 0 /\
     exists alp, 0 < alp < 5 /\ forall i, (i < n)%nat -> entry (gb_s b) i == - alp * inner n (mentry (gb_Bi a) i) (entry (gb_g a))).
Proof.
  intros f g n Lg fuel k prior start l L H. destruct (run_ok f g n Lg _ _ _ _ _ L H) as (_ & LL & I1 & I2).
  split; [exact LL|]. split; [intros a I; destruct (I1 a I) as (_ & _ & _ & A & B & C & _); auto|].
  intros a b FO NZ. destruct (I2 a b FO) as ((alp & Ha & Es) & _ & _ & _ & _ & _ & D & _).
  destruct (follows_in _ _ _ FO) as [Ia Ib]. destruct (I1 a Ia) as (_ & La & _ & Sq & _). destruct (I1 b Ib) as (_ & _ & Lb & _).
  split; [rewrite <- dot_ip by assumption; apply D; exact NZ|]. exists alp. split; [exact Ha|]. intros i Hi.
  rewrite <- (mv_entry n) by assumption. rewrite Es, entry_vscale. unfold entry, vopp.
  destruct (Nat.lt_ge_cases i (length (mv (gb_Bi a) (gb_g a)))) as [Q|Q].
  - rewrite (nth_map0 _ _ _ 0) by exact Q. ring.
  - rewrite !nth_overflow by (rewrite ?map_length; exact Q). ring.
Qed.
Print Assumptions C110_positive.

(** Each new inverse maps the change of the gradient to the step, and the change is at least a tenth of the first
    slope along the step, unless their product is below 1e-30. *)
Theorem C110_secant : forall (f : list Q -> Q) (g : list Q -> list Q) (n : nat),
  (forall v, length v = n -> length (g v) = n) ->
  forall (fuel k : nat) (prior : option Q) (start : list Q) (l : list gb), length start = n ->
  gb_run f g fuel k prior start = Some (Some l) ->
  forall a b, follows l a b ->
  (1 # 10) * - ip n (gb_g a) (gb_s b) <= inner n (change (gb_g b) (gb_g a)) (entry (gb_s b)) /\
  ((1 # 10 ^ 30) <= inner n (change (gb_g b) (gb_g a)) (entry (gb_s b)) ->
   maps_to n (gb_Bi b) (change (gb_g b) (gb_g a)) (entry (gb_s b))).
Proof.
  intros f g n Lg fuel k prior start l L H a b FO. destruct (run_ok f g n Lg _ _ _ _ _ L H) as (_ & _ & I1 & I2).
  destruct (I2 a b FO) as (_ & _ & _ & EB & _ & _ & _ & Y & _). destruct (follows_in _ _ _ FO) as [Ia Ib].
  destruct (I1 a Ia) as (_ & La & _ & Sq & _). destruct (I1 b Ib) as (_ & Lb & Ls & Sb & _).
  rewrite change_dot, <- dot_ip by assumption. split; [exact Y|]. intro C.
  assert (Ly : length (vsub (gb_g b) (gb_g a)) = n) by (rewrite vsub_length; congruence).
  assert (V := inv_secant n _ _ _ Sq Ls Ly C). rewrite <- EB in V. intros i Hi. rewrite <- (veq_entry _ _ i V).
  rewrite (mv_entry n) by assumption. apply inner_congr; [reflexivity|]. intros j Hj. rewrite entry_vsub by congruence. reflexivity.
Qed.
Print Assumptions C110_secant.

(** The Hessian and the inverse Hessian, which are updated separately, remain inverse to each other as long as no
    denominator falls below 1e-30. *)
Theorem C110_inverse : forall (f : list Q -> Q) (g : list Q -> list Q) (n : nat),
  (forall v, length v = n -> length (g v) = n) ->
  forall (fuel k : nat) (prior : option Q) (start : list Q) (l : list gb), length start = n ->
  gb_run f g fuel k prior start = Some (Some l) ->
  (forall a l', l = a :: l' -> (1 # 10 ^ 30) <= inner n (change (gb_g a) (g start)) (entry (gb_s a)) /\
     (1 # 10 ^ 30) <= form n (ident n) (gb_s a) (gb_s a)) ->
  (forall a b, follows l a b -> (1 # 10 ^ 30) <= inner n (change (gb_g b) (gb_g a)) (entry (gb_s b)) /\
     (1 # 10 ^ 30) <= form n (gb_B a) (gb_s b) (gb_s b)) ->
  forall a, In a l -> symmetric n (gb_B a) /\ inverse n (gb_B a) (gb_Bi a).
Proof.
  intros f g n Lg fuel k prior start l L H C0 C a I. destruct (run_paired f g n Lg _ _ _ _ _ L H C0 C a I) as (P1 & P2 & P3).
  split; [exact P2|]. destruct (run_ok f g n Lg _ _ _ _ _ L H) as (_ & _ & I1 & _). destruct (I1 a I) as (_ & _ & _ & S & _).
  apply inverse_of; assumption.
Qed.
Print Assumptions C110_inverse.

Definition reading {A B : Type} (h : A -> B) (r : option (option (list A))) : list B :=
  match r with Some (Some l) => map h l | _ => [] end.
Example C110_example : reading (fun a => (map Qred (gb_x a), Qred (gb_best a), map (map Qred) (gb_B a), map (map Qred) (gb_Bi a)))
    (gb_run q2 q2g 3 1 None [1; 1]) =
  [([3 # 4; 1 # 2], 17 # 32, [[41 # 45; 2 # 45]; [2 # 45; 89 # 45]], [[89 # 81; -2 # 81]; [-2 # 81; 41 # 81]]);
   ([227 # 648; 83 # 324], 11849 # 93312,
     [[88571401 # 91592045; 4951562 # 91592045]; [4951562 # 91592045; 175067289 # 91592045]],
     [[175067289 # 169026001; -4951562 # 169026001]; [-4951562 # 169026001; 88571401 # 169026001]])].
Proof. vm_compute. reflexivity. Qed.

(** * C111: progress. *)
(** The reported value and gradient are those of the reported point.  If no point was taken for stuck, each step starts
    at the previous point and decreases the objective by 3/5 of the slope along the step, strictly when the gradient is
    not zero; no later value exceeds an earlier one.  Missing: runs in which a point is taken for stuck, where the
    conclusion is false (below), and a guarantee that the line search returns. *)
Theorem C111_progress_partial : forall (f : list Q -> Q) (g : list Q -> list Q) (n : nat),
  (forall v, length v = n -> length (g v) = n) ->
  forall (fuel k : nat) (start : list Q) (l : list gb), length start = n ->
  gb_run f g fuel k None start = Some (Some l) ->
  (forall a, In a l -> gb_best a = f (gb_x a) /\ gb_g a = g (gb_x a)) /\
  (forall a l', l = a :: l' -> gb_x a = vadd start (gb_s a) /\ gb_best a <= f start + (6 # 10) * ip n (g start) (gb_s a) /\
     (nonzero n (g start) -> gb_best a < f start)) /\
  (forall a b, follows l a b -> gb_nstuck b = 0%nat ->
     gb_x b = vadd (gb_x a) (gb_s b) /\ gb_best b <= gb_best a + (6 # 10) * ip n (gb_g a) (gb_s b) /\
     (nonzero n (gb_g a) -> gb_best b < gb_best a)) /\
  ((forall b, In b l -> gb_nstuck b = 0%nat) ->
   forall l1 a l2 b l3, l = l1 ++ a :: l2 ++ b :: l3 -> gb_best b <= gb_best a).
Proof.
  intros f g n Lg fuel k start l L H. destruct (run_ok f g n Lg _ _ _ _ _ L H) as ((a0 & l0 & El & M0) & _ & I1 & I2).
  split; [intros a I; destruct (I1 a I) as (_ & _ & _ & _ & _ & _ & A & B); auto|]. split; [|split].
  - intros a l' E. assert (a = a0) as -> by congruence. destruct M0 as (_ & Ex & _ & _ & D & _ & N & _ & Z).
    destruct (I1 a0) as (_ & _ & Ls & _); [rewrite El; left; reflexivity|].
    rewrite <- dot_ip by (try assumption; apply Lg; exact L). split; [exact Ex|]. split; [exact D|].
    intro NZ. specialize (N NZ). lra.
  - intros a b FO NS. destruct (I2 a b FO) as (_ & Ex & _ & _ & D & _ & N & _ & Z). destruct (follows_in _ _ _ FO) as [Ia Ib].
    destruct (I1 a Ia) as (_ & La & _). destruct (I1 b Ib) as (_ & _ & Lb & _). unfold from in Ex. rewrite NS in Ex.
    rewrite <- dot_ip by assumption. split; [exact Ex|]. split; [exact D|]. intro NZ. specialize (N NZ). lra.
  - exact (run_best f g n Lg _ _ _ _ _ L H).
Qed.
Print Assumptions C111_progress_partial.

(** The optimizer raises on a strictly convex parabola before it has converged: the first step lands on 0, which is
    compared with the zero rows of the history that were never written, taken for stuck and moved without recomputing
    the value and the gradient. *)
Definition q1 (x : list Q) : Q := Qred ((4 # 10) * nth 0 x 0 * nth 0 x 0 + (2 # 10) * nth 0 x 0).
Definition q1g (x : list Q) : list Q := [Qred ((8 # 10) * nth 0 x 0 + (2 # 10))].
Theorem C111_stuck_refuted : exists (start : list Q) (a : gb),
  gb_run q1 q1g 5 0 None start = Some (Some [a]) /\ Qeq_bool (entry (gb_x a) 0) 0 = true /\
  Qeq_bool (entry (gb_g a) 0) (1 # 5) = true /\ gb_run q1 q1g 5 1 None start = Some None.
Proof. exists [1]. eexists. split; [reflexivity|]. split; [reflexivity|]. split; [reflexivity|]. vm_compute. reflexivity. Qed.
Print Assumptions C111_stuck_refuted.

(** On a function that decreases at a constant rate up to the longest step the search never returns. *)
Theorem C111_endless_refuted : exists (f : list Q -> Q) (g : list Q -> list Q) (start : list Q),
  forall fuel k, gb_run f g fuel k None start = None.
Proof.
  exists (fun x => - nth 0 x 0), (fun _ => [-(1)]), [0]. intros fuel k. unfold gb_run, gb_init, gb_move.
  set (r := gb_line _ _ _ _ _ _ _). assert (E : r = None); [|rewrite E; reflexivity].
  destruct r as [o|] eqn:R; [exfalso|reflexivity].
  assert (S : r <> None) by congruence. unfold r in S. clear R o r. rewrite C109_stops in S.
  - destruct S as (j & _ & [D|C]).
    + apply D. unfold decrease. cbn [length ident seq map mv dot vopp vadd vscale nth Nat.eqb]. assert (E := trial_eq j).
      assert (P : 0 < trial j). { clear. induction j as [|j IH]; cbn [trial]; lra. } lra.
    + unfold weak_curvature in C. cbn [length ident seq map mv dot vopp vadd vscale nth Nat.eqb] in C. lra.
  - cbn [length ident seq map mv dot vopp nth Nat.eqb]. lra.
Qed.
Print Assumptions C111_endless_refuted.

(** A second [initialize] of the same object searches from the value left by the first run: here it raises at a point
    from which a new object takes a step. *)
Theorem C111_reuse_refuted : exists (start : list Q) (old : Q) (a : gb),
  gb_run q1 q1g 5 0 None start = Some (Some [a]) /\ gb_run q1 q1g 5 0 (Some old) start = Some None.
Proof. exists [1], (-(1)). eexists. split; [reflexivity|]. vm_compute. reflexivity. Qed.
Print Assumptions C111_reuse_refuted.

Example C111_example : map (fun v => Qred v) (reading gb_best (gb_run q2 q2g 3 1 None [1; 1])) = [17 # 32; 11849 # 93312] /\
  reading gb_nstuck (gb_run q2 q2g 3 1 None [1; 1]) = [0%nat; 0%nat] /\ Qeq_bool (q2 [1; 1]) (3 # 2) = true.
Proof. vm_compute. repeat split. Qed.

(** * C145: the stuck check. *)
(** In every run, the step from point i is taken for stuck exactly when the latest point with number 0, 3, 6, ... and the
    latest with number 2, 5, 8, ... are closer than 1e-15, a missing point counting as zero.  The step then starts half
    of the previous step back; otherwise it starts at point i. *)
Theorem C145_window : forall (f : list Q -> Q) (g : list Q -> list Q) (fuel k : nat) (prior : option Q) (start : list Q) (l : list gb),
  gb_run f g fuel k prior start = Some (Some l) -> length l = S k /\
  forall i, (i < k)%nat -> exists b c, nth_error l i = Some b /\ nth_error l (S i) = Some c /\
    let near := dist2 (latest (length start) (map gb_x l) i 0) (latest (length start) (map gb_x l) i 2) < (1 # (10 ^ 15)) * (1 # (10 ^ 15)) in
    (near -> gb_nstuck c = 1%nat /\ gb_x c = vadd (vsub (gb_x b) (vscale (1 # 2) (gb_s b))) (gb_s c)) /\
    (~ near -> gb_nstuck c = 0%nat /\ gb_x c = vadd (gb_x b) (gb_s c)).
Proof. exact stuck_window. Qed.
Print Assumptions C145_window.
Definition lin1 (x : list Q) : Q := 3 + 2 * nth 0 x 0.
Definition lin1g (x : list Q) : list Q := [Qred ((1 + nth 0 x 0) / 2)].
Example C145_example : reading gb_nstuck (gb_run lin1 lin1g 5 1 None [1]) = [0%nat; 1%nat] /\
  map (map Qred) (reading gb_x (gb_run lin1 lin1g 5 1 None [1])) = [[0]; [-(1) # 2]] /\
  reading gb_nstuck (gb_run q2 q2g 3 1 None [1; 1]) = [0%nat; 0%nat].
Proof. vm_compute. repeat split. Qed.
