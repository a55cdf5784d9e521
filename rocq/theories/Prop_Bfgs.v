(** Properties C67 to C70: BFGS, L-BFGS and conjugate gradient directions. *)
From Coq Require Import Bool List Arith QArith Qabs Lia Lqa.
From Verif Require Import AcseModel AcseSpec BfgsModel BfgsSpec BfgsProofs BfgsProofs2 BfgsProofs3 CgProofs BfgsExample.
Import ListNotations.
Local Open Scope Q_scope.

(** * C67: BFGS. *)
(** The updated matrix maps the change of the gradient to the step taken (secant equation). *)
Theorem C67_secant : forall (n iter : nat) (Bi : list (list Q)) (g0 p : list Q) (alp : Q) (g1 : list Q) (Bi' : list (list Q)),
  square n Bi -> length g0 = n -> length p = n -> length g1 = n ->
  bfgs_update iter Bi g0 p alp g1 = Some Bi' ->
  square n Bi' /\ maps_to n Bi' (fun i => entry g1 i - entry g0 i) (fun i => alp * entry p i).
Proof.
  intros n iter Bi g0 p alp g1 Bi' HB L0 Lp L1 H. split.
  - exact (step_square n _ _ _ _ _ _ _ HB L0 Lp L1 H).
  - exact (step_secant n _ _ _ _ _ _ _ HB L0 Lp L1 H).
Qed.
Print Assumptions C67_secant.

(** Every run: if the line searches that succeed meet the curvature condition with a constant below 1, and the
    truncation keeps descent directions (C49), then no update divides by zero, the matrix stays symmetric and positive
    definite, and every direction searched is a descent direction. *)
Theorem C67_descent : forall (n : nat) (c2 : Q) (trunc : list Q -> list Q -> list Q) (line : nat -> list Q -> list Q -> line_out),
  c2 < 1 ->
  (forall p g, length p = n -> length g = n -> ip n g p < 0 -> length (trunc p g) = n /\ ip n g (trunc p g) < 0) ->
  (forall k g p, length g = n -> length p = n -> ip n g p < 0 -> l_err (line k g p) = false ->
     weak_step n c2 (l_alp (line k g p)) g p (l_grad (line k g p))) ->
  forall (k : nat) (g : list Q), length g = n -> nonzero n g ->
  exists a log, bfgs_run trunc line k (bfgs_init g) = Some (a, log) /\
    square n (b_Bi a) /\ symmetric n (b_Bi a) /\ positive n (b_Bi a) /\
    forall g' p', In (g', p') log -> ip n g' p' < 0.
Proof.
  intros n c2 trunc line Hc Ht Hl k g L N.
  destruct (good_run n c2 trunc line Hc Ht Hl k _ (good_init n g L N)) as (a & log & E & (H1 & H2 & H3 & _) & HL).
  exists a, log. split; [exact E|]. split; [exact H1|]. split; [exact H2|]. split; [exact H3|].
  intros g' p' I. exact (proj2 (HL g' p' I)).
Qed.
Print Assumptions C67_descent.

(** The update itself, with any direction: symmetry is kept, and positive definiteness if the gradient increased along
    the step. *)
Theorem C67_update_keeps : forall (n iter : nat) (Bi : list (list Q)) (g0 p : list Q) (alp : Q) (g1 : list Q) (Bi' : list (list Q)),
  square n Bi -> length g0 = n -> length p = n -> length g1 = n ->
  bfgs_update iter Bi g0 p alp g1 = Some Bi' ->
  (symmetric n Bi -> symmetric n Bi') /\
  (positive n Bi -> ip n g0 p < ip n g1 p -> 0 < alp -> positive n Bi').
Proof.
  intros n iter Bi g0 p alp g1 Bi' HB L0 Lp L1 H. split; [intro S; exact (step_symmetric n _ _ _ _ _ _ _ HB L0 Lp L1 H (or_introl S))|].
  intros P D A. refine (step_positive n _ _ _ _ _ _ _ HB L0 Lp L1 H (or_introl P) _).
  rewrite dot_vscale_r, dot_vsub, !(dot_ip n) by congruence. nra.
Qed.
Print Assumptions C67_update_keeps.

(** The first trial step is between 1/2 and 1 (BFGS) or 1/10 and 1 (conjugate gradient), whatever the energies. *)
Theorem C67_first_trial : forall (eps : Q) (hist : option (Q * Q)),
  (1 # 2) <= first_trial (1 # 2) eps hist <= 1 /\ (1 # 10) <= first_trial (1 # 10) eps hist <= 1.
Proof. intros. split; apply first_trial_range; split; reflexivity || discriminate. Qed.
Print Assumptions C67_first_trial.

(** Exact line searches on (x^2 + 2 y^2)/2 meet the hypotheses; two steps reach the minimum. *)
Example C67_example : nonzero 2 [1; 1] /\
  (forall k g p, length g = 2%nat -> length p = 2%nat -> ip 2 g p < 0 -> l_err (quad_line k g p) = false ->
     weak_step 2 (9 # 10) (l_alp (quad_line k g p)) g p (l_grad (quad_line k g p))) /\
  match bfgs_run (fun p _ => p) quad_line 5 (bfgs_init [1; 1]) with
  | Some (a, log) => (length log =? 2)%nat && b_done a && forallb (fun gp => Qltb (dot (fst gp) (snd gp)) 0) log
  | None => false
  end = true.
Proof.
  split; [exists 0%nat; split; [lia|discriminate]|]. split; [exact quad_line_weak|]. vm_compute. reflexivity.
Qed.
Example C67_secant_example : match bfgs_update 0 (ident 2) [1; 1] [-(1); -(1)] (1 # 2) [1 # 2; 0] with
  | Some B => Qeq_bool (dot (nth 0 B []) [-(1 # 2); -(1)]) (-(1 # 2)) && Qeq_bool (dot (nth 1 B []) [-(1 # 2); -(1)]) (-(1 # 2))
  | None => false
  end = true.
Proof. vm_compute. reflexivity. Qed.

(** * C68: L-BFGS. *)
(** With at most one stored pair, the stored vector is H g for the new gradient g, where H is symmetric, positive
    definite and maps the stored gradient change to the stored step; it is therefore a descent direction (with a
    minus sign).  Missing: more than one stored pair, where this is false (below). *)
Theorem C68_one_pair_partial : forall (n m : nat) (g1 s_k y_k s y r : list Q),
  length g1 = n -> length s = n -> length y = n -> length s_k = n -> length y_k = n -> (1 <= m)%nat ->
  0 < ip n y s -> 0 < ip n s_k y_k ->
  lb_direction m (MkLb [s] [y] [1 / dot y s]) g1 s_k y_k = Some r ->
  exists H, square n H /\ symmetric n H /\ positive n H /\ maps_to n H (entry y) (entry s) /\
    forall i, (i < n)%nat -> entry r i == inner n (mentry H i) (entry g1).
Proof.
  intros n m g1 s_k y_k s y r Lg Ls Ly Lsk Lyk Hm C Ck E. rewrite <- dot_ip in C, Ck by assumption.
  destruct (lb_one n m g1 s_k y_k s y r Lg Ls Ly Hm C Ck E) as [Hc V].
  set (c := 1 / (1 / dot s_k y_k * dot y_k y_k)) in *. exists (upd n (mscale c (ident n)) s y).
  assert (SQ : square n (upd n (mscale c (ident n)) s y)) by (apply square_upd; [apply square_scaled|exact Ls|exact Ly]).
  split; [exact SQ|]. split; [apply upd_symmetric; [apply square_scaled|exact Ls|exact Ly|apply symmetric_scaled]|].
  split; [apply upd_positive; [apply square_scaled|exact Ls|exact Ly|apply positive_scaled; exact Hc|exact C]|]. split.
  - intros i Hi. rewrite <- (mv_entry n) by assumption. apply veq_entry. apply upd_secant; try assumption; [apply square_scaled|lra].
  - intros i Hi. rewrite <- (mv_entry n) by assumption. apply veq_entry. exact V.
Qed.
Print Assumptions C68_one_pair_partial.

(** With two stored pairs of positive curvature the direction -r can be an ascent direction: the first loop uses the
    newest gradient change for every pair. *)
Theorem C68_ascent_refuted : exists (s1 y1 s2 y2 s_k y_k g1 : list Q),
  0 < dot y1 s1 /\ 0 < dot y2 s2 /\ 0 < dot y_k s_k /\
  match lb_direction 3 (MkLb [s1; s2] [y1; y2] [1 / dot y1 s1; 1 / dot y2 s2]) g1 s_k y_k with
  | Some r => Qltb 0 (dot g1 (vopp r)) | None => false end = true.
Proof.
  exists [-(1); -(1)], [0; -(1)], [0; 1], [-(1); 1], [2; 0], [1; 0], [-(1); -(1)].
  split; [reflexivity|]. split; [reflexivity|]. split; [reflexivity|]. vm_compute. reflexivity.
Qed.
Print Assumptions C68_ascent_refuted.

(** The newest pair is stored only after the direction is computed: there is a step (history empty, gradients y and 2y,
    step s) after which the direction is not -H g for any matrix H mapping the newest gradient change to the newest
    step. *)
Theorem C68_newest_pair_refuted : exists (g0 g1 s : list Q),
  let y := vsub g1 g0 in
  0 < dot y s /\
  exists r, lb_direction 3 (MkLb [] [] []) g1 s y = Some r /\
    forall H, square 2 H -> maps_to 2 H (entry y) (entry s) ->
      ~ (forall i, (i < 2)%nat -> entry r i == inner 2 (mentry H i) (entry g1)).
Proof.
  exists [1; 0], [2; 0], [1; 1]. cbn zeta. split; [reflexivity|]. eexists. split; [vm_compute; reflexivity|].
  intros H _ M A. specialize (M 1%nat ltac:(lia)). specialize (A 1%nat ltac:(lia)).
  unfold entry in *. cbn [inner nth vsub] in *. lra.
Qed.
Print Assumptions C68_newest_pair_refuted.

(** After any sequence of accepted pairs the history holds the newest m of them, in order, each step beside its own
    gradient change and curvature, and the next direction can be computed unless it divides by zero. *)
Theorem C68_history : forall (m : nat) (pairs : list (list Q * list Q)), (1 <= m)%nat ->
  exists older kept, pairs = older ++ kept /\ length kept = Nat.min m (length pairs) /\
    fold_left (fun h p => lb_store m h (fst p) (snd p)) pairs (MkLb [] [] []) =
      MkLb (map fst kept) (map snd kept) (map (fun p => 1 / dot (snd p) (fst p)) kept).
Proof.
  intros m pairs Hm. destruct (last_n_split m pairs) as [older [E L]]. exists older, (last_n m pairs).
  split; [exact E|]. split; [exact L|]. exact (stored_eq m pairs Hm).
Qed.
Print Assumptions C68_history.

Theorem C68_direction_exists : forall (m : nat) (pairs : list (list Q * list Q)) (g s_k y_k : list Q),
  (1 <= m)%nat -> ~ dot s_k y_k == 0 -> ~ dot y_k y_k == 0 ->
  exists r, lb_direction m (fold_left (fun h p => lb_store m h (fst p) (snd p)) pairs (MkLb [] [] [])) g s_k y_k = Some r.
Proof. exact stored_direction. Qed.
Print Assumptions C68_direction_exists.

Example C68_history_example :
  lb_y (fold_left (fun h p => lb_store 2 h (fst p) (snd p)) [([1], [2]); ([3], [4]); ([5], [6])] (MkLb [] [] [])) = [[4]; [6]].
Proof. reflexivity. Qed.

Example C68_example : match lb_direction 3 (MkLb [[1; 1]] [[1; 2]] [1 # 3]) [3; 1] [1; 0] [2; 1] with
  | Some r => Qltb (dot [3; 1] (vopp r)) 0 | None => false end = true.
Proof. vm_compute. reflexivity. Qed.

(** * C69: conjugate gradients. *)
(** Every update, every run without truncation: with strong Wolfe line searches (constant 1/4, as passed by the code)
    no update divides by zero and every direction p satisfies 2/5 |g|^2 <= -g.p <= 8/5 |g|^2. *)
Theorem C69_sufficient_descent : forall (n : nat) (kind : cg_kind) (line : nat -> list Q -> list Q -> line_out),
  (forall k g p, length g = n -> length p = n -> ip n g p < 0 -> l_err (line k g p) = false ->
     strong_step n (1 # 4) g p (l_grad (line k g p))) ->
  forall (k : nat) (g : list Q), length g = n -> nonzero n g ->
  exists a log, cg_run kind (fun p _ => p) line k (cg_init g) = Some (a, log) /\
    forall g' p', In (g', p') log -> 0 < ip n g' g' /\ (2 # 5) * ip n g' g' <= - ip n g' p' <= (8 # 5) * ip n g' g'.
Proof.
  intros n kind line Hl k g L N.
  destruct (fine_run n kind line Hl k (cg_init g) (fine_init n g L N)) as (a & log & E & _ & HL).
  exists a, log. split; [exact E|]. intros g' p' I. destruct (HL g' p' I) as (H1 & _ & H3 & H4). split; [|exact H4].
  rewrite <- dot_ip by exact H1. apply (nonzero_pos n); assumption.
Qed.
Print Assumptions C69_sufficient_descent.

(** The next direction is -g1 + beta p with the named beta, or -g1 when successive gradients overlap by more than half. *)
Theorem C70_update_partial : forall (kind : cg_kind) (g0 g1 p p' : list Q), kind <> HZ ->
  0 < dot g1 g1 -> cg_next kind g0 g1 p = Some p' ->
  let y := vsub g1 g0 in
  ((1 # 2) * dot g1 g1 < Qabs (dot g1 g0) /\ p' = vadd (vopp g1) (vscale 0 p)) \/
  (Qabs (dot g1 g0) <= (1 # 2) * dot g1 g1 /\ exists beta, p' = vadd (vopp g1) (vscale beta p) /\
     match kind with
     | FR => beta * dot g0 g0 == dot g1 g1
     | HS => beta * dot p y == dot g1 y
     | PR => beta * dot g0 g0 == dot g1 y
     | PRplus => (0 <= beta /\ beta * dot g0 g0 == dot g1 y) \/ (beta == 0 /\ dot g1 y <= 0)
     | HZ => False
     end).
Proof. intros kind g0 g1 p p'. apply next_spec. Qed.
Print Assumptions C70_update_partial.

(** 'HZ' never uses its formula: the code refers to undefined names, the exception is caught and beta is 0. *)
Theorem C70_hz_refuted : exists (g0 g1 p : list Q), let y := vsub g1 g0 in
  ~ dot p y == 0 /\ 0 < dot g1 g1 /\ Qabs (dot g1 g0) <= (1 # 2) * dot g1 g1 /\
  exists p', cg_next HZ g0 g1 p = Some p' /\
    forall beta, beta * (dot p y * dot p y) == dot y g1 * dot p y - 2 * dot y y * dot p g1 ->
      ~ entry p' 0 == - entry g1 0 + beta * entry p 0.
Proof.
  exists [1; 0], [1 # 2; 2], [-(1); 0]. cbn zeta. split; [discriminate|]. split; [reflexivity|]. split; [discriminate|].
  eexists. split; [reflexivity|]. intros beta B A. cbn in B. unfold entry in A. cbn in A. lra.
Qed.
Print Assumptions C70_hz_refuted.

Example C69_example : nonzero 2 [1; 1] /\
  (forall k g p, length g = 2%nat -> length p = 2%nat -> ip 2 g p < 0 -> l_err (quad_line k g p) = false ->
     strong_step 2 (1 # 4) g p (l_grad (quad_line k g p))) /\
  forallb (fun kind => match cg_run kind (fun p _ => p) quad_line 4 (cg_init [1; 1]) with
    | Some (_, log) => (2 <=? length log)%nat && forallb (fun gp => Qltb (dot (fst gp) (snd gp)) 0) log
    | None => false end) [FR; HS; PR; PRplus; HZ] = true.
Proof.
  split; [exists 0%nat; split; [lia|discriminate]|]. split; [exact quad_line_strong|]. vm_compute. reflexivity.
Qed.
