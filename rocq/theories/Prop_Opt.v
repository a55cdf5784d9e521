(** C42, C43, C45, C46, C61-C63: the optimisers of hqca/opts. *)
From Coq Require Import Bool List Arith QArith Qabs Lia Permutation.
From Verif Require Import OptModel OptSpec OptProofs OptProofs2 OptProofs3.
Import ListNotations.
Local Open Scope nat_scope.

(** The squared norm, for the examples. *)
Definition demo_f (x : point) : QOrd := sqnorm x.

(** C42. For every objective, parameters, starting simplex, sequence of random draws and number of steps the method
    does not fail, the best value is the objective at the best point, is not above any simplex value, is not above
    the best value at any earlier moment, and the counter is the number of objective calls. *)
Theorem C42_nelder_mead :
  forall (O : Ord) (f : point -> O) (alpha beta gamma delta : Q) (N : nat) (rows : list point) (us vs : list Q),
    N <> 0 -> length rows = S N ->
    exists st0 st1 st2,
      nm_init f N rows = Some st0 /\
      steps (nm_step f alpha beta gamma delta) N us st0 = Some st1 /\
      steps (nm_step f alpha beta gamma delta) N (us ++ vs) st0 = Some st2 /\
      on_graph f (best st2) /\
      (forall p, In p (simp st2) -> on_graph f p /\ oleb (snd (best st2)) (snd p) = true) /\
      oleb (snd (best st2)) (snd (best st1)) = true /\
      (forall x, In x rows -> oleb (snd (best st2)) (f x) = true) /\
      calls st2 = length (log st2).
Proof.
  intros O f alpha beta gamma delta N rows us vs HN L.
  destruct (nm_init_good O f N rows HN L) as [st0 [E0 [G0 [_ B0]]]].
  destruct (nm_steps_good O f alpha beta gamma delta N us st0 HN G0) as [st1 [E1 [G1 L1]]].
  destruct (nm_steps_good O f alpha beta gamma delta N vs st1 HN G1) as [st2 [E2 [G2 L2]]].
  exists st0, st1, st2. split; [exact E0|split; [exact E1|split; [now rewrite steps_app, E1|]]].
  split; [apply (g_simp _ _ _ _ G2); apply nth_error_In with 0; apply (g_best _ _ _ _ G2)|].
  split; [intros p Hp; split; [now apply (g_simp _ _ _ _ G2)|now apply (g_min _ _ _ _ G2)]|].
  split; [exact L2|split; [|apply (g_calls _ _ _ _ G2)]].
  intros x Hx. apply oleb_trans with (snd (best st0)); [|now apply B0]. now apply oleb_trans with (snd (best st1)).
Qed.
Print Assumptions C42_nelder_mead.

(** C42, variant 'lnm' (Lagarias), as long as no step raises. *)
Theorem C42_lagarias_partial :
  forall (O : Ord) (f : point -> O) (alpha beta gamma delta : Q) (N : nat) (rows : list point) (us : list Q) (st0 st1 : nm O),
    N <> 0 -> length rows = S N -> nm_init f N rows = Some st0 ->
    steps (lag_step f alpha beta gamma delta) N us st0 = Some st1 ->
    on_graph f (best st1) /\ oleb (snd (best st1)) (snd (best st0)) = true /\ calls st1 = length (log st1).
Proof.
  intros O f alpha beta gamma delta N rows us st0 st1 HN L E0 E1.
  destruct (nm_init_good O f N rows HN L) as [st [E [G _]]]. rewrite E0 in E. inversion E. subst st.
  destruct (lag_steps_good O f alpha beta gamma delta N us st0 st1 HN G E1) as [G1 L1].
  split; [apply (g_simp _ _ _ _ G1); apply nth_error_In with 0; apply (g_best _ _ _ _ G1)|].
  split; [exact L1|apply (g_calls _ _ _ _ G1)].
Qed.
Print Assumptions C42_lagarias_partial.

(** C42, variant 'lnm': a step can raise (the attribute [pr_o] read in lagarias.py l.29 does not exist). *)
Theorem C42_lagarias_step_refuted :
  exists (f : point -> NatOrd) (rows : list point) (st : nm NatOrd),
    nm_init f 1 rows = Some st /\ lag_step f 1 2 (1 # 2) (1 # 2) 1 0 st = None.
Proof.
  exists (fun x => match x with q :: _ => if Qeq_bool q 1 then 1 else if Qeq_bool q 0 then 2 else if Qeq_bool q 2 then 0 else 5 | [] => 0 end).
  exists [[0%Q]; [1%Q]]. eexists. split; [vm_compute; reflexivity|vm_compute; reflexivity].
Qed.
Print Assumptions C42_lagarias_step_refuted.

Example C42_case :
  match nm_init demo_f 2 (old_rows [3%Q; 4%Q] [0%Q; 0%Q] (200 # 99)) with
  | Some st0 => match steps (nm_step demo_f 1 2 (1 # 2) (1 # 2)) 2 [0%Q; 0%Q] st0 with
                | Some st1 => (Qeq_bool (snd (best st0)) 25, oltb (snd (best st1)) (snd (best st0)), calls st1)
                | None => (false, false, 0)
                end
  | None => (false, false, 0)
  end = (true, true, 6).
Proof. vm_compute. reflexivity. Qed.

(** C43. The ordering permutes the pairs, and puts a smallest value first, for every simplex. *)
Theorem C43_order_pairs :
  forall (O : Ord) (s : list (point * O)),
    Permutation s (order_points s) /\
    (forall b, nth_error (order_points s) 0 = Some b -> lower_bound (snd b) (map snd s)).
Proof.
  intros O s. split; [apply order_points_perm|]. intros b Hb w Hw. apply in_map_iff in Hw. destruct Hw as [p [<- Hp]].
  exact (order_points_head O s b Hb p Hp).
Qed.
Print Assumptions C43_order_pairs.
(** C43. Sorted for at most three vertices. *)
Theorem C43_order_sorted_partial :
  forall (O : Ord) (s : list (point * O)), length s <= 3 -> ascending (map snd (order_points s)).
Proof. exact order_points_sorted3. Qed.
Print Assumptions C43_order_sorted_partial.
(** C43. Not sorted in general: with a tie at four vertices, without ties at five. *)
Theorem C43_order_refuted :
  exists s : list (point * NatOrd),
    length s = 5 /\ NoDup (map snd s) /\ ~ ascending (map snd (order_points s)).
Proof.
  exists (map (fun v => ([], v)) [2; 3; 4; 0; 1]). split; [reflexivity|split].
  - repeat constructor; cbn; intuition lia.
  - intro H. specialize (H 2 3 3 1 ltac:(lia) eq_refl eq_refl). discriminate H.
Qed.
Print Assumptions C43_order_refuted.
Theorem C43_order_four_refuted :
  exists s : list (point * NatOrd), length s = 4 /\ ~ ascending (map snd (order_points s)).
Proof.
  exists (map (fun v => ([], v)) [1; 2; 0; 0]). split; [reflexivity|].
  intro H. specialize (H 1 2 1 0 ltac:(lia) eq_refl eq_refl). discriminate H.
Qed.
Print Assumptions C43_order_four_refuted.
Example C43_case : map snd (order_points (O := NatOrd) [([1%Q], 5); ([2%Q], 1); ([3%Q], 3)]) = [1; 3; 5].
Proof. reflexivity. Qed.

(** C45. Bisecting search: when the given left value is the objective at the left end, then after any number of steps
    the endpoint values are the objective at the endpoints, the reported pair is on the objective, the best value is
    not above any earlier one, and the bracket has been halved at each step. *)
Theorem C45_bisecting :
  forall (O : Ord) (f : point -> O) (x0 : point) (fuel : nat) (shift unity : Q) (vl : O) (b : bis O) (m n : nat),
    vl = f (vscal ((0 + shift) * unity) x0) -> bis_init f x0 fuel shift unity vl = Some b ->
    let b1 := bis_run O f x0 m b in let b2 := bis_run O f x0 (m + n) b in
    fl b2 = f (vscal (b_l b2) x0) /\ fr b2 = f (vscal (b_r b2) x0) /\
    snd (bis_best b2) = f (vscal (fst (bis_best b2)) x0) /\
    oleb (snd (bis_best b2)) (snd (bis_best b1)) = true /\ oleb (snd (bis_best b2)) vl = true /\
    ((b_r b2 - b_l b2) == (1 # 2) ^ Z.of_nat (m + n) * (b_r b - b_l b))%Q.
Proof.
  intros O f x0 fuel shift unity vl b m n Hv E b1 b2.
  destruct (bis_grow_bracket O f x0 fuel _ _ vl b Hv E) as [B0 L0].
  assert (Eb : b2 = bis_run O f x0 n b1).
  { unfold b1, b2. clear. revert b. induction m as [|m IH]; intro b; [reflexivity|]. cbn. apply IH. }
  destruct (bis_run_bracket O f x0 m b B0) as [B1 L1]. fold b1 in B1, L1.
  destruct (bis_run_bracket O f x0 n b1 B1) as [B2 L2]. rewrite <- Eb in B2, L2.
  destruct (bis_best_val O f x0 b1 B1) as [V1 [M1 M1']]. destruct (bis_best_val O f x0 b2 B2) as [V2 [M2 M2']].
  split; [apply B2|split; [apply B2|split; [exact V2|split; [|split]]]].
  - apply oleb_trans with (fl b2); [exact M2|]. now apply oleb_trans with (fl b1).
  - apply oleb_trans with (fl b2); [exact M2|]. apply oleb_trans with (fl b1); [exact L2|]. now apply oleb_trans with (fl b).
  - apply bis_run_width.
Qed.
Print Assumptions C45_bisecting.
(** C45. With a shift the left value (taken at zero) does not belong to the left end. *)
Theorem C45_bisecting_shift_refuted :
  exists (f : point -> NatOrd) (x0 : point) (shift unity : Q) (b : bis NatOrd),
    bis_init f x0 5 shift unity (f (vscal 0 x0)) = Some b /\ fl b <> f (vscal (b_l b) x0).
Proof.
  exists (fun x => match x with q :: _ => Z.abs_nat (Qnum (Qred q)) | [] => 0 end), [1%Q], 1%Q, 1%Q. eexists.
  split; [vm_compute; reflexivity|]. vm_compute. discriminate.
Qed.
Print Assumptions C45_bisecting_shift_refuted.
(** C45. The search for a right end does not stop when the objective keeps decreasing. *)
Theorem C45_bisecting_unbounded :
  forall (O : Ord) (f : point -> O) (x0 : point) (al ar : Q) (vl : O),
    (forall a, oltb (f (vscal (a * 2) x0)) (f (vscal a x0)) = true) -> oltb (f (vscal ar x0)) vl = true ->
    forall fuel, bis_grow f x0 fuel al ar vl = None.
Proof. intros O f x0 al ar vl H H1 fuel. now apply bis_grow_forever. Qed.
Print Assumptions C45_bisecting_unbounded.
Example C45_case : exists b, bis_init (O := NatOrd) (fun x => match x with q :: _ => Z.abs_nat (Qnum (Qred (10 - q)))%Q | [] => 0 end) [1%Q] 9 0 3
    10 = Some b /\ (b_l b == 12)%Q /\ (b_r b == 24)%Q /\ fl b = 2 /\ fr b = 14.
Proof. eexists. split; [vm_compute; reflexivity|]. repeat split; vm_compute; reflexivity. Qed.

(** C45. Backtracking: the current step is rho^k, every earlier power failed the Armijo test, and when the criterion is
    0 the step satisfies it with the value of the objective there. *)
Theorem C45_backtracking :
  forall (f : point -> Q) (x0 p : point) (f0 y rho c a : Q) (n : nat),
    let s := bt_run f x0 p f0 y rho c n (bt_init f x0 p f0 y rho c a) in
    exists k, bt_alpha s = trial rho k /\ (bt_alpha s == rho ^ Z.of_nat k)%Q /\
      (forall j, j < k -> ~ armijo f x0 p f0 y c (trial rho j)) /\
      (bt_crit s = false -> armijo f x0 p f0 y c (bt_alpha s) /\ bt_f1 s = f (vadd x0 (vscal (bt_alpha s) p))).
Proof.
  intros f x0 p f0 y rho c a n s.
  destruct (bt_run_inv f x0 p f0 y rho c n (bt_init f x0 p f0 y rho c a)) as [k [A [B C]]].
  { unfold bt_init. apply (bt_try_inv f x0 p f0 y rho c 0). intros j Hj. lia. }
  fold s in A, C. exists k. split; [exact A|split; [rewrite A; apply trial_power|split; [exact B|]]].
  rewrite A. exact C.
Qed.
Print Assumptions C45_backtracking.
(** C45. It stops at the first power that satisfies the test, when there is one. *)
Theorem C45_backtracking_stops :
  forall (f : point -> Q) (x0 p : point) (f0 y rho c a : Q) (k : nat),
    (forall j, j < k -> ~ armijo f x0 p f0 y c (trial rho j)) -> armijo f x0 p f0 y c (trial rho k) ->
    let s := bt_run f x0 p f0 y rho c k (bt_init f x0 p f0 y rho c a) in bt_crit s = false /\ bt_alpha s = trial rho k.
Proof. exact bt_stop. Qed.
Print Assumptions C45_backtracking_stops.
(** C45. The initial step given by the caller is ignored: the search stops at a step that is not rho^k alpha. *)
Theorem C45_backtracking_alpha_refuted :
  exists (f : point -> Q) (x0 p : point) (f0 y rho c a : Q),
    bt_crit (bt_init f x0 p f0 y rho c a) = false /\
    forall k, ~ (bt_alpha (bt_init f x0 p f0 y rho c a) == a * rho ^ Z.of_nat k)%Q.
Proof.
  exists (fun x => 0%Q), [0%Q], [1%Q], 0%Q, 0%Q, (1 # 2)%Q, (1 # 2)%Q, (1 # 4)%Q. split; [vm_compute; reflexivity|].
  assert (T : forall k, (trial (1 # 2) k <= 1)%Q /\ (0 <= trial (1 # 2) k)%Q).
  { induction k as [|k [A B]]; cbn [trial]; [split; discriminate|]. split; Lqa.lra. }
  intros k H. rewrite <- (trial_power (1 # 2) k) in H. destruct (T k) as [A B].
  change (bt_alpha (bt_init (fun _ => 0%Q) [0%Q] [1%Q] 0%Q 0%Q (1 # 2) (1 # 2) (1 # 4))) with 1%Q in H. Lqa.lra.
Qed.
Print Assumptions C45_backtracking_alpha_refuted.
Example C45_backtracking_case :
  let f := fun x => match x with q :: _ => (q * q)%Q | [] => 0%Q end in
  let s := bt_run f [1%Q] [(-8 # 1)%Q] 1 (-16 # 1) (1 # 2) (1 # 2) 5 (bt_init f [1%Q] [(-8 # 1)%Q] 1 (-16 # 1) (1 # 2) (1 # 2) 1) in
  bt_crit s = false /\ (bt_alpha s == 1 # 8)%Q.
Proof. split; vm_compute; reflexivity. Qed.

(** C46. In the module as it is [initialize] never succeeds. *)
Theorem C46_swarm_initialize_fails :
  forall (O : Ord) (f : point -> O) (zero : O) (X : list point), gpso_initialize f zero gpso_bound X = None.
Proof. reflexivity. Qed.
Print Assumptions C46_swarm_initialize_fails.
(** C46. With the missing names supplied: for every objective, initial positions, parameters and random draws, after any
    number of swarm steps the best value is the objective at the best point and is not above any earlier best value.
    (The first best point is a view of a particle, but that particle does not move until the best point is replaced.) *)
Theorem C46_swarm_partial :
  forall (O : Ord) (f : point -> O) (zero : O) (w a1 a2 vmax : Q) (X : list point) (s0 : swarm O) (ds es : list (list (list (Q * Q)))),
    gpso_initialize f zero (fun _ => true) X = Some s0 ->
    let s1 := swarm_run O f zero w a1 a2 vmax ds s0 in
    let s2 := swarm_run O f zero w a1 a2 vmax es s1 in
    on_graph f (swarm_best s0) /\ on_graph f (swarm_best s1) /\ on_graph f (swarm_best s2) /\
    oleb (snd (swarm_best s2)) (snd (swarm_best s1)) = true /\ oleb (snd (swarm_best s1)) (snd (swarm_best s0)) = true.
Proof.
  intros O f zero w a1 a2 vmax X s0 ds es E s1 s2. unfold gpso_initialize in E. cbn [andb] in E.
  destruct (swarm_init f zero X) as [s|] eqn:Ei; [|discriminate]. inversion E. subst s.
  pose proof (swarm_init_settled O f zero X s0 Ei) as H0.
  destruct (swarm_run_spec O f zero w a1 a2 vmax ds s0 H0) as [H1 L1]. fold s1 in H1, L1.
  destruct (swarm_run_spec O f zero w a1 a2 vmax es s1 H1) as [H2 L2]. fold s2 in H2, L2.
  repeat split; try (now apply settled_graph); assumption.
Qed.
Print Assumptions C46_swarm_partial.
Example C46_case :
  match gpso_initialize demo_f 0%Q (fun _ => true) [[3%Q]; [2%Q]; [5%Q]] with
  | Some s => let s' := swarm_run QOrd demo_f 0%Q (7 # 10) 1 1 10 [[[(1%Q, 1%Q)]; [(1%Q, 1%Q)]; [(0%Q, 3 # 2)]]] s in
              (Qeq_bool (snd (swarm_best s)) 4, Qeq_bool (snd (swarm_best s')) (1 # 4))
  | None => (false, false)
  end = (true, true).
Proof. vm_compute. reflexivity. Qed.

(** C61. What a Nelder-Mead step evaluates and does not keep: every point evaluated in a step is at or above the new
    best value, except a reflected point whose extension was accepted. *)
Theorem C61_lowest_evaluated_partial :
  forall (O : Ord) (f : point -> O) (alpha beta gamma delta : Q) (N : nat) (rows : list point) (us : list Q) (u : Q)
         (st0 st1 st2 : nm O),
    N <> 0 -> length rows = S N -> nm_init f N rows = Some st0 ->
    steps (nm_step f alpha beta gamma delta) N us st0 = Some st1 ->
    nm_step f alpha beta gamma delta N u st1 = Some st2 ->
    exists new, log st2 = log st1 ++ new /\ forall x, In x new ->
      oleb (snd (best st2)) (f x) = true \/
      (exists e, new = [x; e] /\ oltb (f e) (snd (best st1)) = true /\ oleb (f x) (snd (best st1)) = true).
Proof.
  intros O f alpha beta gamma delta N rows us u st0 st1 st2 HN L E0 E1 E2.
  destruct (nm_init_good O f N rows HN L) as [st [E [G _]]]. rewrite E0 in E. inversion E. subst st.
  destruct (nm_steps_good O f alpha beta gamma delta N us st0 HN G) as [st [E' [G1 _]]]. rewrite E1 in E'. inversion E'. subst st.
  exact (nm_step_discard O f alpha beta gamma delta N u st1 st2 HN G1 E2).
Qed.
Print Assumptions C61_lowest_evaluated_partial.
(** C61. The method can discard the lowest value it has evaluated: reflection to -1 has value 0, its extension 1 is kept. *)
Theorem C61_lowest_evaluated_refuted :
  exists (f : point -> NatOrd) (rows : list point) (st0 st1 : nm NatOrd) (x : point),
    nm_init f 1 rows = Some st0 /\ nm_step f 1 2 (1 # 2) (1 # 2) 1 0 st0 = Some st1 /\
    In x (log st1) /\ oltb (f x) (snd (best st1)) = true.
Proof.
  exists (fun x => match x with q :: _ => if Qeq_bool q 1 then 9 else if Qeq_bool q 0 then 5 else if Qeq_bool q (-1 # 1) then 0 else 1 | [] => 0 end).
  exists [[0%Q]; [1%Q]]. eexists. eexists. exists [(-1 # 1)%Q].
  split; [vm_compute; reflexivity|]. split; [vm_compute; reflexivity|]. split; [vm_compute; tauto|vm_compute; reflexivity].
Qed.
Print Assumptions C61_lowest_evaluated_refuted.

(** C62. The driver stops exactly after the first step at which the criterion is met or a step raised, provided the
    optimiser has the attributes [crit] and [best_f]. *)
Theorem C62_driver_stops_partial :
  forall (St : Type) (next : St -> St * bool) (crit best_f : St -> option Q) (thresh : Q) (verbose : bool) (n : nat) (s : St),
    (forall k, crit (fst (nsteps St next (S k) s false)) <> None /\ best_f (fst (nsteps St next (S k) s false)) <> None) ->
    (forall k, 0 < k -> k < S n -> ~ met St crit thresh (fst (nsteps St next k s false)) /\ snd (nsteps St next k s false) = false) ->
    met St crit thresh (fst (nsteps St next (S n) s false)) \/ snd (nsteps St next (S n) s false) = true ->
    forall fuel, n < fuel ->
    drv_run next crit best_f thresh verbose fuel (MkDrv s false) false =
      Some (Some (MkDrv (fst (nsteps St next (S n) s false)) (snd (nsteps St next (S n) s false)))).
Proof. intros St next crit best_f thresh verbose n s. exact (drv_run_stops St next crit best_f thresh verbose n s false). Qed.
Print Assumptions C62_driver_stops_partial.
(** C62. The backtracking line search ('ls') has no [best_f]: the quiet driver never stops although the criterion is met
    from the start, and the verbose one raises. *)
Theorem C62_driver_line_search_refuted :
  exists (f : point -> Q) (x0 p : point) (f0 y rho c : Q),
    bt_crit (bt_init f x0 p f0 y rho c 1) = false /\
    let next := fun s => (bt_next f x0 p f0 y rho c s, false) in
    let crit := fun s => Some (if bt_crit s then 1 else 0)%Q in
    (forall fuel, drv_run next crit (fun _ => None) 0 false fuel (MkDrv (bt_init f x0 p f0 y rho c 1) false) false = None) /\
    (forall fuel, drv_run next crit (fun _ => None) 0 true (S fuel) (MkDrv (bt_init f x0 p f0 y rho c 1) false) false = Some None).
Proof.
  exists (fun _ => 0%Q), [0%Q], [1%Q], 0%Q, 0%Q, (1 # 2)%Q, (1 # 2)%Q. split; [vm_compute; reflexivity|]. cbn zeta. split; intro fuel.
  - now apply drv_run_never.
  - now apply drv_run_raises.
Qed.
Print Assumptions C62_driver_line_search_refuted.
Example C62_case :
  drv_run (fun s : nat => (S s, false)) (fun s => Some (inject_Z (10 - Z.of_nat s))) (fun s => Some 0%Q) 3 true 100 (MkDrv 0 false) false
  = Some (Some (MkDrv 7 false)).
Proof. vm_compute. reflexivity. Qed.

(** C63. Gradient descent: after n >= 1 steps the reported point is the documented iterate and the reported value is the
    objective there. *)
Theorem C63_gradient_descent :
  forall (O : Ord) (f : point -> O) (g : point -> point) (gamma : Q) (n : nat) (start shift : point), n <> 0 ->
    let s := gd_run f g gamma n (gd_init f g gamma start shift) in
    gd_best s = Some (iterate g gamma (S n) (vadd start shift), f (iterate g gamma (S n) (vadd start shift))).
Proof.
  intros O f g gamma n start shift Hn s. destruct (gd_run_spec O f g gamma n start shift) as [A [B [C [D E]]]]. fold s in A, E.
  rewrite <- A. now apply E.
Qed.
Print Assumptions C63_gradient_descent.
(** C63. The evaluation counter stays at 1 while n + 2 evaluations are made. *)
Theorem C63_evaluation_counter_refuted :
  exists (f : point -> QOrd) (g : point -> point) (gamma : Q) (n : nat) (start shift : point),
    let s := gd_run f g gamma n (gd_init f g gamma start shift) in gd_count s <> length (gd_log s).
Proof.
  exists demo_f, (fun x => x), 1%Q, 3, [1%Q], [0%Q]. cbn zeta.
  destruct (gd_run_spec QOrd demo_f (fun x => x) 1%Q 3 [1%Q] [0%Q]) as [_ [_ [C [D _]]]]. rewrite C, D. discriminate.
Qed.
Print Assumptions C63_evaluation_counter_refuted.
(** C63. The reported best value can increase. *)
Theorem C63_best_monotone_refuted :
  exists (f : point -> QOrd) (g : point -> point) (gamma : Q) (start shift : point) (a b : point * QOrd),
    gd_best (gd_run f g gamma 1 (gd_init f g gamma start shift)) = Some a /\
    gd_best (gd_run f g gamma 2 (gd_init f g gamma start shift)) = Some b /\ oltb (snd a) (snd b) = true.
Proof.
  exists demo_f, (fun x => vscal 2 x), 2%Q, [1%Q], [0%Q]. eexists. eexists.
  split; [vm_compute; reflexivity|]. split; vm_compute; reflexivity.
Qed.
Print Assumptions C63_best_monotone_refuted.
