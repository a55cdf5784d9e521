(** Properties of the ACSE optimiser: ansatz layers, truncation, the main loop, the Newton step, the line search. *)
From Coq Require Import Bool List Arith ZArith QArith Qabs Qminmax Permutation Lia Lqa.
From Verif Require Import Coeff OpSpec AcseSpec AcseModel LineModel AcseProofs AcseProofs2 AcseProofs3 LineProofs.
Import ListNotations.
Local Open Scope nat_scope.

(** * C48: ansatz addition. *)
(** For every string the sum of its coefficients over all layers grows by the added coefficient; the difference is a
    sum of coefficients that count as zero (the ones [clean] drops). *)
Theorem C48_total : forall (K : CoefRing) (key : Type) (keqb : key -> key -> bool)
    (keq : forall a b : key, {a = b} + {a <> b}), (forall a b, keqb a b = true <-> a = b) ->
  forall (closed : Z) (A : list (list (key * K))) (P : list (key * K)) (k : key),
  exists D : list K, (forall x, In x D -> small x = true) /\
    cadd (gross keq k (ans_add keqb closed A P)) (sumK D) = cadd (gross keq k A) (total keq k P).
Proof. intros K key keqb keq H closed A P k. exact (add_total K key keqb H keq closed A P k). Qed.
Print Assumptions C48_total.

(** Where each coefficient goes.  With [m] accessible layers: layers deeper than [m] are untouched, a string found in
    an accessible layer is added to the last such layer and nowhere else, all other strings form one new layer; then
    negligible coefficients and empty layers are removed. *)
Theorem C48_layers : forall (K : CoefRing) (key : Type) (keqb : key -> key -> bool)
    (keq : forall a b : key, {a = b} + {a <> b}), (forall a b, keqb a b = true <-> a = b) ->
  forall (closed : Z) (A : list (list (key * K))) (P : list (key * K)), (closed <= 0)%Z -> A <> [] ->
  let m := if (closed =? 0)%Z then length A else Nat.min (Z.to_nat (- closed)) (length A) in
  exists R, length R = S (length A) /\ ans_add keqb closed A P = tidy R /\
    (forall i, i < length A - m -> nth i R [] = nth i A []) /\
    (forall k i, i < length A -> home k A m i ->
       total keq k (nth i R []) = cadd (total keq k (nth i A [])) (total keq k P)) /\
    (forall k i, i < length A -> ~ home k A m i -> total keq k (nth i R []) = total keq k (nth i A [])) /\
    (forall k, (forall i, ~ home k A m i) -> total keq k (nth (length A) R []) = total keq k P) /\
    (forall k i, home k A m i -> total keq k (nth (length A) R []) = c0).
Proof.
  intros K key keqb keq H closed A P Hc HA m.
  assert (E : m = ans_depth closed A).
  { unfold m, ans_depth. destruct (Z.eqb_spec closed 1); [lia|]. reflexivity. }
  rewrite E. apply add_layers; [exact H|lia|exact HA].
Qed.
Print Assumptions C48_layers.

(** A closed ansatz gets the operator as a new layer. *)
Theorem C48_closed : forall (K : CoefRing) (key : Type) (keqb : key -> key -> bool)
    (A : list (list (key * K))) (P : list (key * K)),
  ans_add keqb 1 A P = match A with [] => [P] | _ => tidy (A ++ [P]) end.
Proof. intros K key keqb [|a A] P; [reflexivity|]. exact (tidy_clean K key ((a :: A) ++ [P])). Qed.
Print Assumptions C48_closed.

(** Layers deeper than the accessible depth are unchanged (when they hold no negligible coefficient), and at most
    [m + 1] layers follow them. *)
Theorem C48_deep : forall (K : CoefRing) (key : Type) (keqb : key -> key -> bool)
    (keq : forall a b : key, {a = b} + {a <> b}), (forall a b, keqb a b = true <-> a = b) ->
  forall (closed : Z) (A : list (list (key * K))) (P : list (key * K)), A <> [] -> is_tidy A ->
  let m := if (closed =? 1)%Z then 0 else if (closed =? 0)%Z then length A else Nat.min (Z.to_nat (- closed)) (length A) in
  exists rest, ans_add keqb closed A P = firstn (length A - m) A ++ rest /\ length rest <= S m /\
    is_tidy (ans_add keqb closed A P).
Proof.
  intros K key keqb keq H closed A P HA HT m.
  destruct (add_deep K key keqb H keq closed A P HA) as [rest [E L]]. change (ans_depth closed A) with m in E, L.
  exists rest. split; [|split; [exact L|apply add_tidy; exact HA]].
  rewrite E. f_equal. apply tidy_id. intros a I. apply HT. rewrite <- (firstn_skipn (length A - m) A).
  apply in_or_app. left. exact I.
Qed.
Print Assumptions C48_deep.

(** Subtraction. *)
Theorem C48_subtract : forall (K : CoefRing) (key : Type) (keqb : key -> key -> bool)
    (keq : forall a b : key, {a = b} + {a <> b}), (forall a b, keqb a b = true <-> a = b) ->
  forall (closed : Z) (A : list (list (key * K))) (P : list (key * K)) (k : key),
  exists D : list K, (forall x, In x D -> small x = true) /\
    cadd (gross keq k (ans_sub keqb closed A P)) (sumK D) = csub (gross keq k A) (total keq k P).
Proof. intros K key keqb keq H closed A P k. exact (sub_total K key keqb H keq closed A P k). Qed.
Print Assumptions C48_subtract.

(** Three layers, the last two accessible: string 1 is found in the last layer, string 2 in the middle one, string 3
    only in the first (inaccessible) layer, string 4 nowhere. *)
Example C48_example :
  map (map fst) (ans_add Nat.eqb (-2)
    [[(1, gz 5); (3, gz 5)]; [(1, gz 2); (2, gz 2)]; [(1, gz 7); (5, gz 7)]]
    [(1, gz 1); (2, gz (-2)); (3, gz 1); (4, gz 1)])
  = [[1; 3]; [1]; [1; 5]; [3; 4]].
Proof. vm_compute. reflexivity. Qed.
Example C48_example_hyps : is_tidy [[(1, gz 5); (3, gz 5)]; [(1, gz 2); (2, gz 2)]; [(1, gz 7); (5, gz 7)]].
Proof.
  intros a [<-|[<-|[<-|[]]]]; (split; [discriminate|]); intros e [<-|[<-|[]]]; vm_compute; reflexivity.
Qed.

(** * C49: truncation. *)
Local Open Scope Q_scope.
(** The threshold: for 'abs' the larger of [rel] times the largest magnitude and [min_thresh], for 'delta' [rel] times
    the lowest product. *)
Definition threshold (v g : list Q) (rel min_thresh : Q) (method : trunc_method) (th : Q) : Prop :=
  match method with
  | TAbs => exists m, th = Qmax (m * rel) min_thresh /\ (forall i, (i < length v)%nat -> Qabs (entry v i) <= m) /\
                      exists i, (i < length v)%nat /\ Qabs (entry v i) == m
  | TDelta => exists m, th = m * rel /\ (forall i, (i < length v)%nat -> m <= entry v i * entry g i) /\
                        exists i, (i < length v)%nat /\ entry v i * entry g i == m
  end.

(** For every vector and every order of examination: truncation returns a vector of the same length in which the two
    entries of a pair are either both kept or both set to zero.  Self-paired entries are kept.  A pair is zeroed only
    if one of its entries passes the threshold test and is not among the terms to keep. *)
Theorem C49_pairs : forall (v g : list Q) (pair : nat -> nat) (rel min_thresh : Q) (method : trunc_method)
    (k_added : option (list nat)) (crit : list nat),
  length v = length g -> v <> [] -> Permutation crit (seq 0 (length v)) ->
  (forall i, (i < length v)%nat -> (pair i < length v)%nat) ->
  (forall i, (i < length v)%nat -> pair (pair i) = i) ->
  exists th r, threshold v g rel min_thresh method th /\
    truncation v g pair rel min_thresh method k_added crit = Some r /\ length r = length v /\
    forall i, (i < length v)%nat ->
      (entry r i = entry v i /\ entry r (pair i) = entry v (pair i)) \/
      (pair i <> i /\ entry r i = 0 /\ entry r (pair i) = 0 /\
       exists j, (j = i \/ j = pair i) /\
         match method with
         | TAbs => Qabs (entry v j) < th * (99999 # 100000)
         | TDelta => th * (99999 # 100000) < entry v j * entry g j
         end /\ match k_added with Some l => ~ In j l | None => True end).
Proof.
  intros v g pair rel min_thresh method k_added crit L N P Pl Pi.
  destruct (trunc_main v g pair rel min_thresh method k_added crit L N P Pl Pi) as [th [r [T [R [Lr [F _]]]]]].
  exists th, r. split; [exact (thresh_spec v g rel min_thresh method th L T)|]. split; [exact R|]. split; [exact Lr|].
  intros i Hi. destruct (F i Hi) as [F1|[F1 [F2 [F3 [F4|F4]]]]]; [left; exact F1|right|right].
  - split; [exact F1|]. split; [exact F2|]. split; [exact F3|]. exists i. split; [auto|exact F4].
  - split; [exact F1|]. split; [exact F2|]. split; [exact F3|]. exists (pair i). split; [auto|exact F4].
Qed.
Print Assumptions C49_pairs.

(** Truncation keeps a descent direction, provided the two entries of every pair contribute equally (true for an
    anti-Hermitian residual with an anti-Hermitian gradient).  The general claim is false, see below. *)
Theorem C49_descent_partial : forall (v g : list Q) (pair : nat -> nat) (rel min_thresh : Q) (method : trunc_method)
    (k_added : option (list nat)) (crit : list nat),
  length v = length g -> v <> [] -> Permutation crit (seq 0 (length v)) ->
  (forall i, (i < length v)%nat -> (pair i < length v)%nat) ->
  (forall i, (i < length v)%nat -> pair (pair i) = i) ->
  (forall i, (i < length v)%nat -> entry v i * entry g i == entry v (pair i) * entry g (pair i)) ->
  inner (length v) (entry v) (entry g) < 0 ->
  exists r, truncation v g pair rel min_thresh method k_added crit = Some r /\
    inner (length v) (entry r) (entry g) < 0.
Proof.
  intros v g pair rel min_thresh method k_added crit L N P Pl Pi B D.
  destruct (trunc_main v g pair rel min_thresh method k_added crit L N P Pl Pi) as [th [r [T [R [Lr [_ F]]]]]].
  exists r. split; [exact R|]. apply F; [exact B|exact D].
Qed.
Print Assumptions C49_descent_partial.

Definition swap01 (i : nat) : nat := match i with 0 => 1 | 1 => 0 | n => n end%nat.

(** Entries 0 and 1 are paired, entry 2 is paired with itself.  The contributions are 3, -10 and 1: a descent
    direction.  The test uses twice the contribution of entry 0, so the pair is removed and the remaining direction
    is an ascent direction. *)
Theorem C49_descent_refuted : exists (v g : list Q) (pair : nat -> nat) (r : list Q),
  length v = length g /\ Permutation [2; 0; 1]%nat (seq 0 (length v)) /\
  (forall i, (i < length v)%nat -> (pair i < length v)%nat) /\
  (forall i, (i < length v)%nat -> pair (pair i) = i) /\
  inner (length v) (entry v) (entry g) < 0 /\
  truncation v g pair (1 # 2) 0 TAbs None [2; 0; 1]%nat = Some r /\
  0 < inner (length v) (entry r) (entry g).
Proof.
  exists [1; 10; 1], [3; -(1); 1], swap01, [0; 0; 1].
  split; [reflexivity|]. split.
  { apply (perm_trans (l' := [0; 2; 1]%nat)); [apply perm_swap|]. apply perm_skip. apply perm_swap. }
  split; [intros [|[|[|i]]] H; cbn in *; lia|]. split; [intros [|[|i]] H; reflexivity|].
  split; [vm_compute; reflexivity|]. split; [vm_compute; reflexivity|vm_compute; reflexivity].
Qed.
Print Assumptions C49_descent_refuted.

(** A case meeting the hypotheses in which a pair is removed and a pair is kept. *)
Example C49_example :
  truncation [1; -(1); 8; -(8)] [-(2); 2; -(1); 1] (fun i => match i with 0 => 1 | 1 => 0 | 2 => 3 | 3 => 2 | n => n end%nat)
    (1 # 2) 0 TAbs None [0; 1; 2; 3]%nat = Some [0; 0; 8; -(8)].
Proof. vm_compute. reflexivity. Qed.
Example C49_example_delta :
  truncation [1; -(1); 8; -(8)] [-(2); 2; -(1); 1] (fun i => match i with 0 => 1 | 1 => 0 | 2 => 3 | 3 => 2 | n => n end%nat)
    (1 # 2) 0 TDelta None [2; 3; 0; 1]%nat = Some [0; 0; 8; -(8)].
Proof. vm_compute. reflexivity. Qed.
Example C49_example_keep :
  truncation [1; -(1); 8; -(8)] [-(2); 2; -(1); 1] (fun i => match i with 0 => 1 | 1 => 0 | 2 => 3 | 3 => 2 | n => n end%nat)
    (1 # 2) 0 TAbs (Some [0; 1]%nat) [0; 1; 2; 3]%nat = Some [1; -(1); 8; -(8)].
Proof. vm_compute. reflexivity. Qed.

(** * C47: the main loop. *)
(** With [max_iter >= 1] the loop ends after at most [max_iter] iterations whatever the back end answers (or an
    exception ends it); the reported best energy is one of the energies visited, and the lowest.  More fuel does not
    change the result. *)
Theorem C47_terminates_with_lowest : forall (backend : acse -> acse_step) (c : acse_cfg) (e0 : Q) (extra : nat),
  (1 <= max_iter c)%nat ->
  match acse_run backend c (max_iter c) (acse_build e0) with
  | None => conv_type c = COther \/ max_depth c <> None
  | Some a => a_done a = true /\ (a_iter a <= max_iter c)%nat /\
      (exists new, a_logE a = new ++ [e0]) /\ length (a_logE a) = S (a_iter a) /\
      In (a_best a) (a_logE a) /\ (forall e, In e (a_logE a) -> a_best a <= e) /\
      acse_run backend c (max_iter c + extra) (acse_build e0) = Some a
  end.
Proof.
  intros backend c e0 extra H.
  destruct (acse_run backend c (max_iter c) (acse_build e0)) as [a|] eqn:R.
  - destruct (run_ok backend c (max_iter c) (acse_build e0) a) as [[I1 [_ [I2 [I3 _]]]] [D [It [new L]]]].
    + apply ainv_build.
    + right. cbn. lia.
    + cbn. lia.
    + exact R.
    + split; [exact D|]. split; [cbn [a_iter acse_build] in It; lia|]. split; [exists new; exact L|].
      split; [exact I1|]. split; [exact I2|]. split; [exact I3|].
      apply run_more; assumption.
  - destruct (max_depth c) as [d|] eqn:E; [right; discriminate|]. left. destruct (conv_type c) eqn:C; [| |reflexivity];
      exfalso; apply (run_some backend c (max_iter c) (acse_build e0)); try exact R; try exact E; rewrite C; discriminate.
Qed.
Print Assumptions C47_terminates_with_lowest.

(** Why a run stops: after each check the loop ends exactly if the step asked for it, the iteration limit is reached,
    the convergence test holds, or the energy failed to drop below the mean of the last three energies now and at
    least three times in all. *)
Theorem C47_stopping : forall (backend : acse -> acse_step) (c : acse_cfg) (e0 : Q) (fuel : nat) (a a' : acse),
  acse_run backend c fuel (acse_build e0) = Some a -> a_done a = false ->
  acse_check c (backend a) a = Some a' ->
  (a_done a' = true <->
     s_stop (backend a) = true \/ a_iter a' = max_iter c \/ converged c (backend a) = Some true \/
     (mean (firstn 3 (a_logE a')) <= s_en (backend a) /\ (3 <= rises (a_logE a'))%nat)).
Proof.
  intros backend c e0 fuel a a' R D Ck.
  assert (I : ainv a) by (exact (run_inv backend c fuel (acse_build e0) a (ainv_build e0) R)).
  destruct (check_inv c (backend a) a a' I Ck) as [_ [_ [_ E]]]. rewrite E, D, Qle_bool_iff. intuition congruence.
Qed.
Print Assumptions C47_stopping.

(** With [max_iter = 0] the loop need not end: energies dropping by one, never converging. *)
Theorem C47_zero_iterations_refuted : exists (backend : acse -> acse_step) (c : acse_cfg) (e0 : Q),
  max_iter c = 0%nat /\ forall fuel, exists a, acse_run backend c fuel (acse_build e0) = Some a /\
    a_done a = false /\ a_iter a = fuel.
Proof. exact falling_forever. Qed.
Print Assumptions C47_zero_iterations_refuted.

(** The depth limit raises an exception instead of ending the run. *)
Theorem C47_depth_limit_refuted : exists (backend : acse -> acse_step) (c : acse_cfg) (e0 : Q),
  max_iter c = 10%nat /\ max_depth c = Some 1%nat /\ acse_run backend c 10 (acse_build e0) = None.
Proof.
  exists (fun a => MkStep (a_ek a - 1) 1 1 1 1 false), (MkCfg 10 (Some 1%nat) CNorm 0 0 0), 0.
  split; [reflexivity|]. split; [reflexivity|]. vm_compute. reflexivity.
Qed.
Print Assumptions C47_depth_limit_refuted.

(** Energies 0, -3, 2, 1, 5: stops at the third rise with best energy -3. *)
Example C47_example :
  match acse_run (fun a => MkStep (nth (a_iter a) [-(3); 2; 1] 5) 1 1 1 0 false)
          (MkCfg 100 None CNorm (1 # 100) 0 0) 100 (acse_build 0) with
  | Some a => (a_iter a, a_done a, Qeq_bool (a_best a) (-(3)))
  | None => (0%nat, false, false)
  end = (4%nat, true, true).
Proof. vm_compute. reflexivity. Qed.

(** * C50: the Newton step. *)
(** An accepted step stays within the trust radius, and the stored energy is that of the step taken. *)
Theorem C50_accepted_step_partial : forall (c : newton_cfg) (E : Q -> Q) (e_k coeff energy radius : Q),
  0 <= n_Del c -> 0 <= n_gd c <= 1 -> newton_step c E e_k = Some (NAccept coeff energy radius) ->
  energy = E coeff /\ Qabs coeff <= n_Del c.
Proof. exact newton_accept. Qed.
Print Assumptions C50_accepted_step_partial.

(** The step is the Newton step cut off at the radius used (the stored one, or the shrunk one after a bad first
    trial), and the radius kept for the next step grows by the factor [n_gi] when the actual over the predicted
    reduction reaches [n_nv], shrinks by [n_gd] when it is below [n_ns], and stays otherwise. *)
Theorem C50_trust_radius : forall (c : newton_cfg) (E : Q -> Q) (e_k coeff energy radius : Q),
  newton_step c E e_k = Some (NAccept coeff energy radius) ->
  let '(g, h) := newton_derivs c E e_k in
  exists del, (del = n_Del c \/ del = n_Del c * n_gd c) /\ coeff = newton_coeff g h del /\
  let actual := e_k - energy in
  let predicted := e_k - (e_k + coeff * g + (1 # 2) * coeff * h * coeff) in
  (Qabs actual <= n_obj c \/ Qabs predicted <= n_ts c -> radius = del) /\
  (n_obj c < Qabs actual -> n_ts c < Qabs predicted ->
    (n_nv c <= actual / predicted -> radius = del * n_gi c) /\
    (n_ns c <= actual / predicted -> actual / predicted < n_nv c -> radius = del) /\
    (actual / predicted < n_nv c -> actual / predicted < n_ns c -> radius = del * n_gd c)).
Proof. exact newton_radius. Qed.
Print Assumptions C50_trust_radius.

(** If the energy is exactly quadratic along the direction with positive curvature and its minimum lies within the
    trust radius, the step goes to the minimum. *)
Theorem C50_quadratic_minimum : forall (c : newton_cfg) (E : Q -> Q) (e_k a b : Q),
  (forall s, E s == e_k + a * s + b * (s * s)) ->
  ~ n_d c * n_eps c * n_eps c * (n_d c - 1) == 0 -> n_hardware c = false -> n_trust c = true -> n_nv c <= 1 ->
  0 <= n_ts c -> (1 # 10000000000000000) <= Qabs a -> (1 # 10000000000000000) <= 2 * b ->
  Qabs (a / (2 * b)) < n_Del c ->
  exists coeff energy radius, newton_step c E e_k = Some (NAccept coeff energy radius) /\
    coeff == - a / (2 * b) /\ energy = E coeff /\ forall s, energy <= E s.
Proof. exact newton_quadratic. Qed.
Print Assumptions C50_quadratic_minimum.

(** On the 'nm' and 'qc' back ends every Newton step is rejected: the coefficient tested is never updated. *)
Theorem C50_hardware_always_rejects : forall (c : newton_cfg) (E : Q -> Q) (e_k : Q),
  n_hardware c = true -> n_trust c = true -> ~ n_d c * n_eps c * n_eps c * (n_d c - 1) == 0 ->
  exists radius, newton_step c E e_k = Some (NReject radius).
Proof. exact newton_hardware. Qed.
Print Assumptions C50_hardware_always_rejects.

Definition newton_default : newton_cfg :=
  MkNewton (1 # 10) 2 true false 1 (9 # 10) (1 # 10) 2 (1 # 2) (1 # 10000000000) (1 # 10000000000).

(** Negative curvature makes the step fail with an exception. *)
Theorem C50_negative_curvature_refuted : exists (E : Q -> Q),
  newton_step newton_default E (E 0) = None.
Proof. exists (fun s => - (s * s) + s). vm_compute. reflexivity. Qed.
Print Assumptions C50_negative_curvature_refuted.

(** The step taken need not be the lowest trial: the energy drops at both finite-difference points and is higher than
    the starting energy at every Newton coefficient, which is nevertheless taken. *)
Theorem C50_lowest_trial_refuted : exists (E : Q -> Q) (coeff energy radius : Q),
  newton_step newton_default E (E 0) = Some (NAccept coeff energy radius) /\
  E (n_eps newton_default) < energy /\ E 0 < energy.
Proof.
  exists (fun s => if Qle_bool s (1 # 5) then - (10) * s + s * s else 5), (1 # 2), 5, (1 # 4).
  split; [vm_compute; reflexivity|]. split; vm_compute; reflexivity.
Qed.
Print Assumptions C50_lowest_trial_refuted.

Example C50_example : match newton_step newton_default (fun s => s * s - s) 0 with
  | Some (NAccept coeff energy radius) => Qeq_bool coeff (1 # 2) && Qeq_bool energy (- (1 # 4)) && Qeq_bool radius 2
  | _ => false end = true.
Proof. vm_compute. reflexivity. Qed.

(** * C44: the line search. *)
(** Success: the value is the objective at the returned step, the sufficient decrease condition holds there, and the
    returned gradient, taken at some evaluated step, satisfies the (weak) curvature condition.  Missing: that the
    gradient belongs to the returned step and the strong condition, which are false (below) when the iteration limit
    was hit. *)
Theorem C44_success_partial : forall (G : Type) (phi : Q -> Q) (dphi : Q -> G * Q)
    (quad : Q -> Q -> Q -> Q -> Q -> Q) (cubic : Q -> Q -> Q -> Q -> Q -> Q -> Q -> Q) (c1 c2 g0 : Q)
    (max_iters : nat) (alp_max alp_1 : Q),
  let r := search phi dphi quad cubic c1 c2 (phi 0) g0 max_iters alp_max alp_1 in
  line_err c1 c2 (phi 0) g0 r = false ->
  f_val r = phi (f_alp r) /\ decrease c1 (phi 0) g0 (f_alp r) (f_val r) /\
  exists b, (f_grad r, f_gs r) = dphi b /\ weak_curvature c2 g0 (f_gs r).
Proof. intros. apply success; [reflexivity|assumption]. Qed.
Print Assumptions C44_success_partial.

(** If the search ends before its iteration limit (no warning), it reports success, the step satisfies both strong
    Wolfe conditions, and value and gradient belong to it. *)
Theorem C44_strong_wolfe : forall (G : Type) (phi : Q -> Q) (dphi : Q -> G * Q)
    (quad : Q -> Q -> Q -> Q -> Q -> Q) (cubic : Q -> Q -> Q -> Q -> Q -> Q -> Q -> Q) (c1 c2 g0 : Q)
    (max_iters : nat) (alp_max alp_1 : Q),
  let r := search phi dphi quad cubic c1 c2 (phi 0) g0 max_iters alp_max alp_1 in
  0 <= c2 -> f_limit r = false ->
  line_err c1 c2 (phi 0) g0 r = false /\
  f_val r = phi (f_alp r) /\ (f_grad r, f_gs r) = dphi (f_alp r) /\
  decrease c1 (phi 0) g0 (f_alp r) (f_val r) /\ strong_curvature c2 g0 (f_gs r).
Proof. intros. apply success_strong; [reflexivity|assumption|assumption]. Qed.
Print Assumptions C44_strong_wolfe.

(** All trial steps lie between 0 and [alp_max], and there are boundedly many, for every objective and every outcome
    of the interpolations. *)
Theorem C44_trials : forall (G : Type) (phi : Q -> Q) (dphi : Q -> G * Q)
    (quad : Q -> Q -> Q -> Q -> Q -> Q) (cubic : Q -> Q -> Q -> Q -> Q -> Q -> Q -> Q) (c1 c2 f0 g0 : Q)
    (max_iters : nat) (alp_max alp_1 : Q), 0 <= alp_1 <= alp_max ->
  let r := search phi dphi quad cubic c1 c2 f0 g0 max_iters alp_max alp_1 in
  (forall a, In a (f_log r) -> 0 <= a <= alp_max) /\ (length (f_log r) <= Nat.max 1 max_iters + S max_iters)%nat.
Proof. intros. apply search_log. assumption. Qed.
Print Assumptions C44_trials.

(** The wrapper used by the optimisers: on success the stored state is that of the returned step, and no evaluated
    step had a lower energy. *)
Theorem C44_stored_state : forall (G : Type) (phi : Q -> Q) (dphi : Q -> G * Q)
    (quad : Q -> Q -> Q -> Q -> Q -> Q) (cubic : Q -> Q -> Q -> Q -> Q -> Q -> Q -> Q) (c1 c2 f0 g0 : Q)
    (max_iters : nat) (alp_max alp_1 alp stored : Q) (err : bool),
  ls_run phi dphi quad cubic c1 c2 f0 g0 max_iters alp_max alp_1 = Some (alp, err, stored) ->
  let r := search phi dphi quad cubic c1 c2 f0 g0 max_iters alp_max alp_1 in
  alp = f_alp r /\ In stored (f_log r) /\ (forall a, In a (f_log r) -> phi stored <= phi a) /\
  (err = false -> stored == alp /\ line_err c1 c2 f0 g0 r = false).
Proof. intros G phi dphi quad cubic c1 c2 f0 g0 max_iters alp_max alp_1 alp stored err. apply run_stored. Qed.
Print Assumptions C44_stored_state.

(** The wrapper fails when no evaluated energy is negative, and only then. *)
Theorem C44_exception_means_nonnegative : forall (G : Type) (phi : Q -> Q) (dphi : Q -> G * Q)
    (quad : Q -> Q -> Q -> Q -> Q -> Q) (cubic : Q -> Q -> Q -> Q -> Q -> Q -> Q -> Q) (c1 c2 f0 g0 : Q)
    (max_iters : nat) (alp_max alp_1 : Q),
  ls_run phi dphi quad cubic c1 c2 f0 g0 max_iters alp_max alp_1 = None ->
  forall a, In a (f_log (search phi dphi quad cubic c1 c2 f0 g0 max_iters alp_max alp_1)) -> 0 <= phi a.
Proof. intros G phi dphi quad cubic c1 c2 f0 g0 max_iters alp_max alp_1. apply run_none. Qed.
Print Assumptions C44_exception_means_nonnegative.

(** Witnesses use the quadratic interpolation of l.294-298.  The single cubic interpolation of the two runs below has
    the values -8x(x-1)^2, whose stationary points are 1/3 and 1; the code takes 1, which is outside the bracket. *)
Definition true_quad (al ah fl fh gl : Q) : Q :=
  - gl / (2 * ((fh - gl * (ah - al) - fl) / ((ah - al) * (ah - al)))) + al.
Definition wild_cubic (al ah am fl fh fm gl : Q) : Q := 1.
Definition at_quarter (x : Q) (a : Q) : Q := if Qeq_bool a (1 # 4) then x else if Qeq_bool a (1 # 2) then -(1) else 0.
(** The gradient vector is represented by the step at which it was taken. *)
Definition slope (a : Q) : Q * Q := (a, if Qeq_bool a (1 # 2) then 2 else 0).

(** Success reported at a step where the strong curvature condition fails. *)
Theorem C44_strong_curvature_refuted : exists (phi : Q -> Q) (dphi : Q -> Q * Q) (cubic : Q -> Q -> Q -> Q -> Q -> Q -> Q -> Q),
  let r := search phi dphi true_quad cubic (1 # 10000) (9 # 10) (phi 0) (-(1)) 1 25 1 in
  line_err (1 # 10000) (9 # 10) (phi 0) (-(1)) r = false /\
  ~ strong_curvature (9 # 10) (-(1)) (snd (dphi (f_alp r))).
Proof.
  exists (at_quarter (-(1 # 2))), slope, wild_cubic. cbn zeta. split; [vm_compute; reflexivity|].
  intro H. apply Qle_bool_iff in H. vm_compute in H. discriminate.
Qed.
Print Assumptions C44_strong_curvature_refuted.

(** Success reported with the gradient of another step. *)
Theorem C44_gradient_mismatch_refuted : exists (phi : Q -> Q) (dphi : Q -> Q * Q) (cubic : Q -> Q -> Q -> Q -> Q -> Q -> Q -> Q),
  let r := search phi dphi true_quad cubic (1 # 10000) (9 # 10) (phi 0) (-(1)) 1 25 1 in
  line_err (1 # 10000) (9 # 10) (phi 0) (-(1)) r = false /\
  ~ snd (dphi (f_alp r)) == f_gs r.
Proof.
  exists (at_quarter (-(1))), slope, wild_cubic. cbn zeta. split; [vm_compute; reflexivity|].
  intro H. apply Qeq_bool_iff in H. vm_compute in H. discriminate.
Qed.
Print Assumptions C44_gradient_mismatch_refuted.

(** With non-negative energies the wrapper raises although the search succeeds: phi = (x-1)^2. *)
Theorem C44_nonnegative_energy_refuted : exists (phi : Q -> Q) (dphi : Q -> Q * Q),
  line_err (1 # 10000) (9 # 10) (phi 0) (-(2)) (search phi dphi true_quad wild_cubic (1 # 10000) (9 # 10) (phi 0) (-(2)) 10 25 1) = false /\
  ls_run phi dphi true_quad wild_cubic (1 # 10000) (9 # 10) (phi 0) (-(2)) 10 25 1 = None.
Proof.
  exists (fun x => (x - 1) * (x - 1)), (fun x => (x, 2 * (x - 1))). split; vm_compute; reflexivity.
Qed.
Print Assumptions C44_nonnegative_energy_refuted.

(** phi = x^2 - 4x with initial step 1/4 and tight curvature: the step is doubled to 1, 2 and accepted at 2. *)
Example C44_example : match ls_run (fun x => x * x - 4 * x) (fun x => (x, 2 * x - 4)) true_quad wild_cubic
    (1 # 10000) (1 # 10) 0 (-(4)) 10 25 (1 # 4) with
  | Some (alp, err, stored) => Qeq_bool alp 2 && negb err && Qeq_bool stored 2
  | None => false end = true.
Proof. vm_compute. reflexivity. Qed.
(** The same with a first step far too long: one interpolation, which is exact. *)
Example C44_example_zoom : match ls_run (fun x => x * x - x) (fun x => (x, 2 * x - 1)) true_quad wild_cubic
    (1 # 10000) (1 # 10) 0 (-(1)) 10 25 4 with
  | Some (alp, err, stored) => Qeq_bool alp (1 # 2) && negb err && Qeq_bool stored (1 # 2)
  | None => false end = true.
Proof. vm_compute. reflexivity. Qed.
