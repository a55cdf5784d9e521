(** Model of hqca/opts: simplex/neldermead.py, simplex/lagarias.py, gradient/linesearch.py, gradient/gd.py and
    opt.py.

    Function values live in a totally ordered type ([Ord]); not-a-number is excluded.  Points are lists of
    rationals and their arithmetic is exact.  [None] stands for a raised exception.  The objective [f] is an
    arbitrary function; [log] records its calls (it is not an attribute of the code). *)
From Coq Require Import Bool List Arith QArith Qabs Lia.
Import ListNotations.
Local Open Scope nat_scope.

Record Ord := MkOrd {
  ov :> Type;
  oleb : ov -> ov -> bool;
  oleb_trans : forall x y z, oleb x y = true -> oleb y z = true -> oleb x z = true;
  oleb_total : forall x y, oleb x y = true \/ oleb y x = true
}.
Arguments oleb {_}.
Definition oltb {O : Ord} (x y : O) : bool := negb (oleb y x).

(** numpy vectors. *)
Definition point := list Q.
Fixpoint vzip (g : Q -> Q -> Q) (a b : point) : point :=
  match a, b with x :: a', y :: b' => g x y :: vzip g a' b' | _, _ => [] end.
Definition vadd : point -> point -> point := vzip Qplus.
Definition vsub : point -> point -> point := vzip Qminus.
Definition vscal (c : Q) (a : point) : point := map (Qmult c) a.
Definition sqnorm (a : point) : Q := fold_right (fun x s => (x * x + s)%Q) 0%Q a.

(** Replacing one entry of an array. *)
Fixpoint put_at {A} (i : nat) (x : A) (l : list A) : list A :=
  match l, i with
  | [], _ => []
  | _ :: t, O => x :: t
  | y :: t, S j => y :: put_at j x t
  end.

Section NelderMead.
  Variable O : Ord.
  (** The objective. *)
  Variable f : point -> O.

  (** neldermead.py l.250-254: the inner loop of [order_points] for the remaining [js].  The comparison reads
      [simp_f[ind[j]]], the update reads [simp_f[j]]. *)
  Fixpoint order_scan (d : O) (simp_f : list O) (ind : list nat) (i : nat) (js : list nat) (low : nat * O) : nat * O :=
    match js with
    | [] => low
    | j :: js' =>
        order_scan d simp_f ind i js'
          (if (i <? j) && oltb (nth (nth j ind 0) simp_f d) (snd low) then (j, nth j simp_f d) else low)
    end.
  (** l.246-257: one step of the outer loop. *)
  Definition order_step (d : O) (simp_f : list O) (ind : list nat) (i : nat) : list nat :=
    let low := order_scan d simp_f ind i (seq 0 (length simp_f)) (i, nth (nth i ind 0) simp_f d) in
    put_at (fst low) (nth i ind 0) (put_at i (nth (fst low) ind 0) ind).
  (** l.244-257: the final index list.  All array accesses are in range, [d] is never returned. *)
  Definition order_ind (simp_f : list O) : list nat :=
    match simp_f with
    | [] => []
    | d :: _ => fold_left (order_step d simp_f) (seq 0 (length simp_f)) (seq 0 (length simp_f))
    end.
  (** l.258-264. *)
  Definition order_points (simp : list (point * O)) : list (point * O) :=
    match simp with
    | [] => []
    | d :: _ => map (fun k => nth k simp d) (order_ind (map snd simp))
    end.

  (** The attributes.  [simp] holds the rows of [simp_x] with [simp_f]; the views [W_x], [B_x], [X_x] are read only
      before the rows they refer to are overwritten, so they are values here. *)
  Record nm := MkNM {
    simp : list (point * O);
    worst : point * O;
    best : point * O;
    second : point * O;
    centroid : point;
    stuck : point * point * point;
    stuck_ind : nat;
    calls : nat;
    log : list point
  }.

  (** [self.f(x)] with [self.energy_calls += 1]. *)
  Definition evaluate (st : nm) (x : point) : nm * O :=
    (MkNM (simp st) (worst st) (best st) (second st) (centroid st) (stuck st) (stuck_ind st) (S (calls st)) (log st ++ [x]), f x).

  (** l.234-238: the centroid of all points but the last.  [None]: ZeroDivisionError for N = 0. *)
  Definition calc_centroid (N : nat) (s : list (point * O)) : option point :=
    match N with
    | 0 => None
    | S _ => Some (vscal (1 # Pos.of_nat N) (fold_left vadd (map fst (firstn N s)) (repeat 0%Q N)))
    end.
  (** l.186-190 ([clean_up]), l.220-232 ([reassign]); [check_criteria] only sets [crit].  [None]: IndexError. *)
  Definition clean_up (N : nat) (st : nm) : option nm :=
    let s := order_points (simp st) in
    match calc_centroid N s, nth_error s N, nth_error s 0, nth_error s (N - 1) with
    | Some m, Some w, Some b, Some x =>
        Some (MkNM s w b x m (stuck st) (stuck_ind st) (calls st) (log st))
    | _, _, _, _ => None
    end.

  (** l.26-67: evaluation of the N+1 rows, ordering.  The rows ([initial], l.39-57) are a parameter. *)
  Definition nm_init (N : nat) (rows : list point) : option nm :=
    match rows with
    | [] => None
    | r0 :: _ =>
        let z := repeat 0%Q N in
        let st0 := MkNM [] (r0, f r0) (r0, f r0) (r0, f r0) z (z, z, z) 0 0 [] in
        let '(st1, s) := fold_left (fun acc x => let '(st, s) := acc in let '(st', v) := evaluate st x in (st', s ++ [(x, v)]))
                           rows (st0, []) in
        clean_up N (MkNM s (worst st1) (best st1) (second st1) z (z, z, z) 0 (calls st1) (log st1))
    end.
  (** l.39-43: the default rows. *)
  Definition old_rows (start shift : point) (unity : Q) : list point :=
    vadd start shift :: map (fun i => put_at i (nth i (vadd start shift) 0 + (99 # 100) * unity)%Q (vadd start shift))
                            (seq 0 (length start)).

  Variables alpha beta gamma delta : Q.

  (** l.82-96 ([_reflect]) and l.69-80 ([_check_stuck], without the square root); [u] is the value of r(). *)
  Definition reflect (u : Q) (st : nm) : nm * (point * O) :=
    let d := vsub (centroid st) (fst (worst st)) in
    let rx := vadd (centroid st) (vscal alpha d) in
    let '(s0, s1, s2) := stuck st in
    let '(sk, si) := match stuck_ind st with
                     | 0 => ((rx, s1, s2), 1)
                     | 1 => ((s0, rx, s2), 2)
                     | _ => ((s0, s1, rx), 0)
                     end in
    let '(v1, _, v3) := sk in
    let rx' := if Qle_bool (1 # 100000000000000000000) (sqnorm (vsub v1 v3)) then rx
               else vadd (centroid st) (vscal u d) in
    let st' := MkNM (simp st) (worst st) (best st) (second st) (centroid st) sk si (calls st) (log st) in
    let '(st'', v) := evaluate st' rx' in (st'', (rx', v)).

  (** l.100-115 ([_update]): the last row is replaced. *)
  Definition update_last (p : point * O) (st : nm) : nm :=
    MkNM (put_at (length (simp st) - 1) p (simp st)) (worst st) (best st) (second st) (centroid st)
      (stuck st) (stuck_ind st) (calls st) (log st).

  (** l.124-127. *)
  Definition extend (r : point * O) (st : nm) : nm * (point * O) :=
    let x := vadd (fst r) (vscal beta (vsub (fst r) (centroid st))) in
    let '(st', v) := evaluate st x in (st', (x, v)).
  (** l.129-140. *)
  Definition contract (r : point * O) (st : nm) : nm * (point * O) :=
    let cwm := vadd (fst (worst st)) (vscal gamma (vsub (centroid st) (fst (worst st)))) in
    let crm := vadd (centroid st) (vscal gamma (vsub (fst r) (centroid st))) in
    let '(st1, fwm) := evaluate st cwm in
    let '(st2, frm) := evaluate st1 crm in
    (st2, if oleb frm fwm then (crm, frm) else (cwm, fwm)).
  (** l.142-146: rows 1..N, each new row evaluated. *)
  Fixpoint shrink_rows (b : point) (rows : list (point * O)) (st : nm) : nm * list (point * O) :=
    match rows with
    | [] => (st, [])
    | (x, _) :: rows' =>
        let x' := vadd b (vscal delta (vsub x b)) in
        let '(st1, v) := evaluate st x' in
        let '(st2, s) := shrink_rows b rows' st1 in
        (st2, (x', v) :: s)
    end.
  Definition shrink (st : nm) : nm :=
    match simp st with
    | [] => st
    | r0 :: rows =>
        let '(st', s) := shrink_rows (fst (best st)) rows st in
        MkNM (r0 :: s) (worst st') (best st') (second st') (centroid st') (stuck st') (stuck_ind st') (calls st') (log st')
    end.

  (** neldermead.py l.153-184 ([next_step]). *)
  Definition nm_step (N : nat) (u : Q) (st : nm) : option nm :=
    let '(st1, r) := reflect u st in
    let st2 :=
      if oleb (snd r) (snd (second st1)) then
        if oltb (snd (best st1)) (snd r) then update_last r st1
        else
          let '(st1', e) := extend r st1 in
          if oltb (snd e) (snd (best st1')) then update_last e st1' else update_last r st1'
      else
        let '(st1', c) := contract r st1 in
        if oltb (snd c) (snd (worst st1')) then update_last c st1' else shrink st1' in
    clean_up N st2.

  (** lagarias.py l.9-47.  [None] in the branch of l.29: [self.pr_o] does not exist (AttributeError). *)
  Definition contract_to (sign : Q) (r : point * O) (st : nm) : nm * (point * O) :=
    let x := vadd (centroid st) (vscal sign (vscal gamma (vsub (fst r) (centroid st)))) in
    let '(st', v) := evaluate st x in (st', (x, v)).
  Definition lag_step (N : nat) (u : Q) (st : nm) : option nm :=
    let '(st1, r) := reflect u st in
    let st2 :=
      if oleb (snd r) (snd (second st1)) then
        if oltb (snd (best st1)) (snd r) then Some (update_last r st1)
        else
          let '(st1', e) := extend r st1 in
          if oltb (snd e) (snd (best st1')) then Some (update_last e st1') else None
      else if oltb (snd (worst st1)) (snd r) then
        let '(st1', c) := contract_to 1%Q r st1 in
        Some (if oltb (snd c) (snd (worst st1')) then update_last c st1' else shrink st1')
      else
        let '(st1', c) := contract_to (-1 # 1)%Q r st1 in
        Some (if oltb (snd c) (snd r) then update_last c st1' else shrink st1') in
    match st2 with Some s => clean_up N s | None => None end.

  (** A run: initialize and any number of steps; [us] are the random draws. *)
  Fixpoint steps (step : nat -> Q -> nm -> option nm) (N : nat) (us : list Q) (st : nm) : option nm :=
    match us with
    | [] => Some st
    | u :: us' => match step N u st with Some st' => steps step N us' st' | None => None end
    end.
End NelderMead.
Arguments order_scan {_}. Arguments order_step {_}. Arguments order_ind {_}. Arguments order_points {_}.
Arguments MkNM {_}. Arguments simp {_}. Arguments worst {_}. Arguments best {_}. Arguments second {_}.
Arguments centroid {_}. Arguments stuck {_}. Arguments stuck_ind {_}. Arguments calls {_}. Arguments log {_}.
Arguments evaluate {_}. Arguments calc_centroid {_}. Arguments clean_up {_}. Arguments nm_init {_}.
Arguments reflect {_}. Arguments update_last {_}. Arguments extend {_}. Arguments contract {_}.
Arguments shrink_rows {_}. Arguments shrink {_}. Arguments nm_step {_}. Arguments contract_to {_}. Arguments lag_step {_}.
Arguments steps {_}.

(** ** gradient/linesearch.py *)
Section Bisecting.
  Variable O : Ord.
  Variable f : point -> O.
  (** The search direction [self.x0]. *)
  Variable x0 : point.

  Record bis := MkBis { b_l : Q; b_r : Q; fl : O; fr : O }.
  (** l.93-102: the loop looking for a right end; it is unbounded, [None] when [fuel] runs out. *)
  Fixpoint bis_grow (fuel : nat) (al ar : Q) (vl : O) : option bis :=
    match fuel with
    | 0 => None
    | S k => let vr := f (vscal ar x0) in
             if oltb vr vl then bis_grow k ar (ar * 2) vr else Some (MkBis al ar vl vr)
    end.
  (** l.80-106: [vl] is [self.f_l] (given, or f([0])); scalar [shift] and [unity]. *)
  Definition bis_init (fuel : nat) (shift unity : Q) (vl : O) : option bis :=
    bis_grow fuel ((0 + shift) * unity)%Q ((1 + shift) * unity)%Q vl.
  (** l.108-116. *)
  Definition bis_step (b : bis) : bis :=
    let a := ((1 # 2) * (b_l b + b_r b))%Q in
    let v := f (vscal a x0) in
    if oltb v (fl b) then MkBis a (b_r b) v (fr b) else MkBis (b_l b) a (fl b) v.
  (** l.117-122: [best_x], [best_f] after a step. *)
  Definition bis_best (b : bis) : Q * O := if oltb (fl b) (fr b) then (b_l b, fl b) else (b_r b, fr b).
End Bisecting.
Arguments MkBis {_}. Arguments b_l {_}. Arguments b_r {_}. Arguments fl {_}. Arguments fr {_}.
Arguments bis_grow {_}. Arguments bis_init {_}. Arguments bis_step {_}. Arguments bis_best {_}.

Section Backtracking.
  (** Objective with rational values; [x0], [p], [f0] and [y] = g0.p are set once in [initialize] (l.36-49). *)
  Variable f : point -> Q.
  Variables (x0 p : point) (f0 y rho c : Q).

  Record bt := MkBt { bt_alpha : Q; bt_f1 : Q; bt_crit : bool }.
  (** l.50-56 and l.62-68: [bt_crit] is true when crit = 1. *)
  Definition bt_try (a : Q) : bt :=
    let v := f (vadd x0 (vscal a p)) in
    if Qle_bool v (f0 + c * a * y) then MkBt a v false else MkBt (a * rho) v true.
  (** l.14-30 and l.50: the argument [alpha_bar] is ignored, the first step is 1. *)
  Definition bt_init (alpha_bar : Q) : bt := bt_try 1.
  Definition bt_next (s : bt) : bt := bt_try (bt_alpha s).
  Fixpoint bt_run (n : nat) (s : bt) : bt := match n with 0 => s | S k => bt_run k (bt_next s) end.
End Backtracking.

(** ** gradient/gd.py *)
Section Descent.
  Variable O : Ord.
  Variable f : point -> O.
  Variable g : point -> point.
  Variable gamma : Q.

  (** [f1_x], [f1_f], the counter [energy_calls] and the calls made. *)
  Record gd := MkGd { gd_x : point; gd_f : O; gd_best : option (point * O); gd_count : nat; gd_log : list point }.
  (** l.12-26. *)
  Definition gd_init (start shift : point) : gd :=
    let x := vadd start shift in
    let x1 := vsub x (vscal gamma (g x)) in
    MkGd x1 (f x1) None 1 [x; x1].
  (** l.28-47. *)
  Definition gd_step (s : gd) : gd :=
    let x2 := vsub (gd_x s) (vscal gamma (g (gd_x s))) in
    MkGd x2 (f x2) (Some (x2, f x2)) (gd_count s) (gd_log s ++ [x2]).
  Fixpoint gd_run (n : nat) (s : gd) : gd := match n with 0 => s | S k => gd_run k (gd_step s) end.
End Descent.
Arguments MkGd {_}. Arguments gd_x {_}. Arguments gd_f {_}. Arguments gd_best {_}. Arguments gd_count {_}. Arguments gd_log {_}.
Arguments gd_init {_}. Arguments gd_step {_}. Arguments gd_run {_}.

(** ** stochastic/gpso.py *)
Section Swarm.
  Variable O : Ord.
  Variable f : point -> O.
  (** The value of np.zeros used for [Pf] (l.18-19). *)
  Variable zero : O.
  Variables w a1 a2 vmax : Q.

  (** [Gx] is first a view of a row of [X] (l.23), later a copy (l.47). *)
  Inductive gref := View (row : nat) | Own (x : point).
  Record swarm := MkSwarm { sX : list point; sV : list point; sP : list point; sPf : list O; sGx : gref; sGf : O }.
  Definition read_g (X : list point) (g : gref) : point :=
    match g with View k => nth k X [] | Own x => x end.
  (** np.argsort(F)[0]. *)
  Fixpoint argmin (i : nat) (F : list O) (b : nat * O) : nat :=
    match F with [] => fst b | v :: F' => argmin (S i) F' (if oltb v (snd b) then (i, v) else b) end.
  (** l.17-26 after the positions [X] are drawn.  [None]: IndexError without particles. *)
  Definition swarm_init (X : list point) : option swarm :=
    match map f X with
    | [] => None
    | v :: F => let b := argmin 1 F (0, v) in
                Some (MkSwarm X (map (map (fun _ => 0%Q)) X) X (map (fun _ => zero) X) (View b) (nth b (v :: F) v))
    end.
  (** l.37-40. *)
  Definition clamp (v : Q) : Q :=
    (if Qle_bool v 0 then if Qle_bool 0 v then 0 else - (if Qle_bool vmax (- v) then vmax else - v)
     else if Qle_bool vmax v then vmax else v)%Q.
  (** l.33-41: one particle; [rs] are the draws, two per dimension. *)
  Fixpoint move (x v p g : point) (rs : list (Q * Q)) : point * point :=
    match x, v, p, g, rs with
    | xd :: x', vd :: v', pd :: p', gd :: g', (r1, r2) :: rs' =>
        let nv := clamp (w * vd + a1 * (r1 * (pd - xd)) + a2 * (r2 * (gd - xd)))%Q in
        let '(nx, nvs) := move x' v' p' g' rs' in ((xd + nv)%Q :: nx, nv :: nvs)
    | _, _, _, _, _ => (x, v)
    end.
  (** l.33-48 for particle [i]. *)
  Definition swarm_particle (i : nat) (rs : list (Q * Q)) (s : swarm) : swarm :=
    let '(x, v) := move (nth i (sX s) []) (nth i (sV s) []) (nth i (sP s) []) (read_g (sX s) (sGx s)) rs in
    let X := put_at i x (sX s) in
    let F := f x in
    let better := oltb F (nth i (sPf s) zero) in
    MkSwarm X (put_at i v (sV s))
      (if better then put_at i x (sP s) else sP s) (if better then put_at i F (sPf s) else sPf s)
      (if oltb F (sGf s) then Own x else sGx s) (if oltb F (sGf s) then F else sGf s).
  (** l.31-50 and l.83-84: a swarm step; [draws] has one entry per particle. *)
  Fixpoint swarm_step (i : nat) (draws : list (list (Q * Q))) (s : swarm) : swarm :=
    match draws with [] => s | rs :: d' => swarm_step (S i) d' (swarm_particle i rs s) end.
  (** [best_x], [best_f] (copies, l.25-26 and l.83-84). *)
  Definition swarm_best (s : swarm) : point * O := (read_g (sX s) (sGx s), sGf s).

  (** [initialize] in the module as it is: [bound] tells which global names and attributes exist.  [copy] is used at
      l.17 (and [random] before it when there is a second particle), [self.pr_o] at l.107. *)
  Definition gpso_initialize (bound : nat -> bool) (X : list point) : option swarm :=
    if bound 0 (* copy *) && bound 1 (* random *) then
      match swarm_init X with Some s => if bound 2 (* self.pr_o *) then Some s else None | None => None end
    else None.
  (** gpso.py l.1-2 with opts/core/__init__.py l.4-8: only OptimizerInstance, OptimizerError,
      OptimizerNotImplemented and np are bound; _optimizers.py l.34-88 never sets [pr_o]. *)
  Definition gpso_bound (name : nat) : bool := false.
End Swarm.
Arguments MkSwarm {_}. Arguments sX {_}. Arguments sV {_}. Arguments sP {_}. Arguments sPf {_}. Arguments sGx {_}. Arguments sGf {_}.
Arguments argmin {_}. Arguments swarm_init {_}. Arguments swarm_particle {_}. Arguments swarm_step {_}.
Arguments swarm_best {_}. Arguments gpso_initialize {_}.

(** ** opt.py: the driver *)
Section Driver.
  (** An optimiser instance: its state, its [next_step] ([true]: an exception was raised), and its attributes
      [crit] and [best_f] ([None]: missing). *)
  Variable St : Type.
  Variable next : St -> St * bool.
  Variable crit : St -> option Q.
  Variable best_f : St -> option Q.
  Variable thresh : Q.
  Variable verbose : bool.

  (** [self.error] and the instance. *)
  Record drv := MkDrv { d_st : St; d_err : bool }.
  (** l.104-130.  [None]: the AttributeError of the verbose print leaves the method. *)
  Definition drv_next (d : drv) : option drv :=
    let '(s, e) := next (d_st d) in
    if verbose && (match best_f s, crit s with Some _, Some _ => false | _, _ => true end) then None
    else Some (MkDrv s (d_err d || e)).
  (** l.142-179 with a cache: (done, err).  In the converged branch [self.pr_o] (l.164) raises AttributeError after
      [done] is set. *)
  Definition drv_check (d : drv) (done : bool) : bool * bool :=
    match crit (d_st d), best_f (d_st d) with
    | Some c, Some _ =>
        if Qle_bool (Qabs.Qabs c) (Qabs.Qabs thresh) then (true, d_err d)
        else if d_err d then (true, true) else (false, false)
    | _, _ => if d_err d then (true, true) else (done, false)
    end.
  (** l.132-136: [run]; [None] when it does not stop within [fuel] iterations, [Some None] when it raises. *)
  Fixpoint drv_run (fuel : nat) (d : drv) (done : bool) : option (option drv) :=
    if done then Some (Some d) else
    match fuel with
    | 0 => None
    | S k => match drv_next d with
             | None => Some None
             | Some d' => drv_run k d' (fst (drv_check d' done))
             end
    end.
End Driver.
Arguments MkDrv {_}. Arguments d_st {_}. Arguments d_err {_}. Arguments drv_next {_}. Arguments drv_check {_}. Arguments drv_run {_}.
