(** Model of hqca/opts/gradient/bfgs.py (class BFGS, the optimizer 'bfgs' of opts/opt.py).

    Row vectors (1 x n numpy matrices) are lists of rationals, matrices are lists of rows; the objective [f] and its
    gradient [g] are arbitrary functions of a vector.  Printing, the counters [f_evals] and [g_evals],
    and the two unused line searches (l.251-307) are omitted; rounding is not modelled. *)
From Coq Require Import Bool List Arith QArith Qabs Lia.
From Verif Require Import AcseModel BfgsModel.
Import ListNotations.
Local Open Scope Q_scope.

(** l.50-54, 58-62, 67-71, 127-131, 135-139, 144-148: a denominator is kept away from 0.  (l.135 has [<=] for [<],
    which gives the same value.) *)
Definition tiny : Q := 1 # (10 ^ 30).
Definition guard (d : Q) : Q := if Qltb (Qabs d) tiny then if Qltb d 0 then - tiny else tiny else d.

(** l.48-64 and 125-141: the Hessian [B1]. *)
Definition gb_hess (n : nat) (B : mat) (s y : vec) : mat :=
  let Ba := mscale (1 / guard (dot y s)) (outer y y) in
  let Bt := map (fun j => map (fun r => nth j r 0) B) (seq 0 n) in
  let Bb := mscale (1 / guard (dot s (mv B s))) (mm n B (mm n (outer s s) Bt)) in
  msub (madd B Ba) Bb.
(** l.65-75 and 142-152: the inverse Hessian [B1i]. *)
Definition gb_inv (n : nat) (Bi : mat) (s y : vec) : mat :=
  let r := 1 / guard (dot y s) in
  let L := msub (ident n) (mscale r (outer s y)) in
  let R := msub (ident n) (mscale r (outer y s)) in
  madd (mm n L (mm n Bi R)) (mscale r (outer s s)).

Section Line.
  Variable f : vec -> Q.
  Variable g : vec -> vec.
  (** [x0], [p0], [f_zed] and [g_zed] (l.173-181), the constants [c1], [c2] of l.172. *)
  Variables (x p : vec) (fz gz : Q).
  Definition gb_c1 : Q := 6 # 10.
  Definition gb_c2 : Q := 9 # 10.
  (** l.183-191. *)
  Definition phi (a : Q) : Q := f (vadd x (vscale a p)).
  Definition dphi (a : Q) : Q := dot (g (vadd x (vscale a p))) p.

  (** l.193-218 ([zoom]).  [k] is 20 - [iters]: the turn with [k] = 0 raises OptimizerError ([None]), whatever it
      finds.  [f_h] is never read and is omitted.  Result: [alp_star] and [f_j]. *)
  Fixpoint gb_zoom (k : nat) (al ah fl : Q) : option (Q * Q) :=
    match k with
    | O => None
    | S k' =>
      let aj := (1 # 2) * (al + ah) in
      let fj := phi aj in
      if Qltb (fz + gb_c1 * aj * gz) fj || Qle_bool fl fj then gb_zoom k' al aj fl
      else
        let gj := dphi aj in
        if Qle_bool (Qabs gj) (- gb_c2 * gz) then Some (aj, fj)
        else gb_zoom k' aj (if Qle_bool 0 (gj * (ah - al)) then al else ah) fj
    end.

  (** l.219-243.  The counter [iters] is 1 in every turn, so the second test of l.227 never applies.  The loop has no
      bound: the result is [None] if it is still running after [fuel] turns, [Some None] if [zoom] raised. *)
  Fixpoint gb_bracket (fuel : nat) (a0 a1 f0 : Q) : option (option (Q * Q)) :=
    match fuel with
    | O => None
    | S k =>
      let f1 := phi a1 in
      let iters := 1%nat in
      if Qltb (fz + gb_c1 * a1 * gz) f1 || (Qle_bool f0 f1 && Nat.ltb 1 iters) then Some (gb_zoom 20 a0 a1 f0)
      else
        let g1 := dphi a1 in
        if Qle_bool (Qabs g1) (- gb_c2 * gz) then Some (Some (a1, f1))
        else if Qle_bool 0 g1 then Some (gb_zoom 20 a0 a1 f0)
        else gb_bracket k a1 ((1 # 2) * (a1 + 5)) f1
    end.
  (** l.165-248 ([_line_search]). *)
  Definition gb_line (fuel : nat) : option (option (Q * Q)) := gb_bracket fuel 0 1 fz.
End Line.

(** Attributes [x0], [g0], [B0], [B0i], [s0], [best_f], [stuck], [stuck_ind], and [N_stuck] of the last step;
    [best_x] is [x0]. *)
Record gb := MkGb { gb_x : vec; gb_g : vec; gb_B : mat; gb_Bi : mat; gb_s : vec; gb_best : Q;
                    gb_stuck : list vec; gb_ind : nat; gb_nstuck : nat }.

Section Steps.
  Variable f : vec -> Q.
  Variable g : vec -> vec.
  Variable fuel : nat.

  (** l.34-85 and 115-161: direction, line search, update.  [x] is [x0] (after [check_stuck]); [fz] is
      [f_zed].  [None]: the line search is still running; [Some None]: it raised. *)
  Definition gb_move (x g0 : vec) (B Bi : mat) (fz : Q) (stuck : list vec) (ind ns : nat) : option (option gb) :=
    let n := length x in
    let p := vopp (mv Bi g0) in
    match gb_line f g x p fz (dot g0 p) fuel with
    | None => None
    | Some None => Some None
    | Some (Some (alp, _)) =>
      let s := vscale alp p in
      let x1 := vadd x s in
      let y := vsub (g x1) g0 in
      Some (Some (MkGb x1 (g x1) (gb_hess n B s y) (gb_inv n Bi s y) s (f x1) stuck ind ns))
    end.

  (** l.21-90 ([initialize]); [prior] is the attribute [best_f], absent on a new object (l.173-177). *)
  Definition gb_init (prior : option Q) (start : vec) : option (option gb) :=
    let n := length start in
    gb_move start (g start) (ident n) (ident n) (match prior with Some b => b | None => f start end)
      (repeat (repeat 0 n) 3) 0 0.

  (** l.93-101: the current point is written to row [stuck_ind]. *)
  Fixpoint set_row (i : nat) (v : vec) (l : list vec) : list vec :=
    match l, i with
    | [], _ => []
    | _ :: l', O => v :: l'
    | a :: l', S i' => a :: set_row i' v l'
    end.
  (** l.103-114 ([check_stuck]): rows 0 and 2 closer than 1e-15. *)
  Definition is_stuck (stuck : list vec) : bool :=
    let d := vsub (nth 0 stuck []) (nth 2 stuck []) in Qltb (dot d d) ((1 # (10 ^ 15)) * (1 # (10 ^ 15))).
  (** l.92-163 ([next_step]). *)
  Definition gb_step (a : gb) : option (option gb) :=
    let stuck := set_row (gb_ind a) (gb_x a) (gb_stuck a) in
    let ind := match gb_ind a with 0 => 1 | 1 => 2 | _ => 0 end%nat in
    let x := if is_stuck stuck then vsub (gb_x a) (vscale (1 # 2) (gb_s a)) else gb_x a in
    gb_move x (gb_g a) (gb_B a) (gb_Bi a) (gb_best a) stuck ind (if is_stuck stuck then 1 else 0).

  (** [k] calls of [next_step] after [initialize]: all the states, oldest first. *)
  Fixpoint gb_steps (k : nat) (a : gb) : option (option (list gb)) :=
    match k with
    | O => Some (Some [a])
    | S k' =>
      match gb_step a with
      | None => None
      | Some None => Some None
      | Some (Some b) =>
        match gb_steps k' b with
        | Some (Some l) => Some (Some (a :: l))
        | r => r
        end
      end
    end.
  Definition gb_run (k : nat) (prior : option Q) (start : vec) : option (option (list gb)) :=
    match gb_init prior start with
    | None => None
    | Some None => Some None
    | Some (Some a) => gb_steps k a
    end.
End Steps.
