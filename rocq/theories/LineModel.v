(** Model of hqca/acse/_line_search_acse.py: line_search_nocedal and LineSearchACSE.run.

    Step lengths, energies and directional derivatives are rationals (not-a-number and infinities are excluded).
    The objective [phi], its gradient [dphi] and the two interpolation routines (l.285-337, which divide and take
    square roots) are arbitrary functions.  [phi] calls are recorded in the result; printing is omitted. *)
From Coq Require Import Bool List Arith QArith Qabs Qminmax Lia.
From Verif Require Import AcseModel.
Import ListNotations.
Local Open Scope Q_scope.

Section LineSearch.
  (** Gradient vectors ([g_j], [g_star]); never inspected by the search. *)
  Variable G : Type.
  Variable phi : Q -> Q.
  Variable dphi : Q -> G * Q.
  (** l.285-300 ([_quadratic_interpolate a_l a_h f_l f_h g_l]). *)
  Variable quad : Q -> Q -> Q -> Q -> Q -> Q.
  (** l.302-337 ([_cubic_interpolate a_l a_h a_m f_l f_h f_m g_l]). *)
  Variable cubic : Q -> Q -> Q -> Q -> Q -> Q -> Q -> Q.
  Variables c1 c2 : Q.
  (** [f_zed] and [gzed] (l.339-346). *)
  Variables fz gz : Q.

  (** Local variables of [_zoom] (l.187-190).  [z_m] is ([alp_m],[f_m]), unset exactly in the first turn;
      [z_j] is the last value of ([g_j],[gj]) if it is bound. *)
  Record zoom := MkZoom {
    z_al : Q; z_ah : Q; z_fl : Q; z_fh : Q; z_gl : Q; z_m : option (Q * Q); z_j : option (G * Q) }.

  (** l.193-218: interpolation and safeguards. *)
  Definition zoom_point (z : zoom) : Q :=
    let al := z_al z in
    let ah := z_ah z in
    let sign := if Qltb ah al then - (1) else 1 in
    let aj := match z_m z with
              | None => quad al ah (z_fl z) (z_fh z) (z_gl z)
              | Some (am, fm) => cubic al ah am (z_fl z) (z_fh z) fm (z_gl z)
              end in
    let ch1 := Qltb (sign * ah) (sign * aj) || Qltb (sign * aj) (al * sign) in
    let ch2 := Qltb (Qabs (al - aj)) ((1 # 20) * (ah - al)) in
    let ch3 := Qltb (Qabs (ah - aj)) ((1 # 20) * (ah - al)) in
    if ch3 then (1 # 4) * (1 * al + 3 * ah)
    else if ch2 then (1 # 4) * (3 * al + 1 * ah)
    else if ch1 then (1 # 2) * (1 * al + 1 * ah)
    else aj.

  (** A result of [_zoom] and of the search: step, value, gradient, directional derivative, whether the iteration
      limit was hit ([err] before l.402), and the steps at which [phi] was evaluated, in order. *)
  Record found := MkFound {
    f_alp : Q; f_val : Q; f_grad : G; f_gs : Q; f_limit : bool; f_log : list Q }.

  (** l.267-281. *)
  Definition zoom_give_up (z : zoom) (aj fj : Q) (log : list Q) : found :=
    let '(Gj, gj) := match z_j z with Some p => p | None => dphi aj end in
    if Qle_bool fj (z_fl z) && Qle_bool fj (z_fh z) then MkFound aj fj Gj gj true log
    else if Qle_bool (z_fl z) fj && Qle_bool (z_fl z) (z_fh z) && negb (Qeq_bool (z_al z) 0)
    then MkFound (z_al z) (z_fl z) (fst (dphi (z_al z))) (snd (dphi (z_al z))) true log
    else if Qle_bool (z_fh z) fj && Qle_bool (z_fh z) (z_fl z)
    then MkFound (z_ah z) (z_fh z) (fst (dphi (z_ah z))) (snd (dphi (z_ah z))) true log
    else MkFound aj fj Gj gj true log.

  (** l.187-283 ([_zoom]); [n] is [max_iters - iters], the turn with [n = 0] sets [err]. *)
  Fixpoint zoom_loop (n : nat) (z : zoom) (log : list Q) : found :=
    let aj := zoom_point z in
    let fj := phi aj in
    let log' := log ++ [aj] in
    if Qltb (fz + c1 * aj * gz) fj || Qle_bool (z_fl z) fj then
      let z' := MkZoom (z_al z) aj (z_fl z) fj (z_gl z) (Some (z_ah z, z_fh z)) (z_j z) in
      match n with
      | O => zoom_give_up z' aj fj log'
      | S n' => zoom_loop n' z' log'
      end
    else
      let '(Gj, gj) := dphi aj in
      let z' :=
        if Qle_bool 0 (gj * (z_ah z - z_al z))
        then MkZoom aj (z_al z) fj (z_fl z) gj (Some (z_ah z, z_fh z)) (Some (Gj, gj))
        else MkZoom aj (z_ah z) fj (z_fh z) gj (Some (z_al z, z_fl z)) (Some (Gj, gj)) in
      match n with
      | O => zoom_give_up z' aj fj log'
      | S n' =>
          if Qle_bool (Qabs gj) (- c2 * gz) then MkFound aj fj Gj gj false log'
          else zoom_loop n' z' log'
      end.

  Variables (max_iters : nat) (alp_max : Q).

  (** l.356-391; [n] is [max_iters - iters], [first] is [iters = 1]. *)
  Fixpoint bracket (n : nat) (first : bool) (a0 a1 f0 g0 : Q) (log : list Q) : found :=
    let f1 := phi a1 in
    let log' := log ++ [a1] in
    if Qltb (fz + c1 * a1 * gz) f1 || (Qle_bool f0 f1 && negb first) then
      zoom_loop max_iters (MkZoom a0 a1 f0 f1 g0 None None) log'
    else
      let '(G1, g1) := dphi a1 in
      if Qle_bool (Qabs g1) (- c2 * gz) then MkFound a1 f1 G1 g1 false log'
      else if Qle_bool 0 g1 then zoom_loop max_iters (MkZoom a0 a1 f0 f1 g0 None None) log'
      else
        let a2 := Qmin (2 * a1) alp_max in
        match n with
        | O => MkFound a2 f1 G1 g1 true log'
        | S n' => bracket n' false a1 a2 f1 g1 log'
        end.

  Definition search (alp_1 : Q) : found := bracket (max_iters - 1) true 0 alp_1 fz gz [].

  (** l.392-405: the returned tuple ([alp_star], [f_star], [g_star], [err], [(w1,w2,w3)]). *)
  Definition wolfe (r : found) : bool * bool * bool :=
    (Qle_bool (f_val r) (fz + c1 * f_alp r * gz), Qle_bool (gz * c2) (f_gs r),
     Qle_bool (Qabs (f_gs r)) (Qabs (gz * c2))).
  Definition line_err (r : found) : bool :=
    let '(w1, w2, _) := wolfe r in
    if w1 && w2 && f_limit r then false else f_limit r.

  (** * LineSearchACSE (l.38-40, 81-104): the best energy seen so far, starting from [best_en = 0] with no stored
      circuit and [best_alp = 1]. *)
  Definition track (b : Q * option Q) (a : Q) : Q * option Q :=
    if Qltb (phi a) (fst b) then (phi a, Some a) else b.

  (** l.43-79: the step returned, the error flag, and the step whose circuit is stored; AttributeError when no
      evaluated energy was negative ([best_circ] unset). *)
  Definition ls_run (alp_1 : Q) : option (Q * bool * Q) :=
    let r := search alp_1 in
    match snd (fold_left track (f_log r) (0, None)) with
    | None => None
    | Some b => Some (f_alp r, if Qeq_bool b (f_alp r) then line_err r else true, b)
    end.
End LineSearch.
Arguments f_alp {_}. Arguments f_val {_}. Arguments f_grad {_}. Arguments f_gs {_}. Arguments f_limit {_}.
Arguments f_log {_}. Arguments search {_}. Arguments line_err {_}. Arguments ls_run {_}. Arguments wolfe {_}.
Arguments zoom_loop {_}. Arguments bracket {_}. Arguments zoom_give_up {_}. Arguments zoom_point {_}.
Arguments MkZoom {_}. Arguments MkFound {_}.
Arguments z_al {_}. Arguments z_ah {_}. Arguments z_fl {_}. Arguments z_fh {_}. Arguments z_gl {_}.
Arguments z_m {_}. Arguments z_j {_}.
