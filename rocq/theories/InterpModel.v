(** Model of the interpolations of the line search (hqca/acse/_line_search_acse.py l.285-337) on real numbers.  [None]
    stands for an exception and for a result that is no number (division by zero, square root of a negative number). *)
From Coq Require Import Reals.
Local Open Scope R_scope.

(** l.285-300 ([_quadratic_interpolate]). *)
Definition quadratic_interpolate (a_l a_h f_l f_h g_l : R) : option R :=
  let Del := a_h - a_l in
  if Req_EM_T Del 0 then None
  else
    let alpha := / (Del * Del) * (f_h - g_l * Del - f_l) in
    if Req_EM_T alpha 0 then None else Some (- g_l / (2 * alpha) + a_l).

(** np.linalg.solve([[p,q],[r,s]],[u,v]); a singular matrix raises LinAlgError. *)
Definition solve2 (p q r s u v : R) : option (R * R) :=
  let det := p * s - q * r in
  if Req_EM_T det 0 then None else Some ((u * s - q * v) / det, (p * v - u * r) / det).

(** l.302-337 ([_cubic_interpolate]). *)
Definition cubic_interpolate (a_l a_h a_m f_l f_h f_m g_l : R) : option R :=
  let gam := g_l in
  let delta := f_l in
  match solve2 ((a_h - a_l) ^ 3) ((a_h - a_l) ^ 2) ((a_m - a_l) ^ 3) ((a_m - a_l) ^ 2)
               (f_h - gam * (a_h - a_l) - delta) (f_m - gam * (a_m - a_l) - delta) with
  | None => None
  | Some (alp, bet) =>
      let qa := 3 * alp in
      let qb := 2 * bet - 6 * a_l * alp in
      let qc := 3 * (a_l ^ 2) * alp - 2 * bet * a_l + gam in
      if Req_EM_T qa 0 then None
      else if Rlt_dec (qb ^ 2 - 4 * qa * qc) 0 then None
      else
        let alp_p := (- qb / (2 * qa)) + (sqrt (qb ^ 2 - 4 * qa * qc) / (2 * qa)) in
        let alp_m := (- qb / (2 * qa)) - (sqrt (qb ^ 2 - 4 * qa * qc) / (2 * qa)) in
        if Rlt_dec a_l alp_p then if Rlt_dec alp_p a_h then Some alp_p else Some alp_m else Some alp_m
  end.
