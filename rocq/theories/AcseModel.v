(** Model of hqca/acse: _ansatz_S.py (class Ansatz), _tools_acse.py (truncation), acse.py (run, _check) and
    _newton_acse.py.

    Energies, step sizes and vector entries are rationals and their arithmetic is exact; infinities and
    not-a-number are excluded.  The back end (circuit execution, residual solver) appears as an arbitrary
    function or an arbitrary sequence of answers.  [None] stands for a raised exception. *)
From Coq Require Import Bool List Arith ZArith QArith Qabs Qminmax Lia.
From Verif Require Import Coeff OperatorModel.
Import ListNotations.
Local Open Scope nat_scope.

(** * _ansatz_S.py, values.  An Ansatz is its list of layers [self.A]; each layer is an Operator value
    (OperatorModel); [closed] is the integer parameter, [True] being 1.  [copy] is deepcopy, so the layers of the
    new Ansatz are not shared with the old one; the sharing of the appended operator with the caller
    (l.107, 112) is not modelled. *)
Section Ansatz.
  Variable K : CoefRing.
  Variable key : Type.
  Variable keqb : key -> key -> bool.
  Notation layer := (opv K key).

  (** _ansatz_S.py l.84-89 ([clean]). *)
  Definition ans_clean (A : list layer) : list layer :=
    filter (fun a => match a with [] => false | _ => true end) (map op_clean A).

  (** l.113-118: the number of accessible layers, [-lim]; l.94-100 ([get_lim]) returns its negation. *)
  Definition ans_depth (closed : Z) (A : list layer) : nat :=
    if (closed =? 1)%Z then 0
    else if (closed =? 0)%Z then length A
    else Nat.min (Z.to_nat (- closed)) (length A).

  (** _operator.py l.62-63: [o in self.A[d]]. *)
  Definition layer_has (k : key) (l : layer) : bool :=
    match op_get keqb k l with Some _ => true | None => false end.

  (** [new.A[d] += o] for the layer at position [i] from the front. *)
  Fixpoint layer_add (i : nat) (e : key * K) (A : list layer) : list layer :=
    match A, i with
    | [], _ => []
    | a :: A', O => op_add_string keqb a e :: A'
    | a :: A', S j => a :: layer_add j e A'
    end.

  (** l.121-130: one string of the added operator; the search [reversed(range(lim,0))] reads the layers of the
      old ansatz [A], last layer first. *)
  Definition ans_string (m : nat) (A : list layer) (st : list layer * layer) (e : key * K) : list layer * layer :=
    match find (fun d => layer_has (fst e) (nth d (rev A) [])) (seq 0 m) with
    | Some d => (layer_add (length A - 1 - d) e (fst st), snd st)
    | None => (fst st, op_add_string keqb (snd st) e)
    end.

  (** l.102-137 ([__add__] of an Operator). *)
  Definition ans_add (closed : Z) (A : list layer) (P : layer) : list layer :=
    match A with
    | [] => [P]
    | _ =>
        ans_clean
          (if (closed =? 1)%Z then A ++ [P]
           else
             let st := fold_left (ans_string (ans_depth closed A) A) P (A, []) in
             match snd st with [] => fst st | n => fst st ++ [n] end)
    end.

  (** l.139-145 ([__sub__]). *)
  Definition ans_sub (closed : Z) (A : list layer) (P : layer) : list layer :=
    ans_add closed A
      (fold_left (fun new e => op_add_string keqb new (fst e, cmul (snd e) (copp c1))) P []).

  (** l.41-50 ([truncate]) for a depth [d >= 0]. *)
  Definition ans_truncate (d : nat) (A : list layer) : list layer := firstn d A.
End Ansatz.
Arguments ans_clean {_ _}. Arguments ans_depth {_ _}. Arguments ans_add {_ _}. Arguments ans_sub {_ _}.
Arguments ans_string {_ _}. Arguments layer_add {_ _}. Arguments layer_has {_ _}. Arguments ans_truncate {_ _}.

Local Open Scope Q_scope.
Definition Qltb (a b : Q) : bool := negb (Qle_bool b a).

(** * _tools_acse.py l.39-159 ([truncation]).  Vectors are columns; [pair] stands for the look-up
    [mapping[keys[target][2:]+keys[target][:2]]] (l.113-115). *)
Fixpoint dot (a b : list Q) : Q :=
  match a, b with x :: a', y :: b' => x * y + dot a' b' | _, _ => 0 end.
Fixpoint hadamard (a b : list Q) : list Q :=
  match a, b with x :: a', y :: b' => x * y :: hadamard a' b' | _, _ => [] end.
Fixpoint zero_at (i : nat) (l : list Q) : list Q :=
  match l, i with
  | [], _ => []
  | _ :: t, O => 0 :: t
  | y :: t, S j => y :: zero_at j t
  end.
(** [list.remove]: the first occurrence, ValueError when absent. *)
Fixpoint list_remove (x : nat) (l : list nat) : option (list nat) :=
  match l with
  | [] => None
  | y :: t => if Nat.eqb x y then Some t else option_map (cons y) (list_remove x t)
  end.
Definition max_list (l : list Q) : option Q :=
  match l with [] => None | x :: t => Some (fold_left Qmax t x) end.
Definition min_list (l : list Q) : option Q :=
  match l with [] => None | x :: t => Some (fold_left Qmin t x) end.

Inductive trunc_method := TAbs | TDelta.

Section Truncation.
  Variables (v g : list Q) (pair : nat -> nat) (method : trunc_method).
  (** [include] with the list [k_added] (l.76-81); [None] when [include] is false. *)
  Variable k_added : option (list nat).
  Variable thresh : Q.

  (** l.125-134. *)
  Definition below (target : nat) : bool :=
    match method with
    | TAbs => Qltb (Qabs (nth target v 0)) (thresh * (99999 # 100000))
    | TDelta => Qltb (thresh * (99999 # 100000)) (nth target (hadamard v g) 0)
    end.

  (** l.103-145: the loop on [check] and [temp]; every turn removes an element of [check], [fuel] bounds them. *)
  Fixpoint trunc_loop (fuel : nat) (check : list nat) (temp : list Q) : option (list Q) :=
    match check with
    | [] => Some temp
    | target :: rest =>
        match fuel with
        | O => None
        | S fuel' =>
            let p := pair target in
            if ((target <? length v) && (p <? length v))%nat then
              if Nat.eqb target p then trunc_loop fuel' rest temp
              else
                match list_remove p rest with
                | None => None
                | Some rest' =>
                    if match k_added with Some l => existsb (Nat.eqb target) l | None => false end
                    then trunc_loop fuel' rest' temp
                    else
                      let en := nth target (hadamard v g) 0 + nth target (hadamard v g) 0 in
                      let descent := dot temp g - en in
                      let remove := below target && negb (Qle_bool 0 descent) in
                      trunc_loop fuel' rest' (if remove then zero_at p (zero_at target temp) else temp)
                end
            else None
        end
    end.
End Truncation.

(** l.85-96: the threshold of each method; [max]/[min] of an empty array raise. *)
Definition trunc_thresh (v g : list Q) (rel min_thresh : Q) (method : trunc_method) : option Q :=
  match method with
  | TAbs => option_map (fun m => Qmax (m * rel) min_thresh) (max_list (map Qabs v))
  | TDelta => option_map (fun m => m * rel) (min_list (hadamard v g))
  end.

(** l.39-159; [crit] is the list returned by [np.argsort] (l.86, 92). *)
Definition truncation (v g : list Q) (pair : nat -> nat) (rel min_thresh : Q) (method : trunc_method)
    (k_added : option (list nat)) (crit : list nat) : option (list Q) :=
  match trunc_thresh v g rel min_thresh method with
  | None => None
  | Some th => trunc_loop v g pair method k_added th (length crit) crit v
  end.

(** * acse.py l.658-767: [run] and [_check]. *)
Inductive conv := CTrust | CNorm | COther.

Record acse_cfg := MkCfg {
  max_iter : nat; max_depth : option nat; conv_type : conv; crit : Q; ts_crit : Q; obj_crit : Q }.

(** What one call of [_run_acse] leaves behind: the energy of the stored RDM, the residual norm, the two
    trust-region figures, the depth of the ansatz and whether the step itself ended the run
    (_bfgs_acse.py l.91-93, _conjugate_acse.py l.79-81). *)
Record acse_step := MkStep {
  s_en : Q; s_norm : Q; s_taylor : Q; s_object : Q; s_depth : nat; s_stop : bool }.

Record acse := MkAcse {
  a_iter : nat; a_done : bool; a_best : Q; a_ek : Q; a_incr : nat; a_logE : list Q }.

(** acse.py l.375-404 ([build]) and core/_base_run.py l.22-28. *)
Definition acse_build (e0 : Q) : acse := MkAcse 0 false e0 e0 0 [e0].

(** [np.average] of the last [k] log entries (l.701-708); [a_logE] is kept newest first. *)
Definition Qsum (l : list Q) : Q := fold_right Qplus 0 l.
Definition average (l : list Q) : Q := Qsum l / inject_Z (Z.of_nat (length l)).

(** l.746-763. *)
Definition converged (c : acse_cfg) (s : acse_step) : option bool :=
  match conv_type c with
  | CTrust => Some (Qle_bool (Qabs (s_taylor s)) (Qmax (ts_crit c) (crit c))
                    || Qle_bool (Qabs (s_object s)) (Qmax (obj_crit c) (crit c)))
  | CNorm => Some (Qltb (s_norm s) (crit c))
  | COther => None
  end.

(** l.681-767 ([_check]) after a step [s].  At [max_depth] the code compares an Ansatz with an integer (l.693),
    which raises TypeError. *)
Definition acse_check (c : acse_cfg) (s : acse_step) (a : acse) : option acse :=
  let en := s_en s in
  let best := if Nat.eqb (a_iter a) 0 then a_ek a else a_best a in
  let it := S (a_iter a) in
  let last := Nat.eqb it (max_iter c) in
  if negb last && match max_depth c with Some d => Nat.eqb (s_depth s) d | None => false end then None
  else
    let logE := en :: a_logE a in
    let avg := average (firstn (Nat.min 3 (it + 1)) logE) in
    let incr := if Qle_bool avg en then S (a_incr a) else a_incr a in
    let many := Qle_bool avg en && (3 <=? incr)%nat in
    let best' := if Qltb en best then en else best in
    match converged c s with
    | None => None
    | Some cv => Some (MkAcse it (a_done a || s_stop s || last || many || cv) best' en incr logE)
    end.

(** l.666-668: the loop, for at most [fuel] turns; the back end answers depend on the whole state. *)
Fixpoint acse_run (backend : acse -> acse_step) (c : acse_cfg) (fuel : nat) (a : acse) : option acse :=
  if a_done a then Some a
  else
    match fuel with
    | O => Some a
    | S fuel' =>
        match acse_check c (backend a) a with
        | None => None
        | Some a' => acse_run backend c fuel' a'
        end
    end.

(** * _newton_acse.py.  [E s] is the energy of [psi + A*s]. *)
Record newton_cfg := MkNewton {
  n_eps : Q; n_d : Q; n_trust : bool; n_hardware : bool; (** [be_type in ['nm','qc']] *)
  n_Del : Q; n_nv : Q; n_ns : Q; n_gi : Q; n_gd : Q; n_obj : Q; n_ts : Q }.

(** Outcome: the step is rejected, or [psi] becomes [psi + A*coeff] with stored energy and the new radius. *)
Inductive newton_res := NReject (radius : Q) | NAccept (coeff energy radius : Q).

Definition tiny : Q := 1 # 10000000000000000.

(** l.21-27. *)
Definition newton_derivs (c : newton_cfg) (E : Q -> Q) (e_k : Q) : Q * Q :=
  let g1 := E (n_eps c) - e_k in
  let g2 := E (n_d c * n_eps c) - e_k in
  let d2D := (2 * g2 - 2 * n_d c * g1) / (n_d c * n_eps c * n_eps c * (n_d c - 1)) in
  let d1D := (g1 * (n_d c * n_d c) - g2) / (n_d c * n_eps c * (n_d c - 1)) in
  if Qltb (Qabs d2D) tiny then (d1D, tiny)
  else if Qltb (Qabs d1D) tiny then (tiny, d2D)
  else (d1D, d2D).

(** l.63-76. *)
Definition newton_coeff (grad hess del : Q) : Q :=
  if Qltb (Qabs (grad / hess)) del then - grad / hess
  else if Qltb (- grad / hess) 0 then del * (-1) else del.

(** l.62-129: the loop; [turns] more evaluations are allowed (one for 'nm' and 'qc', two otherwise).  The result
    is the last coefficient, its energy and the radius. *)
Fixpoint newton_loop (c : newton_cfg) (E : Q -> Q) (e_k grad hess : Q) (turns : nat) (del : Q) : Q * Q * Q :=
  let coeff := newton_coeff grad hess del in
  let ef := E coeff in
  let taylor := e_k - (e_k + coeff * grad + (1 # 2) * coeff * hess * coeff) in
  let object := e_k - ef in
  if Qle_bool (Qabs object) (n_obj c) then (coeff, ef, del)
  else if Qle_bool (Qabs taylor) (n_ts c) then (coeff, ef, del)
  else
    let rho := object / taylor in
    if Qle_bool (n_nv c) rho then (coeff, ef, del * n_gi c)
    else if Qle_bool (n_ns c) rho then (coeff, ef, del)
    else
      match turns with
      | O => (coeff, ef, del * n_gd c)
      | S t => newton_loop c E e_k grad hess t (del * n_gd c)
      end.

(** l.7-148.  [None]: exception (no trust region, l.46-47; negative curvature, l.51 then l.137, where [ef] is not
    bound), or a zero finite-difference denominator (floating-point infinities are not modelled). *)
Definition newton_step (c : newton_cfg) (E : Q -> Q) (e_k : Q) : option newton_res :=
  if Qeq_bool (n_d c * n_eps c * n_eps c * (n_d c - 1)) 0 then None
  else if negb (n_trust c) then None
  else
    let '(grad, hess) := newton_derivs c E e_k in
    if Qltb hess 0 then (if n_hardware c then Some (NReject (n_Del c)) else None)
    else
      let '(coeff, ef, del) := newton_loop c E e_k grad hess (if n_hardware c then 0 else 1)%nat (n_Del c) in
      if n_hardware c then Some (NReject del)  (* l.9, 130: [coeff_best] is still 0.0 *)
      else Some (NAccept coeff ef del).
