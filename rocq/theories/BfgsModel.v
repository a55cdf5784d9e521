(** Model of hqca/acse/_bfgs_acse.py ([_bfgs_step]) and hqca/acse/_conjugate_acse.py ([_conjugate_gradient_step]).

    Gradients and directions are columns (numpy (n,1) arrays), here lists of rationals of length n; matrices are lists
    of rows.  The truncation (l.45-54; AcseModel) and the line search (l.84-93; LineModel) are arbitrary functions.
    A division by zero, which gives infinities or not-a-number entries in numpy, is [None].  Rounding, printing, the
    ansatz update and the log used by the truncation are not part of this file. *)
From Coq Require Import Bool List Arith QArith Qabs Qminmax Lia.
From Verif Require Import AcseModel.
Import ListNotations.
Local Open Scope Q_scope.

(** * numpy primitives *)
Definition vec := list Q.
Definition mat := list (list Q).
Fixpoint vadd (a b : vec) : vec :=
  match a, b with x :: a', y :: b' => x + y :: vadd a' b' | _, _ => [] end.
Fixpoint vsub (a b : vec) : vec :=
  match a, b with x :: a', y :: b' => x - y :: vsub a' b' | _, _ => [] end.
Definition vscale (c : Q) (a : vec) : vec := map (fun x => c * x) a.
Definition vopp (a : vec) : vec := map (fun x => - x) a.
Definition mv (M : mat) (v : vec) : vec := map (fun r => dot r v) M.
(** a row times a matrix with [n] columns *)
Fixpoint vm (n : nat) (r : vec) (B : mat) : vec :=
  match r, B with a :: r', b :: B' => vadd (vscale a b) (vm n r' B') | _, _ => repeat 0 n end.
Definition mm (n : nat) (A B : mat) : mat := map (fun r => vm n r B) A.
Fixpoint madd (A B : mat) : mat :=
  match A, B with a :: A', b :: B' => vadd a b :: madd A' B' | _, _ => [] end.
Fixpoint msub (A B : mat) : mat :=
  match A, B with a :: A', b :: B' => vsub a b :: msub A' B' | _, _ => [] end.
Definition mscale (c : Q) (A : mat) : mat := map (vscale c) A.
(** [s.dot(y.T)] of two columns *)
Definition outer (s y : vec) : mat := map (fun a => vscale a y) s.
(** [np.identity(n)] *)
Definition ident (n : nat) : mat :=
  map (fun i => map (fun j => if Nat.eqb i j then 1 else 0) (seq 0 n)) (seq 0 n).

(** * _bfgs_acse.py *)
(** l.140-164: the new inverse Hessian from the old one, the gradient before, the direction, the step length and the
    gradient after.  [iter] is [acse.total.iter]. *)
Definition bfgs_update (iter : nat) (Bi : mat) (g0 p : vec) (alp : Q) (g1 : vec) : option mat :=
  let y := vsub g1 g0 in
  let s := vscale alp p in
  let n := length y in
  let B0 := if Nat.eqb iter 0
            then if Qeq_bool (dot y y) 0 then None else Some (mscale (dot y s / dot y y) (ident n))
            else Some Bi in
  match B0 with
  | None => None
  | Some B =>
    if Qeq_bool (dot y s) 0 then None else
    let rho := 1 / dot y s in
    let L := msub (ident n) (mscale rho (outer s y)) in
    let R := msub (ident n) (mscale rho (outer y s)) in
    Some (madd (mm n L (mm n B R)) (mscale rho (outer s s)))
  end.

(** Attributes used by the step: [total.iter], [Bi_k0], [A] and [total.done]. *)
Record bfgs := MkBfgs { b_iter : nat; b_Bi : mat; b_grad : vec; b_done : bool }.
(** What the line search returns: [err], [alp_star], [g_star]. *)
Record line_out := MkLine { l_err : bool; l_alp : Q; l_grad : vec }.

Section Bfgs.
  (** l.45-54, applied to the direction and the gradient. *)
  Variable trunc : vec -> vec -> vec.
  (** l.84-90: the line search of iteration [iter] from the gradient along the direction. *)
  Variable line : nat -> vec -> vec -> line_out.

  (** l.37-54. *)
  Definition bfgs_dir (a : bfgs) : vec := trunc (vopp (mv (b_Bi a) (b_grad a))) (b_grad a).
  (** l.84-164, and the iteration counter, which the main loop advances. *)
  Definition bfgs_step (a : bfgs) : option bfgs :=
    let p := bfgs_dir a in
    let r := line (b_iter a) (b_grad a) p in
    if l_err r then Some (MkBfgs (b_iter a) (b_Bi a) (b_grad a) true)
    else match bfgs_update (b_iter a) (b_Bi a) (b_grad a) p (l_alp r) (l_grad r) with
         | None => None
         | Some B => Some (MkBfgs (S (b_iter a)) B (l_grad r) false)
         end.
  (** acse.py l.389: the initial matrix. *)
  Definition bfgs_init (g : vec) : bfgs := MkBfgs 0 (ident (length g)) g false.
  (** [k] turns of the main loop (fewer if [total.done]): the final state and the pairs (gradient, direction). *)
  Fixpoint bfgs_run (k : nat) (a : bfgs) : option (bfgs * list (vec * vec)) :=
    match k with
    | O => Some (a, [])
    | S k' =>
      if b_done a then Some (a, [])
      else match bfgs_step a with
           | None => None
           | Some a' =>
             match bfgs_run k' a' with
             | None => None
             | Some (a'', log) => Some (a'', (b_grad a, bfgs_dir a) :: log)
             end
           end
    end.
End Bfgs.

(** l.71-82 (BFGS, [lo] = 0.5) and _conjugate_acse.py l.58-69 ([lo] = 0.1): the first trial step.  [hist] is the
    difference of the last two energies and [dphi1] of l.73, if [total.iter] > 0; a vanishing [dphi1] gives an infinity
    of the sign of the difference, or not-a-number. *)
Definition first_trial (lo eps : Q) (hist : option (Q * Q)) : Q :=
  let clip a := Qmax lo (Qmin 1 ((101 # 100) * a)) in
  match hist with
  | None => clip eps
  | Some (de, d1) =>
    if Qeq_bool d1 0
    then if Qltb 0 de then Qmax lo 1 else clip eps
    else let a := 2 * de / d1 in clip (if Qltb a (1 # 100) then eps else a)
  end.

(** * L-BFGS (l.172-195).  Histories are listed oldest first, as the Python lists. *)
Record lbfgs := MkLb { lb_s : list vec; lb_y : list vec; lb_rho : list Q }.

(** l.175-179: the first loop, [i] = 1, 2, ...; [hist] lists (s, rho) newest first; [y] is [_lbfgs_yk[-1]] in every
    turn.  Result: [q] and [alp_is]. *)
Fixpoint lb_first (y : vec) (hist : list (vec * Q)) (q : vec) : vec * list Q :=
  match hist with
  | [] => (q, [])
  | (s, rho) :: h =>
    let a := rho * dot s q in
    let '(q', l) := lb_first y h (vsub q (vscale a y)) in (q', a :: l)
  end.
(** l.184-187: the second loop over all stored triples, oldest first; [alp_is[-(i+1)]] is entry [i] of the reversed
    list (IndexError if there is none). *)
Fixpoint lb_second (hist : list (vec * vec * Q)) (alps : list Q) (r : vec) : option vec :=
  match hist with
  | [] => Some r
  | (s, y, rho) :: h =>
    match alps with
    | [] => None
    | a :: alps' => lb_second h alps' (vadd r (vscale (a - rho * dot y r) s))
    end
  end.
Definition last_n {A : Type} (m : nat) (l : list A) : list A := skipn (length l - m) l.

(** l.173-188: [_lbfgs_r] from the stored triples, the new gradient and the newest pair. *)
Definition lb_direction (m : nat) (h : lbfgs) (g1 s_k y_k : vec) : option vec :=
  let '(q, alps) := lb_first (last (lb_y h) []) (firstn m (rev (combine (lb_s h) (lb_rho h)))) g1 in
  if Qeq_bool (dot s_k y_k) 0 || Qeq_bool (dot y_k y_k) 0 then None else
  let gamma := 1 / (1 / dot s_k y_k * dot y_k y_k) in
  lb_second (combine (combine (lb_s h) (lb_y h)) (lb_rho h)) (rev alps) (vscale gamma q).
(** l.189-195 ([m] > 0). *)
Definition lb_store (m : nat) (h : lbfgs) (s_k y_k : vec) : lbfgs :=
  MkLb (last_n m (lb_s h ++ [s_k])) (last_n m (lb_y h ++ [y_k])) (last_n m (lb_rho h ++ [1 / dot y_k s_k])).

(** * _conjugate_acse.py *)
(** The updates accepted by acse.py l.201. *)
Inductive cg_kind := FR | HS | PR | PRplus | HZ.
(** l.121-139.  HZ uses names that are not defined; the NameError is caught. *)
Definition cg_beta (k : cg_kind) (g0 g1 p : vec) : option Q :=
  let yk := vsub g1 g0 in
  match k with
  | FR => if Qeq_bool (dot g0 g0) 0 then None else Some (dot g1 g1 / dot g0 g0)
  | HS => if Qeq_bool (dot p yk) 0 then None else Some (dot g1 yk / dot p yk)
  | PR => if Qeq_bool (dot g0 g0) 0 then None else Some (dot g1 yk / dot g0 g0)
  | PRplus => if Qeq_bool (dot g0 g0) 0 then None else Some (Qmax (dot g1 yk / dot g0 g0) 0)
  | HZ => Some 0
  end.
(** l.141-147: the next direction.  A comparison with not-a-number is false. *)
Definition cg_next (k : cg_kind) (g0 g1 p : vec) : option vec :=
  match cg_beta k g0 g1 p with
  | None => None
  | Some beta =>
    let num := Qabs (dot g1 g0) in
    let den := dot g1 g1 in
    let beta' := if Qeq_bool den 0 then beta else if Qltb (1 # 2) (num / den) then 0 else beta in
    Some (vadd (vopp g1) (vscale beta' p))
  end.

(** [acse.A], [acse.p] and [total.done]. *)
Record cg := MkCg { cg_iter : nat; cg_grad : vec; cg_p : vec; cg_done : bool }.
Section Cg.
  Variable kind : cg_kind.
  Variable trunc : vec -> vec -> vec.
  Variable line : nat -> vec -> vec -> line_out.
  (** l.31-147. *)
  Definition cg_step (a : cg) : option cg :=
    let p := trunc (cg_p a) (cg_grad a) in
    let r := line (cg_iter a) (cg_grad a) p in
    if l_err r then Some (MkCg (cg_iter a) (cg_grad a) (cg_p a) true)
    else match cg_next kind (cg_grad a) (l_grad r) p with
         | None => None
         | Some p' => Some (MkCg (S (cg_iter a)) (l_grad r) p' false)
         end.
  (** acse.py l.402. *)
  Definition cg_init (g : vec) : cg := MkCg 0 g (vopp g) false.
  Fixpoint cg_run (k : nat) (a : cg) : option (cg * list (vec * vec)) :=
    match k with
    | O => Some (a, [])
    | S k' =>
      if cg_done a then Some (a, [])
      else match cg_step a with
           | None => None
           | Some a' =>
             match cg_run k' a' with
             | None => None
             | Some (a'', log) => Some (a'', (cg_grad a, trunc (cg_p a) (cg_grad a)) :: log)
             end
           end
    end.
End Cg.
