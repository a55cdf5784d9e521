(** Model of gen_spin_1ei_lr, hqca/tools/_chemistry.py l.225-264: the one-electron integrals between orbitals given by
    separate left and right coefficients.

    Arrays are functions of the indices, as in IntsModel.v; a missing key of spin2spac and an index outside the arrays
    raise ([None]).  The regions other than those named in the code (the arguments alpha and beta are then iterated as
    dictionaries) are not modelled. *)
From Coq Require Import Bool List Arith.
From Verif Require Import Coeff InvModel HamModel IntsModel.
Import ListNotations.
Local Open Scope coef_scope.

(** l.237-243: the orbitals of the region. *)
Definition lr_orbitals (r : region) (g : groups) : list nat :=
  match r with
  | Full => g_inactive g ++ g_active g
  | Active => g_active g
  end.

Section Lr.
  Variable K : CoefRing.
  Notation array2 := (nat -> nat -> K).
  Variable N : nat.
  (** l.245-253 (and l.255-263): one spin, one orbital i. *)
  Definition lr_step (U_l U_r ei : array2) (L : list (nat * nat)) (st : array2 * array2) (iP : nat * nat) : array2 * array2 :=
    let '(temp1, new) := st in let '(i, P) := iP in
    let temp1 := fold_left (fun t a => fun p b => if Nat.eqb p P then t p b + U_l P a * ei a b else t p b) (seq 0 N) temp1 in
    (temp1, fold_left (fun new jQ => let '(j, Q) := jQ in
                fold_left (fun n b => add2 K i j (U_r b Q * temp1 P b) n) (seq 0 N) (set2 K i j 0 new)) L new).
  (** l.244-253, l.254-263: one spin. *)
  Definition lr_block (U_l U_r ei : array2) (L : list (nat * nat)) (new : array2) : array2 :=
    snd (fold_left (lr_step U_l U_r ei L) L (fun _ _ => 0, new)).
  (** l.225-264.  [new] is the argument new_ei: not used with region='full'; without it the first assignment of the
      region 'active' raises TypeError, and with no orbital the value returned is None ([Some None]). *)
  Definition gen_spin_1ei_lr (ei Ua_l Ua_r Ub_l Ub_r : array2) (alpha beta : groups) (s2s : nat -> option nat) (r : region) (new : option array2)
      : option (option array2) :=
    match located N s2s (lr_orbitals r alpha), located N s2s (lr_orbitals r beta) with
    | Some A, Some B =>
        match r, new with
        | Full, _ => Some (Some (lr_block Ub_l Ub_r ei B (lr_block Ua_l Ua_r ei A (fun _ _ => 0))))
        | Active, Some t => Some (Some (lr_block Ub_l Ub_r ei B (lr_block Ua_l Ua_r ei A t)))
        | Active, None => match A, B with [], [] => Some None | _, _ => None end
        end
    | _, _ => None
    end.
End Lr.
Arguments gen_spin_1ei_lr {_}.
