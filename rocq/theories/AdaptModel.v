(** Model of hqca/vqe/adapt.py (RunADAPTVQE), for the updates 'q' ([update_acse], FermiStrings) and the
    numerical gradient.  Parameters are elements of the coefficient ring (np.complex_ arrays), energies and
    norms are rationals.  [None]: an exception. *)
From Coq Require Import Bool List Arith QArith Qabs.
From Verif Require Import Coeff MatSpec FockSpec FermiModel OperatorModel PauliModel TransformModel CircuitModel AcseModel VqeModel.
Import ListNotations.
Local Open Scope nat_scope.

(** l.223-224: [np.argmax(np.abs(self.A))], the first index of the largest entry; ValueError on an empty
    array. *)
Fixpoint argmax_from (i best : nat) (v : Q) (l : list Q) : nat :=
  match l with
  | [] => best
  | x :: l' => if Qltb v x then argmax_from (S i) i x l' else argmax_from (S i) best v l'
  end.
Definition argmax (l : list Q) : option nat :=
  match l with
  | [] => None
  | x :: l' => Some (argmax_from 1 0 x l')
  end.

Section Adapt.
  Variable K : CoefRing.

  (** [mOpt.opt.best_x] as numpy sees it: a vector (simplex methods) or a matrix (bfgs). *)
  Inductive arr := Vec (l : list K) | Mat (l : list (list K)).
  (** l.280: [np.asarray(best_x)[0].tolist()]; [None]: the value is a number (the next [len] raises) or the
      array is empty. *)
  Definition first_row (a : arr) : option (list K) :=
    match a with
    | Vec _ => None
    | Mat [] => None
    | Mat (r :: _) => Some r
    end.

  (** What one optimiser made of its run, from [initialize] to the end of the loop at l.272-276: [best_f] after
      [initialize], then [best_f] and [best_x] at the end. *)
  Record micro := MkMicro { mi_first : Q; mi_best_f : Q; mi_best_x : arr }.
  (** What the residual solver returned (l.347-420): the magnitudes of A and its norm. *)
  Record resid := MkResid { re_abs : list Q; re_norm : Q }.

  (** [S.A], [S.A_ind], [self.para], [log_E], [total.iter], [total.done], [self.best]. *)
  Record adapt := MkAdapt { ad_terms : list (list nat); ad_inds : list nat; ad_para : list K; ad_logE : list Q;
                            ad_iter : nat; ad_done : bool; ad_best : Q }.

  (** l.219-262 ([_ADAPT]) with _ansatz.py l.52-56 ([add_term]).  [keys] is [tomo_S.rdme_keys]. *)
  Definition ad_grow (recycle : bool) (keys : list (list nat)) (r : resid) (s : adapt) : option adapt :=
    if recycle then
      match argmax (re_abs r) with
      | None => None
      | Some i =>
          match nth_error keys i with
          | None => None
          | Some k => Some (MkAdapt (ad_terms s ++ [k]) (ad_inds s ++ [i]) (ad_para s ++ [c0]) (ad_logE s)
                                    (ad_iter s) (ad_done s) (ad_best s))
          end
      end
    else Some s.

  (** l.174-213 ([build]); [m] is the run of the first optimiser, of which only [initialize] has happened. *)
  Definition ad_build (recycle : bool) (keys : list (list nat)) (r : resid) (m : micro) : option adapt :=
    match ad_grow recycle keys r (MkAdapt [] [] [] [] 0 false 0) with
    | None => None
    | Some s => Some (MkAdapt (ad_terms s) (ad_inds s) (ad_para s) [mi_first m] (ad_iter s) (ad_done s) 0)
    end.

  (** l.265-284 ([_run_adapt]). *)
  Definition ad_run_micro (recycle : bool) (keys : list (list nat)) (r : resid) (m : micro) (s : adapt) : option adapt :=
    match first_row (mi_best_x m) with
    | None => None
    | Some row =>
        ad_grow recycle keys r
          (MkAdapt (ad_terms s) (ad_inds s) row (ad_logE s ++ [mi_best_f m]) (ad_iter s) (ad_done s) (ad_best s))
    end.
  (** l.288-313 ([_check]); the optimiser made at l.304-313 is the [micro] of the next step. *)
  Definition ad_check (max_iter : nat) (crit : Q) (r : resid) (m : micro) (s : adapt) : adapt :=
    let it := S (ad_iter s) in
    MkAdapt (ad_terms s) (ad_inds s) (ad_para s) (ad_logE s) it
      (if Nat.eqb it max_iter then true else if Qltb (re_norm r) crit then true else ad_done s) (mi_best_f m).
  Definition ad_step (recycle : bool) (keys : list (list nat)) (max_iter : nat) (crit : Q) (r : resid) (m : micro) (s : adapt)
    : option adapt :=
    match ad_run_micro recycle keys r m s with
    | None => None
    | Some s' => Some (ad_check max_iter crit r m s')
    end.
  (** l.331-335 ([run]) for at most [fuel] turns; step [n] uses the n-th optimiser and the residual n+1. *)
  Fixpoint ad_loop (recycle : bool) (keys : list (list nat)) (max_iter : nat) (crit : Q) (rs : nat -> resid) (ms : nat -> micro)
      (fuel : nat) (s : adapt) : option adapt :=
    if ad_done s then Some s
    else match fuel with
         | 0 => Some s
         | S f =>
             match ad_step recycle keys max_iter crit (rs (S (ad_iter s))) (ms (ad_iter s)) s with
             | None => None
             | Some s' => ad_loop recycle keys max_iter crit rs ms f s'
             end
         end.
  Definition ad_run (recycle : bool) (keys : list (list nat)) (max_iter : nat) (crit : Q) (rs : nat -> resid) (ms : nat -> micro)
      (fuel : nat) : option adapt :=
    match ad_build recycle keys (rs 0) (ms 0) with
    | None => None
    | Some s => ad_loop recycle keys max_iter crit rs ms fuel s
    end.

  (** l.114-121: the rotations handed to the circuit for a point; [reim] splits a coefficient into its real and
      imaginary parts, [tiny] is [abs(x)<1e-14] of _instruct_pauli.py. *)
  Variable R : Type.
  Variable reim : K -> R * R.
  Variable tiny : R -> bool.
  Definition ad_program (N : nat) (terms : list (list nat)) (para : list K) : option (list (R * list pauli)) :=
    match assign_variables N (combine terms para) with
    | None => None
    | Some items => pauli_set tiny None (map (fun e => (fst e, reim (snd e))) items)
    end.
End Adapt.
Arguments Vec {_}. Arguments Mat {_}. Arguments first_row {_}.
Arguments MkMicro {_}. Arguments mi_first {_}. Arguments mi_best_f {_}. Arguments mi_best_x {_}.
Arguments MkAdapt {_}. Arguments ad_terms {_}. Arguments ad_inds {_}. Arguments ad_para {_}. Arguments ad_logE {_}.
Arguments ad_iter {_}. Arguments ad_done {_}. Arguments ad_best {_}.
Arguments ad_grow {_}. Arguments ad_build {_}. Arguments ad_run_micro {_}. Arguments ad_check {_}. Arguments ad_step {_}.
Arguments ad_loop {_}. Arguments ad_run {_}. Arguments ad_program {_ _}.
