(** Model of [evaluate_error] and [getRandomRDMFromCounts] (hqca/tomography/_tomography.py l.857-914): estimates from subsamples of the counts.
    The positions drawn by [np.random.choice] are given; [construct] (the reconstruction from the counts) and f are arguments; the interval
    computed from the values (l.892-896) is left out.  [None]: an exception. *)
From Coq Require Import Bool List Arith.
Import ListNotations.
Local Open Scope nat_scope.
Section Err.
  Context {P K R X : Type} (keq : forall a b : K, {a = b} + {a <> b}).
  Definition outcomes := list (K * nat).
  Definition counts := list (P * outcomes).
  (** l.872-876: every outcome as often as it was counted. *)
  Definition expand (c : outcomes) : list K := flat_map (fun e => repeat (fst e) (snd e)) c.
  (** l.902-907: the dictionary of a sample. *)
  Fixpoint bump (k : K) (c : outcomes) : outcomes :=
    match c with
    | [] => [(k, 1)]
    | (k', v) :: c' => if keq k k' then (k', v + 1) :: c' else (k', v) :: bump k c'
    end.
  Definition tally (l : list K) : outcomes := fold_left (fun c k => bump k c) l [].
  (** l.902: [np.random.choice(clist,length,replace=False)], the positions drawn being [picks]; more draws than entries raise. *)
  Definition choice (clist : list K) (size : nat) (picks : list nat) : option (list K) :=
    if Nat.ltb (length clist) size then None
    else fold_right (fun i r => match nth_error clist i, r with Some k, Some l => Some (k :: l) | _, _ => None end) (Some []) picks.
  (** l.898-907. *)
  Fixpoint random_counts (lists : list (P * list K)) (size : nat) (draw : P -> list nat) : option counts :=
    match lists with
    | [] => Some []
    | (p, clist) :: ls =>
        match choice clist size (draw p), random_counts ls size draw with
        | Some l, Some r => Some ((p, tally l) :: r)
        | _, _ => None
        end
    end.
  (** The attributes counts and rdm of the tomography. *)
  Record tomo := MkTomo { t_counts : counts; t_rdm : option R }.
  Variable construct : counts -> option R.
  Variable f : R -> option X.
  (** l.909-914; l.909 raises when there is no rdm. *)
  Definition random_rdm (lists : list (P * list K)) (size : nat) (draw : P -> list nat) (t : tomo) : option (R * tomo) :=
    match random_counts lists size draw, t_rdm t with
    | Some c, Some _ => match construct c with Some r => Some (r, MkTomo c (Some r)) | None => None end
    | _, _ => None
    end.
  (** l.877-890: one draw for each sample; f gives [None] for a value that is not a number. *)
  Fixpoint sample_loop (lists : list (P * list K)) (size : nat) (draws : list (P -> list nat)) (t : tomo) : option (list X * tomo) :=
    match draws with
    | [] => Some ([], t)
    | d :: ds =>
        match random_rdm lists size d t with
        | None => None
        | Some (r, t') => match sample_loop lists size ds t' with None => None | Some (xs, t'') => Some (match f r with Some x => x :: xs | None => xs end, t'') end
        end
    end.
  (** l.868-869. *)
  Definition sample_size (Ns size : nat) : nat := if Nat.leb (Ns * 8) size then Ns / 8 else size.
  Definition evaluate_error (Ns size : nat) (draws : list (P -> list nat)) (t : tomo) : option (list X * tomo) :=
    sample_loop (map (fun e => (fst e, expand (snd e))) (t_counts t)) (sample_size Ns size) draws t.
End Err.
Arguments MkTomo {P K R}.
Arguments tomo : clear implicits.
