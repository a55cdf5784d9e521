(** Model of hqca/acse/_mitigation.py (the "shift" error mitigation), of the place where the shift is applied
    (tomography/_tomography.py l.229-235) and of the checks an ACSE run makes before it
    (acse/acse.py [build] l.396-411, [_get_A] l.472-487, [_run_acse] l.591; acse/_check_acse.py).

    A reduced density matrix is a function from its indices to entries; its sums, differences and multiples are
    entrywise (tools/rdm/_rdm.py, see RdmObjModel).  [meas n S] is the uncorrected matrix built from the [n]-th
    circuit executed, the circuit being that of the ansatz [S]; it is an arbitrary function.  The energies
    computed for printing are omitted. *)
From Coq Require Import Bool List Arith ZArith Lia.
From Verif Require Import Coeff OperatorModel AcseModel.
Import ListNotations.
Local Open Scope nat_scope.

Section Mit.
  Variable K : CoefRing.
  Variable key : Type.
  Variable keqb : key -> key -> bool.
  Variable idx : Type.
  Notation layer := (opv K key).
  Notation rdm := (idx -> K).
  Local Open Scope coef_scope.

  Definition radd (a b : rdm) : rdm := fun i => a i + b i.
  Definition rsub (a b : rdm) : rdm := fun i => a i - b i.
  Definition rscale (a : rdm) (x : K) : rdm := fun i => a i * x.

  (** _tomography.py l.231-235: the matrix after the correction. *)
  Definition corrected (Gamma : option rdm) (coeff : K) (m : rdm) : rdm :=
    match Gamma with None => m | Some g => radd m (rscale g coeff) end.

  (** _mitigation.py l.43-44, 64-65: [for f in S.A[-1]: f.c *= eps]; IndexError for an ansatz without layers. *)
  Definition scale_layer (eps : K) (l : layer) : layer := map (fun e => (fst e, snd e * eps)) l.
  Fixpoint scale_last (eps : K) (A : list layer) : option (list layer) :=
    match A with
    | [] => None
    | l :: A' => match A' with [] => Some [scale_layer eps l] | _ => option_map (cons l) (scale_last eps A') end
    end.

  Variable meas : nat -> list layer -> rdm.
  Variable hf : rdm.
  Variable closed : Z.

  (** l.57-73: the loop over the depths [d]; [n] is the number of circuits executed so far. *)
  Fixpoint full_loop (eps : K) (total : list layer) (ds : list nat) (n : nat) (g : rdm) : option (rdm * nat) :=
    match ds with
    | [] => Some (g, n)
    | d :: ds' =>
        match scale_last eps (ans_truncate (d + 1) total) with
        | None => None
        | Some s1 =>
            full_loop eps total ds' (n + 2)
              (radd g (rsub (meas n (ans_truncate d total)) (meas (n + 1)%nat s1)))
        end
    end.

  (** l.36-85 ([_find_zo_full]) for an operator [A]; the stored shift is removed first (l.37), so the circuits are
      not corrected.  The result is the new shift.  l.86 reads [acse.log], which a run does not define. *)
  Definition full_gamma (eps : K) (S : list layer) (P : layer) (n : nat) : option (rdm * nat) :=
    let total := ans_add keqb closed S P in
    match scale_last eps (ans_truncate 1 total) with
    | None => None
    | Some s1 => full_loop eps total (seq 1 (length total - 1)) (n + 1) (rsub hf (meas n s1))
    end.

  (** l.90-151 ([_find_zo_current]): [Gamma] is the stored shift, [rdm0] the stored matrix [acse.store.rdm]. *)
  Definition current_gamma (eps coeff : K) (Gamma : option rdm) (rdm0 : rdm) (S : list layer) (P : layer) (n : nat)
    : option (option rdm * nat) :=
    let total := ans_add keqb closed S P in
    match Gamma with
    | None =>
        match scale_last eps (ans_truncate 1 total) with
        | None => None
        | Some s =>
            Some (Some (rsub hf (rscale (radd (meas n s) (meas (n + 1)%nat s)) chalf)), (n + 2)%nat)
        end
    | Some g =>
        if Nat.eqb (length total) (length S) then Some (Gamma, n)
        else
          match scale_last eps total with
          | None => None
          | Some s =>
              let gam := rscale (radd (corrected Gamma coeff (meas n s)) (corrected Gamma coeff (meas (n + 1)%nat s))) chalf in
              Some (Some (radd g (rsub rdm0 gam)), (n + 2)%nat)
          end
    end.
End Mit.
Arguments scale_layer {_ _}. Arguments scale_last {_ _}. Arguments corrected {_ _}.
Arguments full_gamma {_ _} _ {_}. Arguments current_gamma {_ _} _ {_}. Arguments full_loop {_ _ _}.

(** * What a run does when the mitigation is switched on. *)
(** The protocols of [_set_ansatz_shift] (storage/_quantum_storage.py l.227-248); any other string does nothing
    (_mitigation.py l.32-33). *)
Inductive protocol := Full | Current | Zero | Other.

(** The part of a run's configuration that decides: the [closed] parameter of the ansatz, [split_ansatz], and
    whether the residual is a vector (methods 'bfgs', 'lbfgs' and 'cg', acse.py l.197, 217) or an operator. *)
Record run_config := { rc_closed : Z; rc_split : bool; rc_vector : bool; rc_protocol : protocol }.

(** acse.py l.472-487 in [build]: with an operator residual, [split_ansatz] raises QuantumRunError. *)
Definition get_residual (c : run_config) : bool := rc_vector c || negb (rc_split c).
(** _check_acse.py l.7-13, reached at the end of [build] (acse.py l.411). *)
Definition check_shift (c : run_config) : bool :=
  ((rc_closed c =? 1)%Z || (rc_closed c =? -1)%Z) && rc_split c.
(** [build] raises nothing. *)
Definition shift_builds (c : run_config) : bool := get_residual c && check_shift c.
(** The call of [check_mitigation] that opens every step (acse.py l.591) raises nothing.  [Full], [Current] and
    [Zero] begin with [currS + testS] (l.39-40, 93-94, 117, 156-157), which exits for a vector residual
    (_ansatz_S.py l.133-135); with an operator residual [Full] ends on the undefined [acse.log] (l.86) and [Zero]
    reads [f.c] of a layer or the undefined [s1] (l.160-164). *)
Definition shift_step (c : run_config) : bool :=
  match rc_protocol c with
  | Full => false
  | Current => negb (rc_vector c)
  | Zero => false
  | Other => true
  end.
Definition shift_runs (c : run_config) : bool := shift_builds c && shift_step c.
