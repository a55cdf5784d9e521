(** Model of a run of hqca/acse/acse.py with method 'euler' and update 'classical' on a state-vector
    circuit back end: [build] l.329-415 (use_initial=False), [_get_A] l.419-580, [_run_acse] l.582-602, [run] l.658-671 and
    [_check] l.681-767, over real numbers without rounding.  The tomographies are run with real=True.  [split_ansatz] is
    off and [max_depth] is None.  Energies are compared by their real parts; the imaginary parts are zero for real
    integrals (C138).  The assertion of _class_A_acse.py l.123 never fails (C73).  Printing is omitted. *)
From Coq Require Import Bool List Arith ZArith Reals.
From Verif Require Import Coeff ComplexR MatSpec FockSpec FermiModel OperatorModel CircuitSpec CircuitModel TransformModel RdmModel TomoModel PlanModel StoreModel ResModel AcseModel ConsModel EulerModel.
Import ListNotations.
Local Open Scope R_scope.

Record run_cfg := MkRun {
  (** Active orbitals, alpha and beta electrons, 1/(Ne-2) of [reduce_order] (used with p=3). *)
  rc_N : nat; rc_a : nat; rc_b : nat; rc_w : Cx;
  (** [H.matrix], which is [H.K2], and [H._en_c]. *)
  rc_K2 : nat -> nat -> nat -> nat -> Cx; rc_en : Cx;
  (** tomo_psi and tomo_A: grouping, imaginary part; the order of tomo_A; the cutoff of the element values. *)
  rc_simp : simplify_option; rc_imag : bool; rc_simpA : simplify_option; rc_imagA : bool; rc_p : nat; rc_tiny : Cx -> bool;
  (** [abs(x) >= S_min], S_thresh_rel, epsilon, max_iter, opt_thresh. *)
  rc_keep : Cx -> bool; rc_rel : R; rc_eps : R; rc_max : nat; rc_crit : R;
  (** convergence_type. *)
  rc_conv : conv }.

Section Iter.
  Variable c : run_cfg.
  Notation r := (2 * rc_N c)%nat.
  (** The orbitals in the default mapping, and the circuit of the initial determinant and the layers. *)
  Definition run_alpha : list nat := fst (qs_groups Default (rc_N c)).
  Definition run_beta : list nat := snd (qs_groups Default (rc_N c)).
  Definition run_circuit (layers : list cfop) : option (list (gate Cx)) :=
    match qs_initial Default (rc_N c) (rc_a c) (rc_b c) with
    | Some occ => acse_circuit r occ layers
    | None => None
    end.
  (** [_generate_circuit] (l.304-316) with a tomography of order p. *)
  Definition measured (simp : simplify_option) (imag : bool) (p : nat) (layers : list cfop) : option (tensor Cx) :=
    match run_circuit layers with
    | Some gs => tomography Crt (rc_tiny c) jw_operator simp p true imag (rc_N c) gs
    | None => None
    end.
  (** _store_acse.py l.68-71, np.real. *)
  Definition energy_of (t : tensor Cx) : R := fst (evaluate r (rc_K2 c) (rc_en c) t).
  (** np.linalg.norm of the array (Frobenius). *)
  Definition frobenius (A : nat -> nat -> nat -> nat -> Cx) : R :=
    sqrt (fold_right (fun e s => cabs (snd e) * cabs (snd e) + s) 0 (nonzeros r A)).
  (** l.440-453 and 556-573: the truncated operator and the norm; _class_A_acse.py l.36-124. *)
  Definition get_A (layers : list cfop) : option (cfop * R) :=
    match measured (rc_simpA c) (rc_imagA c) (rc_p c) layers with
    | None => None
    | Some t =>
        match class_residual (rc_a c + rc_b c) (rc_p c) r (rc_w c) (run_alpha ++ run_beta) t (rc_K2 c) with
        | None => None
        | Some A => option_map (fun o => (truncate_rel (rc_rel c) o, / 2 * frobenius A)) (residual_operator (rc_keep c) r r A)
        end
    end.

  (** psi, A, norm, e_k, total.iter, total.done, best, increasing, log_E (newest first). *)
  Record run_state := MkState {
    rs_psi : list cfop; rs_A : cfop; rs_norm : R; rs_en : R; rs_iter : nat; rs_done : bool; rs_best : R; rs_incr : nat; rs_log : list R }.
  (** _store_acse.py l.121-122, 130: the dictionary of S^2 has the keys 0, 0.5, -0.5 and 1. *)
  Definition s2_known : bool :=
    Nat.eqb (rc_a c) (rc_b c) || Nat.eqb (rc_a c) (S (rc_b c)) || Nat.eqb (rc_b c) (S (rc_a c)) || Nat.eqb (rc_a c) (S (S (rc_b c))).
  (** _store_acse.py l.123-133: the energy of the Hartree-Fock RDM. *)
  Definition run_e0 : R := energy_of (build_hf 2 (rc_a c) (rc_b c) run_alpha run_beta).
  (** The storage (a KeyError is None), l.355-410, and the assertion of _check_acse.py l.17-19. *)
  Definition run_build : option run_state :=
    if s2_known
    then match rc_conv c with
         | CTrust => None
         | _ => option_map (fun a => MkState [] (fst a) (snd a) run_e0 0 false run_e0 0 [run_e0]) (get_A [])
         end
    else None.
  Definition average_R (l : list R) : R := fold_right Rplus 0 l / INR (length l).
  (** l.681-767 with convergence type 'norm'. *)
  Definition run_check (psi : list cfop) (A : cfop) (norm en : R) (s : run_state) : run_state :=
    let best := if Nat.eqb (rs_iter s) 0 then rs_en s else rs_best s in
    let it := S (rs_iter s) in
    let log := en :: rs_log s in
    let avg := average_R (firstn (Nat.min 3 (it + 1)) log) in
    let rising := if Rle_dec avg en then true else false in
    let incr := if rising then S (rs_incr s) else rs_incr s in
    MkState psi A norm en it
      (rs_done s || Nat.eqb it (rc_max c) || (rising && (3 <=? incr)%nat) || (if Rlt_dec norm (rc_crit c) then true else false))
      (if Rlt_dec en best then en else best) incr log.
  (** _euler_acse.py l.14-22 and acse.py l.597-599, 667-668; a convergence type that is not known raises (l.762-763). *)
  Definition run_step (s : run_state) : option run_state :=
    let psi := ans_add fstr_eqb 1 (rs_psi s) (euler_operator (rc_eps c) (rs_A s)) in
    match measured (rc_simp c) (rc_imag c) 2 psi, get_A psi, rc_conv c with
    | Some t, Some a, CNorm => Some (run_check psi (fst a) (snd a) (energy_of t) s)
    | _, _, _ => None
    end.
  (** l.666-668, for at most [fuel] turns. *)
  Fixpoint run_loop (fuel : nat) (s : run_state) : option run_state :=
    if rs_done s then Some s
    else match fuel with
         | O => Some s
         | S fuel' => match run_step s with Some s' => run_loop fuel' s' | None => None end
         end.
End Iter.
