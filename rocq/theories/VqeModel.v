(** Model of the variational solver: hqca/vqe/_ucc.py (getUCCAnsatz), hqca/vqe/_ansatz.py (VariationalAnsatz.assign,
    ADAPTAnsatz.assign_variables) and hqca/vqe/vqe.py (RunVQE: evaluation, gradient, main loop).

    [quantstore.groups] is the pair of index lists [ga], [gb]; energies and parameters of the main loop are
    rationals.  [None]: an exception. *)
From Coq Require Import Bool List Arith QArith Qabs.
From Verif Require Import Coeff MatSpec FockSpec FermiModel OperatorModel PauliModel TransformModel InvModel RdmModel HamModel AcseModel.
Import ListNotations.
Local Open Scope nat_scope.

(** * _ucc.py *)
(** l.21-30. *)
Definition occ_of (initial g : list nat) : list nat := filter (fun a => existsb (Nat.eqb a) initial) g.
Definition vir_of (initial g : list nat) : list nat := filter (fun a => negb (existsb (Nat.eqb a) initial)) g.
(** l.38-40 and l.41-43. *)
Definition ucc_singles (occ vir : list nat) : list (list nat) := flat_map (fun i => map (fun j => [i; j]) vir) occ.
(** l.47-55 and l.56-64. *)
Definition ucc_same (occ vir : list nat) : list (list nat) :=
  flat_map (fun i => flat_map (fun k => if k <=? i then [] else
    flat_map (fun l => flat_map (fun j => if j <=? l then [] else [[i; k; l; j]]) vir) vir) occ) occ.
(** l.65-71. *)
Definition ucc_mixed (ao av bo bv : list nat) : list (list nat) :=
  flat_map (fun i => flat_map (fun k => flat_map (fun l => flat_map (fun j =>
    if j <=? i then [] else [[i; k; l; j]]) av) bv) bo) ao.
(** l.9-72. *)
Definition ucc (singles doubles triples quadruples : bool) (ga gb initial : list nat) : option (list (list nat)) :=
  let ao := occ_of initial ga in let av := vir_of initial ga in
  let bo := occ_of initial gb in let bv := vir_of initial gb in
  if negb singles && (triples || quadruples) then None
  else Some ((if singles then ucc_singles ao av ++ ucc_singles bo bv else []) ++
             (if doubles then ucc_same ao av ++ ucc_same bo bv ++ ucc_mixed ao av bo bv else [])).

Section Assign.
  Variable K : CoefRing.
  Notation fop_ := (list (fstr * K)).
  Local Open Scope coef_scope.
  (** _ansatz.py l.20-35: the operator of one excitation; [new -= FermiString] negates the new string and adds it.
      [t] itself is handed over, so that the second call may find it shortened (see RdmModel.generate_rdme). *)
  Definition assign_op (N : nat) (t : list nat) (p : K) : option fop_ :=
    match fermi_new true p (rdme_letters t) N with
    | None => None
    | Some x =>
        if shortens t then None
        else match fermi_new true p (rdme_letters (rev t)) N with
             | None => None
             | Some y => Some (op_add_string fstr_eqb (op_add_string fstr_eqb [] x) (fst y, snd y * - (1)))
             end
    end.
  (** l.17-38 with the Jordan-Wigner transform; [tiny p] is [abs(p)<1e-10].  The zip of indices and parameters is the
      argument [l]. *)
  Fixpoint assign (tiny : K -> bool) (N : nat) (l : list (list nat * K)) : option (list (list pauli * K)) :=
    match l with
    | [] => Some []
    | (t, p) :: l' =>
        if tiny p then assign tiny N l'
        else match assign_op N t p, assign tiny N l' with
             | Some o, Some r => Some (jw_operator o ++ r)
             | _, _ => None
             end
    end.
  (** l.58-80: ADAPTAnsatz.assign_variables, with FermiStrings: no cutoff.  The operators are always '++--': with fewer than four
      indices the sorting loop raises IndexError; more than four are not modelled ([None]). *)
  Definition assign_all (N : nat) (l : list (list nat * K)) : option (list (list pauli * K)) :=
    assign (fun _ => false) N l.
  Definition assign_variables (N : nat) (l : list (list nat * K)) : option (list (list pauli * K)) :=
    if forallb (fun e => (length (fst e) =? 4)%nat) l then assign_all N l else None.
End Assign.
Arguments assign_op {_}. Arguments assign {_}. Arguments assign_all {_}. Arguments assign_variables {_}.

(** * vqe.py *)
Local Open Scope Q_scope.
Section Vqe.
  (** Parameter vectors and the energy of the prepared state. *)
  Variable P : Type.
  Variable E : P -> Q.
  (** [self.best], the point whose RDM is in [Store.rdm] ([None]: the Hartree-Fock RDM), [total.done]. *)
  Record vqe := MkVqe { v_best : Q; v_stored : option P; v_done : bool }.
  (** l.80: [self.best = 0]. *)
  Definition vqe_start : vqe := MkVqe 0 None false.
  (** l.118-122: one evaluation. *)
  Definition vqe_eval (s : vqe) (x : P) : vqe :=
    if Qltb (E x) (v_best s) then MkVqe (E x) (Some x) (v_done s) else s.
  (** l.91: the evaluations made by [Opt.initialize]. *)
  Definition vqe_build (xs : list P) : vqe := fold_left vqe_eval xs vqe_start.
  (** One optimiser step: the points it evaluates, in order (gradients included), then [opt.best_f], [opt.crit], and
      whether an error was recorded (opts/opt.py l.104-129). *)
  Record opt_step := MkOpt { o_points : list P; o_best : Q; o_crit : Q; o_err : bool }.
  (** l.172-192 with opts/opt.py l.142-177: [conv] is [_conv_thresh] of the optimiser, [crit] is [opt_thresh].
      [total.iter] is never changed, so [total.iter==self.max_iter] is 0 = 50 (l.49 assigns the constant 50). *)
  Definition total_iter : nat := 0.
  Definition vqe_max_iter (max_iter : nat) : nat := 50.
  Definition vqe_step (max_iter : nat) (conv crit : Q) (s : vqe) (o : opt_step) : vqe :=
    let s1 := fold_left vqe_eval (o_points o) s in
    let done := if Qle_bool (Qabs (o_crit o)) (Qabs conv) then true else o_err o in
    let done := if Nat.eqb total_iter (vqe_max_iter max_iter) then true
                else if Qltb (o_crit o) crit then true else done in
    MkVqe (o_best o) (v_stored s1) done.
  (** l.196-200: the loop for at most [fuel] turns; [steps n] is the n-th answer of the optimiser.  The result is the
      state and the number of turns made. *)
  Fixpoint vqe_run (max_iter : nat) (conv crit : Q) (steps : nat -> opt_step) (fuel n : nat) (s : vqe) : vqe * nat :=
    if v_done s then (s, n)
    else match fuel with
         | O => (s, n)
         | S f => vqe_run max_iter conv crit steps f (S n) (vqe_step max_iter conv crit s (steps n))
         end.
End Vqe.
Arguments MkVqe {_}. Arguments v_best {_}. Arguments v_stored {_}. Arguments v_done {_}. Arguments vqe_start {_}. Arguments vqe_eval {_}. Arguments vqe_build {_}.
Arguments MkOpt {_}. Arguments o_points {_}. Arguments o_best {_}. Arguments o_crit {_}. Arguments o_err {_}.
Arguments vqe_step {_}. Arguments vqe_run {_}.

(** l.129-134: the list [tpara]. *)
Fixpoint bump (i : nat) (d : Q) (x : list Q) : list Q :=
  match x with
  | [] => []
  | c :: x' => match i with O => c + d :: x' | S i' => c :: bump i' d x' end
  end.
(** l.124-154. *)
Definition vqe_gradient (E : list Q -> Q) (forward : bool) (diff : Q) (x : list Q) : list Q :=
  map (fun i =>
    if forward then (E (bump i diff x) - E x) / diff
    else (E (bump i diff x) - E (bump i (- diff) x)) / (2 * diff)) (seq 0 (length x)).
(** The points evaluated by it, in order. *)
Definition gradient_points (forward : bool) (diff : Q) (x : list Q) : list (list Q) :=
  if forward then x :: map (fun i => bump i diff x) (seq 0 (length x))
  else flat_map (fun i => [bump i (- diff) x; bump i diff x]) (seq 0 (length x)).
