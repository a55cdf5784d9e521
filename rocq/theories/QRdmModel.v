(** Model of the particle-qubit side of tomography and of the Hamiltonians:
    hqca/tomography/_qubit_tomography.py (generate_qrdme, _build_qubit_RDM),
    hqca/hamiltonian/qubit_particle.py (_build_K2, _build_operator) and hqca/acse/_qubit_A.py (solvepACSE).

    The lists of elements of a QubitTomography are those of RdmModel ([_generate_1rdme] and [_generate_2rdme] are
    inherited from StandardTomography).  Arrays are functions of the indices.  The integral transformations, pyscf,
    the circuits and the printing are not modelled. *)
From Coq Require Import Bool List Arith.
From Verif Require Import Coeff MatSpec FockSpec FermiModel OperatorModel InvModel RdmModel HamModel.
Import ListNotations.
Local Open Scope coef_scope.

Section QRdm.
  Variable K : CoefRing.
  Notation fop_ := (list (fstr * K)).
  Notation word := (list (fop * nat)).
  Notation tensor4 := (nat -> nat -> nat -> nat -> K).

  (** _qubit_tomography.py l.29-55; [None]: TomographyError or an error of QubitString (see RdmModel.generate_rdme).  The later
      [op.transform] is the transform of the operator. *)
  Definition generate_qrdme (ind : list nat) (real imag : bool) (N : nat) : option fop_ :=
    if real || imag then
      match qubit_new (half_of real + half_of imag) (rdme_letters ind) N with
      | None => None
      | Some x =>
          if shortens ind then None
          else match qubit_new (half_of real - half_of imag) (rdme_letters (rev ind)) N with
               | None => None
               | Some y => Some (op_add_string fstr_eqb (op_add_string fstr_eqb [] x) y)
               end
      end
    else None.

  (** _qubit_tomography.py l.239-254: one element with p=2; no signs. *)
  Definition add_qelement_2 (ind : list nat) (temp : K) (t : tensor K) : tensor K :=
    let reAnn := unordered_permute (rev (skipn 2 ind)) in
    let reCre := unordered_permute (firstn 2 ind) in
    fold_left (fun t i =>
      fold_left (fun t j =>
        let t := tadd (fst j ++ fst i) temp t in
        if same_set (fst i) (fst j) then t
        else tadd (fst i ++ fst j) (cconj temp) t) reCre t) reAnn t.
  (** l.255-258: one element with p=1.  Other orders add nothing. *)
  Definition add_qelement (p : nat) (ind : list nat) (temp : K) (t : tensor K) : tensor K :=
    match p with
    | 1%nat => add_element_1 ind temp t
    | 2%nat => add_qelement_2 ind temp t
    | _ => t
    end.
  (** l.220-258: the loop over the elements; [value] gives the [temp] of l.221-238. *)
  Definition build_qrdm (p : nat) (elements : list (list nat)) (value : list nat -> K) : tensor K :=
    fold_left (fun t r => add_qelement p r (value r) t) elements tzero.

  (** ** hamiltonian/qubit_particle.py *)
  (** [op += QubitString(N=N, coeff=c, indices=.., ops=..)] for the entries of a list, in order. *)
  Fixpoint add_qstrings (N : nat) (l : list (K * word)) (o : fop_) : option fop_ :=
    match l with
    | [] => Some o
    | (c, w) :: l' =>
        match qubit_new c w N with
        | None => None
        | Some e => add_qstrings N l' (op_add_string fstr_eqb o e)
        end
    end.
  Variable tiny : K -> bool.
  (** qubit_particle.py l.238-302 ([ferOp]); the bodies of the loops select the same terms as those of
      fermionic.py, so [term1] and [term2] are shared. *)
  Definition particle_operator (d No_as No_core No_tot : nat) (h : nat -> nat -> K) (V : tensor4) : option fop_ :=
    let orbs := alpha_active No_as No_core ++ beta_active No_as No_core No_tot in
    match all_some (map (term1 tiny d No_as No_core No_tot h) (list_prod orbs orbs)),
          all_some (map (term2 tiny d No_as No_core No_tot V) (list_prod orbs (list_prod orbs (list_prod orbs orbs)))) with
    | Some t1, Some t2 => add_qstrings (length orbs) (concat t1 ++ concat t2) []
    | _, _ => None
    end.
  (** The four statements of l.159-162: all with the same sign. *)
  Definition one_body_q (x : K) (i j k : nat) : list ((nat * nat * nat * nat) * K) :=
    [((i, k, j, k), x); ((k, i, k, j), x); ((i, k, k, j), x); ((k, i, j, k), x)].
  (** l.153-162.  [w] is 1/(4*(Ne_tot-1)); [r] is the size of the integral arrays (otherwise the sum of arrays of
      l.155 raises). *)
  Definition build_K2_q (r : nat) (w : K) (h : nat -> nat -> K) (V : tensor4) : tensor4 :=
    apply_all (flat_map (fun i => flat_map (fun j => flat_map (fun k => one_body_q (h i j * w) i j k) (seq 0 r)) (seq 0 r)) (seq 0 r))
      (fun a b c d => V a b c d * chalf).

  (** ** acse/_qubit_A.py *)
  (** l.105-109: [np.imag(circ.rdm.rdm)*hss]; [hss] is 1/hamiltonian_step_size. *)
  Definition imag_of (x : K) : K := - (chalf * ci) * (x - cconj x).
  Definition run_expiH (hss : K) (rdm : tensor4) : tensor4 := fun i k j l => imag_of (rdm i k j l) * hss.
  (** l.42-49: one Hamiltonian, or a list of them whose arrays are summed; [None]: IndexError for the empty list. *)
  Definition run_all (hss : K) (rdms : list tensor4) : option tensor4 :=
    match rdms with
    | [] => None
    | x :: l => Some (fold_left (fun t y => fun i k j l => t i k j l + run_expiH hss y i k j l) l (run_expiH hss x))
    end.
  (** l.59-70: the operator built from that array; [small_term x] is [not abs(x)>=S_min]. *)
  Definition pacse_operator (small_term : K -> bool) (r : nat) (rdm : tensor4) : option fop_ :=
    add_qstrings r (flat_map (fun i => flat_map (fun k => flat_map (fun j => flat_map (fun l =>
        let term := rdm i k j l in
        if ceqb term 0 then []
        else if small_term term then []
        else [(- term, [(Cre, i); (Cre, k); (Ann, l); (Ann, j)])])
      (seq 0 r)) (seq 0 r)) (seq 0 r)) (seq 0 r)) [].
End QRdm.
Arguments generate_qrdme {_}. Arguments add_qelement_2 {_}. Arguments add_qelement {_}. Arguments build_qrdm {_}.
Arguments add_qstrings {_}. Arguments particle_operator {_}. Arguments one_body_q {_}. Arguments build_K2_q {_}.
Arguments imag_of {_}. Arguments run_expiH {_}. Arguments run_all {_}. Arguments pacse_operator {_}.
