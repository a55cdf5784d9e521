(** C106: RDM elements measured through the symmetry projection. *)
From Coq Require Import Bool List Arith ZArith Lia.
From Verif Require Import Coeff MatSpec PauliModel OpSpec OperatorModel FockSpec FermiModel TransformModel TwoTerm CircuitSpec RdmSpec RdmModel Sqrt2 SymSpec SymModel SymProofs4 SymProofs5 SymProofs6.
Import ListNotations.

(** C106.  For every element with as many creators as annihilators, in total and on the alpha modes, every rank test and every solver
    whose answers solve the system it was given: if the projection returns an operator Q, then in every state with a definite number
    of particles and of alpha particles Q has the expectation value of the element (its real part, i times its imaginary part or
    both), up to Pauli strings D with coefficients below the thresholds of the code.  The restriction on [p] says that 2^-(2p+1) is
    above the threshold 1e-12. *)
Theorem C106_projected_element : forall (K : CoefRing) (tiny : K -> bool) rank_ok solve c a real imag N p alp Ne na psi Q,
  (forall z, tiny (ipow z) = false) -> solves solve ->
  length c = p -> length a = p -> Forall (fun x => x < N) c -> Forall (fun x => x < N) a ->
  small (cpow (chalf : K) (S (2 * p))) = false -> length (filter alp c) = length (filter alp a) ->
  has_particles N Ne psi -> has_on N alp na psi ->
  generate_sp_rdme tiny rank_ok solve (listed c a) real imag alp N = Some Q ->
  exists D : opv K (list pauli),
    (forall e, In e D -> small (snd e) = true \/ tiny (snd e) = true) /\ (forall e, In e (Q ++ D) -> length (fst e) = N) /\
    cadd (expect N (omat Q) psi) (expect N (omat D) psi) = part real imag (rdm_of N psi c a).
Proof. intros K tiny rank_ok solve c a real imag N p alp Ne na psi Q H1 H2. now apply (sp_rdme_spec K tiny H1 rank_ok solve). Qed.
(** It does return one when the rank test accepts and the solver answers, unless the indices are ascending with one of them
    twice (then the second string finds the list shortened). *)
Theorem C106_returns : forall (K : CoefRing) (tiny : K -> bool) rank_ok solve c a real imag N p alp,
  (forall z, tiny (ipow z) = false) -> (forall cols, rank_ok cols = true) -> (forall cols v, solve cols v <> None) ->
  real || imag = true -> intact (listed c a) -> length c = p -> length a = p -> Forall (fun x => x < N) c -> Forall (fun x => x < N) a ->
  small (cpow (chalf : K) (S (2 * p))) = false -> length (filter alp c) = length (filter alp a) ->
  exists Q, generate_sp_rdme tiny rank_ok solve (listed c a) real imag alp N = Some Q.
Proof. intros K tiny rank_ok solve c a real imag N p alp H1 H2 H3. now apply (sp_rdme_total K tiny H1 rank_ok solve H2 H3). Qed.

(** A hopping element on two alpha modes: one Pauli string is measured instead of two. *)
Definition rank106 (cols : list (list GaussQ)) : bool :=
  match cols with [[x; y]; [z; w]] => negb (ceqb (csub (cmul x w) (cmul y z)) c0) | _ => true end.
Definition checked (cand : list GaussQ) (cols : list (list GaussQ)) (v : list GaussQ) : option (list GaussQ) :=
  if Nat.eqb (length cand) (length cols) && forallb (fun i => ceqb (dot_row cols cand i) (nth i v c0)) (seq 0 (length v)) then Some cand else None.
Lemma checked_solves cand : solves (checked cand).
Proof.
  intros cols v x. unfold checked. destruct (Nat.eqb_spec (length cand) (length cols)) as [L|]; [|discriminate]. cbn [andb].
  destruct (forallb _ _) eqn:F; [|discriminate]. intros H. injection H as <-. split; [exact L|]. intros i Hi. rewrite forallb_forall in F. apply (ceqb_spec GaussQ). apply F. apply in_seq. lia.
Qed.
Definition Q106 := generate_sp_rdme (K := GaussQ) small rank106 (checked [chalf; c0]) (listed [0] [1]) true false (fun _ => true) 2.
Example C106_example : option_map (map (fun e => (fst e, ceqb (snd e) chalf))) Q106 = Some [([PX; PX], true)].
Proof. vm_compute. reflexivity. Qed.
Example C106_without : map (fun e : list pauli * GaussQ => fst e) (match generate_rdme [0; 1] true false 2 with Some op => jw_operator op | None => [] end) = [[PX; PX]; [PY; PY]].
Proof. vm_compute. reflexivity. Qed.
Definition psi106 : bits -> GaussQ := fun x => if bits_eqb x [true; false] then gz 2 else if bits_eqb x [false; true] then gzi 3 1 else c0.
Example C106_example_hyp : (forall z, small (ipow z : GaussQ) = false) /\ solves (checked [chalf; c0]) /\ small (cpow (chalf : GaussQ) 5) = false /\
  has_particles 2 1 psi106 /\ has_on 2 (fun _ => true) 1 psi106.
Proof.
  split; [apply unit_not_small|]. split; [apply checked_solves|]. split; [vm_compute; reflexivity|].
  split; intros [|[|] [|[|] [|]]] L H; try discriminate; cbn in *; try reflexivity; lia.
Qed.
Example C106_example_value : ceqb (@expect GaussQ 2 (omat (match Q106 with Some q => q | None => [] end)) psi106) (part true false (rdm_of 2 psi106 [0] [1])) = true /\
  ceqb (@expect GaussQ 2 (omat [([PX; PX], chalf)]) psi106) (gz 6) = true.
Proof. split; vm_compute; reflexivity. Qed.

Print Assumptions C106_projected_element.
Print Assumptions C106_returns.
(** So a diagonal element of the 1-RDM always raises. *)
Theorem C106_diagonal_raises : forall (K : CoefRing) (tiny : K -> bool) rank_ok solve i real imag alp N,
  generate_sp_rdme tiny rank_ok solve (listed [i] [i]) real imag alp N = None.
Proof. exact sp_diagonal. Qed.
Print Assumptions C106_diagonal_raises.
