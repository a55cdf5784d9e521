(** C107: post-selection of measurement outcomes by symmetry. *)
From Coq Require Import Bool List Arith ZArith QArith Qcanon Lia.
From Verif Require Import Coeff MatSpec FockSpec PauliModel OperatorModel FermiModel TransformModel TomoModel CircuitSpec CountsProofs HamSpec HamModel SfModel SfProofs.
Import ListNotations.
Local Open Scope nat_scope.

(** The modes are read from the right of the outcome.  [sector No a b k]: a electrons in the first No modes, b in the next No. *)
Definition sector (No a b : nat) (k : bits) : bool :=
  Nat.eqb (length (filter (fun i => nth i (rev k) false) (seq 0 No))) a && Nat.eqb (length (filter (fun i => nth i (rev k) false) (seq No No))) b.
Definition nonzero_counts (Nq : nat) (l : counts) : Prop := forall k v, In (k, v) l -> length k = Nq /\ v <> 0%Z.

(** C107.  The diagonal filter keeps exactly the outcomes with the right numbers of alpha and beta electrons, with their counts and in
    their order.  The hypotheses on the coefficients say that non-zero half-integers are above the threshold of the operator class, and
    that [same x m], for [round(x,5)==m], decides equality of integers. *)
Theorem C107_diagonal_filter : forall (K : CoefRing) (same : K -> Z -> bool) No Na Nb l,
  (forall x, halfint K x -> small x = true -> x = c0) ->
  (forall a b z, same (csub (of_nat a) (of_nat b)) z = Z.eqb (Z.of_nat a - Z.of_nat b) z) ->
  nonzero_counts (2 * No) l ->
  filter_diagonal same (2 * No) No (Na + Nb) Na Nb (repeat PZ (2 * No)) l = Some (filter (fun e => sector No Na Nb (fst e)) l).
Proof. intros K same No Na Nb l H1 H2. exact (filter_diagonal_spec K H1 same H2 No Na Nb l). Qed.
(** Both hypotheses hold for the Gaussian rationals. *)
Theorem C107_diagonal_filter_rational : forall No Na Nb l, nonzero_counts (2 * No) l ->
  filter_diagonal (fun (x : GaussQ) z => ceqb x (gz z)) (2 * No) No (Na + Nb) Na Nb (repeat PZ (2 * No)) l = Some (filter (fun e => sector No Na Nb (fst e)) l).
Proof. exact (filter_diagonal_spec GaussQ kept_gq same_gq same_gq_int). Qed.
(** Other measurement settings are left alone. *)
Theorem C107_other_settings : forall (K : CoefRing) (same : K -> Z -> bool) Nq No Ne Na Nb original l,
  original <> repeat PZ Nq -> filter_diagonal same Nq No Ne Na Nb original l = Some l.
Proof. exact filter_other. Qed.
(** The value is the average of the string's eigenvalue over the shots that were kept; there is none when no shot was kept. *)
Theorem C107_average : forall (K : CoefRing) (same : K -> Z -> bool) No Na Nb s l,
  (forall x, halfint K x -> small x = true -> x = c0) ->
  (forall a b z, same (csub (of_nat a) (of_nat b)) z = Z.eqb (Z.of_nat a - Z.of_nat b) z) ->
  nonzero_counts (2 * No) l -> length s <= 2 * No ->
  let kept := filter (fun e => sector No Na Nb (fst e)) l in
  process_diagonal same (2 * No) No (Na + Nb) Na Nb (repeat PZ (2 * No)) s l =
    if Z.eqb (shots kept) 0 then None else Some (inject_Z (weighted s kept) / inject_Z (shots kept))%Q.
Proof. intros K same No Na Nb s l H1 H2. exact (process_diagonal_spec K H1 same H2 No Na Nb s l). Qed.

(** The parity checks read the ancillas, the qubits after the first Nq. *)
Theorem C107_parity : forall Nq Ne s l, (forall k v, In (k, v) l -> length k = S Nq) -> length s <= S Nq ->
  let kept := filter (fun e => Bool.eqb (nth Nq (rev (fst e)) false) (Nat.odd Ne)) l in
  parity_check_simple Nq 1 Ne l = Some kept /\
  process_parity_simple Nq 1 Ne s l = if Z.eqb (shots kept) 0 then None else Some (inject_Z (weighted s kept) / inject_Z (shots kept))%Q.
Proof. exact process_parity_simple_spec. Qed.
Theorem C107_spin_parity : forall Nq Na Nb s l, (forall k v, In (k, v) l -> length k = S (S Nq)) -> length s <= S (S Nq) ->
  let kept := filter (fun e => Bool.eqb (nth Nq (rev (fst e)) false) (Nat.odd Na) && Bool.eqb (nth (S Nq) (rev (fst e)) false) (Nat.odd Nb)) l in
  parity_check_spin Nq 2 Na Nb l = Some kept /\
  process_parity_spin Nq 2 Na Nb s l = if Z.eqb (shots kept) 0 then None else Some (inject_Z (weighted s kept) / inject_Z (shots kept))%Q.
Proof. exact process_parity_spin_spec. Qed.

(** Four qubits, one alpha and one beta electron: 0101 has modes 0 and 2, 1010 modes 1 and 3; 0011 (two alpha) and 0111 go. *)
Definition b107 (l : list nat) : bits := map (Nat.eqb 1) l.
Definition l107 : counts := [(b107 [0;1;0;1], 5%Z); (b107 [0;0;1;1], 2%Z); (b107 [0;1;1;1], 1%Z); (b107 [1;0;1;0], 4%Z)].
Example C107_example_hyp : nonzero_counts (2 * 2) l107.
Proof. intros k v [E|[E|[E|[E|[]]]]]; injection E as <- <-; split; (reflexivity || discriminate). Qed.
Example C107_example : filter_diagonal (fun (x : GaussQ) z => ceqb x (gz z)) 4 2 2 1 1 (repeat PZ 4) l107 = Some [(b107 [0;1;0;1], 5%Z); (b107 [1;0;1;0], 4%Z)] /\
  option_map (fun q => Qeq_bool q (-1 # 9)) (process_diagonal (fun (x : GaussQ) z => ceqb x (gz z)) 4 2 2 1 1 (repeat PZ 4) [PZ; PI; PI; PI] l107) = Some true /\
  process_diagonal (fun (x : GaussQ) z => ceqb x (gz z)) 4 2 4 2 2 (repeat PZ 4) [PZ; PI; PI; PI] l107 = None.
Proof. vm_compute. repeat split. Qed.
Example C107_parity_example : parity_check_simple 3 1 2 l107 = Some [(b107 [0;1;0;1], 5%Z); (b107 [0;0;1;1], 2%Z); (b107 [0;1;1;1], 1%Z)] /\
  parity_check_spin 2 2 1 0 l107 = Some [(b107 [0;1;0;1], 5%Z); (b107 [0;1;1;1], 1%Z)].
Proof. vm_compute. repeat split. Qed.

Print Assumptions C107_diagonal_filter.
Print Assumptions C107_diagonal_filter_rational.
Print Assumptions C107_other_settings.
Print Assumptions C107_average.
Print Assumptions C107_parity.
Print Assumptions C107_spin_parity.
