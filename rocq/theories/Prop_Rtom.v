(** The RDM and the energy from the symmetry projected tomography (C170, C171). *)
From Coq Require Import Bool List Arith ZArith QArith Qcanon Lia.
From Verif Require Import Coeff Sqrt2 MatSpec MatLemmas PauliModel OpSpec OperatorModel FockSpec FermiModel TransformModel TwoTerm CircuitSpec CircuitModel RdmSpec RdmModel RdmEnum
  SymSpec SymModel SymProofs6 TomoModel PlanModel PlanSpec PlanProofs3 PlanProofs4 HamModel HamSpec RtomModel RtomProofs RtomProofs2 RtomProofs3.
Import ListNotations.
Local Open Scope nat_scope.

(** C170.  For every valid circuit whose state has definite numbers of particles and of alpha particles, every grouping, rank test
    and solver whose answers solve the system it was given: if the run returns an array, each of its entries is the entry of the
    p-RDM of the prepared state (its real part, i times its imaginary part or both) up to the expectation value, with a sign and
    possibly conjugated, of Pauli strings with coefficients below the thresholds of the projection. *)
Theorem C170_projected_rdm : forall (K : CoefRing) (rt : K), cmul rt rt = chalf -> cconj rt = rt ->
  forall tiny_p tiny : K -> bool, (forall x, tiny_p x = true -> x = c0) -> (forall z, tiny (ipow z) = false) ->
  forall rank_ok solve, solves solve ->
  forall simp p real imag N Ne nu prep t, 1 <= p <= 3 -> real || imag = true -> sized simp -> small (cpow (chalf : K) (S (2 * p))) = false ->
    (forall g, In g prep -> valid (2 * N) g) -> has_particles (2 * N) Ne (prepared rt (2 * N) prep) -> has_up (2 * N) N nu (prepared rt (2 * N) prep) ->
    reduced_tomography rt tiny_p tiny rank_ok solve simp p real imag N prep = Some t ->
    forall c a, length c = p -> length a = p -> Forall (fun x => x < 2 * N) c -> Forall (fun x => x < 2 * N) a ->
      exists D : list (list pauli * K), (forall e, In e D -> length (fst e) = 2 * N /\ (small (snd e) = true \/ tiny (snd e) = true)) /\
        exists w, (let v := expect (2 * N) (omat D) (prepared rt (2 * N) prep) in w = v \/ w = copp v \/ w = cconj v \/ w = copp (cconj v)) /\
          cadd (t (c ++ a)) w = part real imag (rdm_of (2 * N) (prepared rt (2 * N) prep) c a).
Proof.
  intros K rt H1 H2 tiny_p tiny H3 H4 rank_ok solve H5 simp p real imag N Ne nu prep t Hp RI Sz Sm Va Pa Up T.
  exact (reduced_rdm K rt H1 H2 tiny_p tiny H3 H4 rank_ok solve H5 simp p real imag N Ne nu prep t Hp RI Sz Sm (prepared_norm K rt H1 H2 _ _ Va) Pa Up T).
Qed.
Print Assumptions C170_projected_rdm.
(** With exact comparisons it is the RDM. *)
Theorem C170_exact : forall (K : CoefRing) (rt : K), cmul rt rt = chalf -> cconj rt = rt ->
  forall tiny_p tiny : K -> bool, (forall x, tiny_p x = true -> x = c0) -> (forall z, tiny (ipow z) = false) ->
  forall rank_ok solve, solves solve -> (forall x : K, small x = true -> x = c0) -> (forall x, tiny x = true -> x = c0) ->
  forall simp p real imag N Ne nu prep t, 1 <= p <= 3 -> real || imag = true -> sized simp -> small (cpow (chalf : K) (S (2 * p))) = false ->
    (forall g, In g prep -> valid (2 * N) g) -> has_particles (2 * N) Ne (prepared rt (2 * N) prep) -> has_up (2 * N) N nu (prepared rt (2 * N) prep) ->
    reduced_tomography rt tiny_p tiny rank_ok solve simp p real imag N prep = Some t ->
    forall c a, length c = p -> length a = p -> Forall (fun x => x < 2 * N) c -> Forall (fun x => x < 2 * N) a ->
      t (c ++ a) = part real imag (rdm_of (2 * N) (prepared rt (2 * N) prep) c a).
Proof.
  intros K rt H1 H2 tiny_p tiny H3 H4 rank_ok solve H5 Zs Zt simp p real imag N Ne nu prep t Hp RI Sz Sm Va Pa Up T.
  exact (reduced_rdm_exact K rt H1 H2 tiny_p tiny H3 H4 rank_ok solve H5 simp p real imag N Ne nu prep t Zs Zt Hp RI Sz Sm (prepared_norm K rt H1 H2 _ _ Va) Pa Up T).
Qed.
Print Assumptions C170_exact.
(** With a proper colouring, or without grouping, the run with real=True returns when the projection of each element does. *)
Theorem C170_returns : forall (K : CoefRing) (rt : K), cmul rt rt = chalf -> cconj rt = rt ->
  forall tiny_p tiny : K -> bool, (forall x, tiny_p x = true -> x = c0) -> (forall z, tiny (ipow z) = false) ->
  forall rank_ok solve, solves solve ->
  forall simp p imag N prep, 1 <= p <= 3 -> proper simp -> small (cpow (chalf : K) (S (2 * p))) = false ->
    (forall r, In r (rdm_elements p true imag (seq 0 N) (seq N N)) -> generate_sp_rdme tiny rank_ok solve r true imag (fun q => q <? N) (2 * N) <> None) ->
    exists t, reduced_tomography rt tiny_p tiny rank_ok solve simp p true imag N prep = Some t.
Proof. exact reduced_returns. Qed.
Print Assumptions C170_returns.
(** For the 1-RDM with real=True it never does (C32). *)
Theorem C170_one_body_refuted : forall (K : CoefRing) (rt : K) (tiny_p tiny : K -> bool) rank_ok solve simp imag N prep, 0 < N ->
  reduced_tomography rt tiny_p tiny rank_ok solve simp 1 true imag N prep = None.
Proof. exact reduced_one_body. Qed.
Print Assumptions C170_one_body_refuted.

(** C171.  With exact comparisons the energy of the run is the expectation value of the Hamiltonian plus the constant, for real
    symmetric integrals. *)
Theorem C171_energy : forall (K : CoefRing) (rt : K), cmul rt rt = chalf -> cconj rt = rt ->
  forall tiny_p tiny : K -> bool, (forall x, tiny_p x = true -> x = c0) -> (forall z, tiny (ipow z) = false) ->
  forall rank_ok solve, solves solve -> forall simp imag N Ne nu (w : K) h V en_c prep t, (forall x : K, small x = true -> x = c0) -> (forall x, tiny x = true -> x = c0) ->
    sized simp -> (forall g, In g prep -> valid (2 * N) g) ->
    has_up (2 * N) N nu (prepared rt (2 * N) prep) -> has_particles (2 * N) Ne (prepared rt (2 * N) prep) ->
    cmul (cmul (cadd (cadd (cadd c1 c1) c1) c1) w) (ofnat (Ne - 1)) = c1 -> cconj w = w ->
    (forall i j, cconj (h i j) = h i j) -> (forall i j, h i j = h j i) ->
    (forall p q s t, cconj (V p q s t) = V p q s t) -> (forall p q s t, V p q s t = V q p t s) -> (forall p q s t, V p q s t = V s t p q) ->
    reduced_tomography rt tiny_p tiny rank_ok solve simp 2 true imag N prep = Some t ->
    evaluate (2 * N) (build_K2 (2 * N) w h V) en_c t = cadd (expect (2 * N) (ham (2 * N) h V) (prepared rt (2 * N) prep)) en_c.
Proof. exact reduced_energy. Qed.
Print Assumptions C171_energy.

(** * A case: two orbitals, two electrons, a rank test and a solver by elimination. *)
Definition ginv (z : GaussQ) : GaussQ := let n := (fst z * fst z + snd z * snd z)%Qc in ((fst z / n)%Qc, (- (snd z) / n)%Qc).
Fixpoint take_pivot (j : nat) (pre rows : list (list GaussQ)) : option (list GaussQ * list (list GaussQ)) :=
  match rows with
  | [] => None
  | r :: rest => if ceqb (nth j r c0) c0 then take_pivot j (r :: pre) rest else Some (r, rev pre ++ rest)
  end.
Fixpoint gauss (m j : nat) (done todo : list (list GaussQ)) : option (list (list GaussQ)) :=
  match m with
  | O => Some done
  | S m' =>
      match take_pivot j [] todo with
      | None => None
      | Some (r, rest) =>
          let r := map (cmul (ginv (nth j r c0))) r in
          let clear s := map (fun e => csub (snd e) (cmul (nth j s c0) (fst e))) (combine r s) in
          gauss m' (S j) (map clear done ++ [r]) (map clear rest)
      end
  end.
Definition rows_of (cols : list (list GaussQ)) (n : nat) : list (list GaussQ) := map (fun i => map (fun c => nth i c c0) cols) (seq 0 n).
Definition rank170 (cols : list (list GaussR)) : bool :=
  let cs := map (map fst) cols in
  match gauss (length cs) 0 [] (rows_of cs (length (hd [] cs))) with Some _ => true | None => false end.
Definition answer170 (cols : list (list GaussR)) (v : list GaussR) : list GaussR :=
  let cs := map (map fst) cols in
  match gauss (length cs) 0 [] (map (fun e => fst e ++ [snd e]) (combine (rows_of cs (length v)) (map fst v))) with
  | Some rs => map (fun r => (last r c0, c0)) rs
  | None => []
  end.
Definition solve170 (cols : list (list GaussR)) (v : list GaussR) : option (list GaussR) :=
  let x := answer170 cols v in
  if Nat.eqb (length x) (length cols) && forallb (fun i => ceqb (dot_row cols x i) (nth i v c0)) (seq 0 (length v)) then Some x else None.
Lemma solve170_solves : solves solve170.
Proof.
  intros cols v x. unfold solve170. destruct (Nat.eqb_spec (length (answer170 cols v)) (length cols)) as [L|]; [|discriminate]. cbn [andb].
  destruct (forallb _ _) eqn:F; [|discriminate]. intros H. injection H as <-. split; [exact L|]. intros i Hi. rewrite forallb_forall in F.
  apply (ceqb_spec GaussR). apply F. apply in_seq. lia.
Qed.
Definition zero170 (x : GaussR) : bool := ceqb x c0.
(** The strings measured for the elements of the 2-RDM: two instead of eight for a double excitation. *)
Example C170_strings : map (fun r => option_map (map (fun e : list pauli * GaussR => fst e)) (generate_sp_rdme zero170 rank170 solve170 r true false (fun q => q <? 2) 4))
    [[0; 1; 1; 0]; [0; 2; 2; 1]; [0; 2; 3; 1]] =
  [Some [[PI; PI; PI; PI]; [PZ; PI; PI; PI]; [PI; PZ; PI; PI]; [PZ; PZ; PI; PI]]; Some [[PX; PX; PI; PI]; [PX; PX; PZ; PI]]; Some [[PX; PX; PX; PX]; [PY; PX; PY; PX]]] /\
  option_map (fun o => length (@jw_operator GaussR o)) (generate_rdme [0; 2; 3; 1] true false 4) = Some 8.
Proof. split; vm_compute; reflexivity. Qed.
Lemma all170 : forallb (fun r => match generate_sp_rdme zero170 rank170 solve170 r true false (fun q => q <? 2) (2 * 2) with Some _ => true | None => false end)
  (rdm_elements 2 true false (seq 0 2) (seq 2 2)) = true.
Proof. vm_compute. reflexivity. Qed.
Definition v170 : angle GaussR := ((Q2Qc (3 # 5), Q2Qc 0, c0), (Q2Qc (4 # 5), Q2Qc 0, c0)).
Definition prep170 : list (gate GaussR) := [Gry v170 0; Gcx 0 1; Gx 1; Gcx 0 2; Gcx 1 3].
Definition amps170 : list (bits * GaussR) := steps rrt 4 prep170 (tabulate 4 (zero_state 4)).
Lemma amp170 : forallb (fun e => ceqb (snd e) c0 || bits_eqb (fst e) [false; true; false; true] || bits_eqb (fst e) [true; false; true; false]) amps170 = true /\
  ceqb (lookup amps170 [true; false; true; false]) c0 = false /\ ceqb (lookup amps170 [false; true; false; true]) c0 = false.
Proof. vm_compute. auto. Qed.
Lemma support170 (P : bits -> Prop) x : P [false; true; false; true] -> P [true; false; true; false] -> length x = 4 -> prepared rrt 4 prep170 x = c0 \/ P x.
Proof.
  intros P1 P2 L. rewrite prepared_steps by exact L. change (steps rrt 4 prep170 (tabulate 4 (zero_state 4))) with amps170.
  unfold lookup. destruct (find (fun e => bits_eqb (fst e) x) amps170) as [e|] eqn:E; [|left; reflexivity]. apply find_some in E. destruct E as [I X].
  apply bits_eqb_spec in X. subst x. pose proof (proj1 (forallb_forall _ _) (proj1 amp170) e I) as Q. apply orb_prop in Q. destruct Q as [Q|Q]; [apply orb_prop in Q; destruct Q as [Q|Q]|].
  - left. apply (ceqb_spec GaussR). exact Q.
  - right. apply bits_eqb_spec in Q. rewrite Q. exact P1.
  - right. apply bits_eqb_spec in Q. rewrite Q. exact P2.
Qed.
(** The state 3/5 |0101> + 4/5 |1010>, no grouping: the run returns, and its array is the real part of the 2-RDM. *)
Example C170_case : exists t, reduced_tomography rrt zero170 zero170 rank170 solve170 Plain 2 true false 2 prep170 = Some t /\
  forall c a, length c = 2 -> length a = 2 -> Forall (fun x => x < 4) c -> Forall (fun x => x < 4) a -> t (c ++ a) = part true false (rdm_of 4 (prepared rrt 4 prep170) c a).
Proof.
  assert (Z : forall x : GaussR, zero170 x = true -> x = c0) by (intros x H; apply (ceqb_spec GaussR); exact H).
  assert (U : forall z, zero170 (ipow z) = false) by (intro z; exact (unit_not_small GaussR z)).
  assert (R1 : @cmul GaussR rrt rrt = chalf) by (apply (ceqb_spec GaussR); vm_compute; reflexivity).
  assert (R2 : @cconj GaussR rrt = rrt) by (apply (ceqb_spec GaussR); vm_compute; reflexivity).
  assert (S5 : small (cpow (chalf : GaussR) (S (2 * 2))) = false) by (vm_compute; reflexivity).
  destruct (C170_returns GaussR rrt R1 R2 zero170 zero170 Z U rank170 solve170 solve170_solves Plain 2 false 2 prep170 ltac:(lia) I S5) as [t T].
  { intros r Hr E. pose proof (proj1 (forallb_forall _ _) all170 r Hr) as Q. cbv beta in Q. rewrite E in Q. discriminate. }
  exists t. split; [exact T|].
  apply (C170_exact GaussR rrt R1 R2 zero170 zero170 Z U rank170 solve170 solve170_solves Z Z Plain 2 true false 2 2 1 prep170 t ltac:(lia) eq_refl I S5); [| | |exact T].
  - intros g [<-|[<-|[<-|[<-|[<-|[]]]]]]; split; cbn [gate_ok]; try lia; try exact I.
    split; [|split]; apply (ceqb_spec GaussR); vm_compute; reflexivity.
  - intros x L H. destruct (support170 (fun x => popcount x = 2) x eq_refl eq_refl L) as [E|E]; [exact E|contradiction].
  - intros x L H. destruct (support170 (fun x => popcount (firstn 2 x) = 1) x eq_refl eq_refl L) as [E|E]; [exact E|contradiction].
Qed.
