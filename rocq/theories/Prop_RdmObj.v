(** C90-C97: RDM objects, spin properties, spatial and alpha-beta blocks, cumulants. *)
From Coq Require Import Bool List ZArith Arith Lia.
From Verif Require Import Coeff MatSpec MatLemmas FockSpec OpSpec CircuitSpec RdmModel RdmSpec RdmWedge HamModel HamSpec Sqrt2
  RdmObjModel RdmObjSpec RdmObjProofs1 RdmObjProofs2 RdmObjProofs3 RdmObjProofs4 RdmObjProofs5 RdmObjProofs6 RdmObjProofs7.
Import ListNotations.
Local Open Scope nat_scope.

(** C90. Whatever sequence of contract, expand, switch, trace and observable is called, the array keeps every
    element, as a tensor or as a matrix. *)
Theorem C90_calls_keep_elements :
  forall (K : CoefRing) (l : list (call K)) (o : rdm K) (T : list nat -> list nat -> K),
  let r := length (alp o) + length (bet o) in
  0 < r -> 0 < ord o -> stores r (ord o) (arr o) T ->
  (forall H, In (CObservable H) l -> shape H = [r ^ ord o; r ^ ord o]) ->
  exists o', do_calls l o = Some o' /\ ord o' = ord o /\ alp o' = alp o /\ bet o' = bet o /\ ne o' = ne o
    /\ stores r (ord o) (arr o') T.
Proof.
  intros K l o T r Hr Hp W HH. destruct (calls_spec K l o T Hr Hp W HH) as [o' [E [P [A [B [N S]]]]]].
  exists o'. repeat (split; [assumption|]). unfold wf, so in S. rewrite P, A, B in S. exact S.
Qed.
Print Assumptions C90_calls_keep_elements.

Theorem C90_contract :
  forall (K : CoefRing) (o : rdm K) (T : list nat -> list nat -> K),
  let r := length (alp o) + length (bet o) in stores r (ord o) (arr o) T ->
  exists o', contract o = Some o' /\ ord o' = ord o /\ alp o' = alp o /\ bet o' = bet o /\ ne o' = ne o
    /\ stores_matrix r (ord o) (arr o') T.
Proof. exact contract_spec. Qed.
Print Assumptions C90_contract.

Theorem C90_expand :
  forall (K : CoefRing) (o : rdm K) (T : list nat -> list nat -> K),
  let r := length (alp o) + length (bet o) in stores r (ord o) (arr o) T ->
  exists o', expand o = Some o' /\ ord o' = ord o /\ alp o' = alp o /\ bet o' = bet o /\ ne o' = ne o
    /\ stores_tensor r (ord o) (arr o') T.
Proof. exact expand_spec. Qed.
Print Assumptions C90_expand.

(** Above order 1 switch goes to the other form. *)
Theorem C90_switch :
  forall (K : CoefRing) (o : rdm K) (T : list nat -> list nat -> K),
  let r := length (alp o) + length (bet o) in 2 <= ord o ->
  (stores_tensor r (ord o) (arr o) T -> exists o', switch o = Some o' /\ stores_matrix r (ord o) (arr o') T)
  /\ (stores_matrix r (ord o) (arr o) T -> exists o', switch o = Some o' /\ stores_tensor r (ord o) (arr o') T).
Proof.
  intros K o T r Hp. split; intro S.
  - destruct (switch_spec K o T (or_introl S)) as [o' [E [_ [_ [_ [_ [_ [M _]]]]]]]]. exists o'. split; [exact E|]. apply M; [lia|apply S|lia].
  - destruct (switch_spec K o T (or_intror S)) as [o' [E [_ [_ [_ [_ [_ [_ M]]]]]]]]. exists o'. split; [exact E|]. apply M; [lia|apply S].
Qed.
Print Assumptions C90_switch.

(** trace returns the sum of the diagonal elements and leaves the form of the array as it was. *)
Theorem C90_trace :
  forall (K : CoefRing) (o : rdm K) (T : list nat -> list nat -> K),
  let r := length (alp o) + length (bet o) in 0 < r -> 0 < ord o -> stores r (ord o) (arr o) T ->
  exists o', trace_ o = Some (o', Number (sumK (map (fun c => T c c) (tuples r (ord o)))))
    /\ shape (arr o') = shape (arr o) /\ stores r (ord o) (arr o') T.
Proof.
  intros K o T r Hr Hp W. destruct (trace_spec K o T Hr Hp W) as [o' [E [P [A [B [N [S Sh]]]]]]].
  exists o'. split; [exact E|]. split; [exact Sh|]. unfold wf, so in S. rewrite P, A, B in S. exact S.
Qed.
Print Assumptions C90_trace.

(** observable returns the trace of the product with the matrix H. *)
Theorem C90_observable :
  forall (K : CoefRing) (o : rdm K) (T : list nat -> list nat -> K) (H : nda K) (A : list nat -> list nat -> K),
  let r := length (alp o) + length (bet o) in stores r (ord o) (arr o) T -> stores_matrix r (ord o) H A ->
  exists o', observable_ H o = Some (o', Number (sumK (map (fun c => sumK (map (fun d => cmul (A c d) (T d c)) (tuples r (ord o)))) (tuples r (ord o)))))
    /\ stores_tensor r (ord o) (arr o') T.
Proof.
  intros K o T H A r W HA. destruct (observable_spec K o T H A W HA) as [o' [E [_ [_ [_ [_ S]]]]]]. exists o'. split; [exact E|exact S].
Qed.
Print Assumptions C90_observable.

(** Two spin orbitals, order 2: entry [i,k,j,l] is 1 + 8i + 4k + 2j + l; the trace is 1+6+11+16 = 34. *)
Definition o90 : rdm GaussQ := Rdm 2 [0] [1] 2 (Nda [2; 2; 2; 2] (fun t => gz (1 + Z.of_nat t))).
Definition T90 (c d : list nat) : GaussQ := gz (1 + Z.of_nat (rank 2 (c ++ d))).
Definition value (x : traced GaussQ) (z : Z) : bool := match x with Number v => ceqb v (gz z) | Array _ => false end.
Example C90_case :
  stores 2 2 (arr o90) T90
  /\ option_map (fun e => value (snd e) 34) (trace_ o90) = Some true
  /\ option_map (fun o => (shape (arr o), option_map (fun x => @ceqb GaussQ x (gz 11)) (get (arr o) [2; 2]))) (do_calls [CTrace; CContract; CTrace] o90) = Some ([4; 4], Some true)
  /\ option_map (fun o => (shape (arr o), option_map (fun x => @ceqb GaussQ x (gz 11)) (get (arr o) [1; 0; 1; 0]))) (do_calls [CSwitch; CObservable (Nda [4; 4] (fun _ => gz 1)); CTrace] o90) = Some ([2; 2; 2; 2], Some true).
Proof.
  split; [|repeat split; vm_compute; reflexivity]. left. split; [reflexivity|]. intros c d [Lc Fc] [Ld Fd].
  destruct c as [|a [|b [|? ?]]]; try discriminate. destruct d as [|e [|f [|? ?]]]; try discriminate.
  inversion_clear Fc as [|? ? Ha Fc1]. inversion_clear Fc1 as [|? ? Hb _]. inversion_clear Fd as [|? ? He Fd1]. inversion_clear Fd1 as [|? ? Hf _].
  destruct a as [|[|?]]; try lia; destruct b as [|[|?]]; try lia; destruct e as [|[|?]]; try lia; destruct f as [|[|?]]; try lia; reflexivity.
Qed.

(** C91. Sums and differences of two objects of the same system are elementwise, in a new object; the operands
    keep their elements. *)
Theorem C91_elementwise :
  forall (K : CoefRing) (f : K -> K -> K) (o o' : rdm K) (T T' : list nat -> list nat -> K), f = @cadd K \/ f = @csub K ->
  let r := length (alp o) + length (bet o) in
  alp o' = alp o -> bet o' = bet o -> ord o' = ord o -> stores r (ord o) (arr o) T -> stores r (ord o) (arr o') T' ->
  exists o1 o1' n, combine_ f o o' = Some (o1, o1', n)
    /\ stores_tensor r (ord o) (arr o1) T /\ stores_tensor r (ord o) (arr o1') T'
    /\ stores_tensor r (ord o) (arr n) (fun c d => f (T c d) (T' c d))
    /\ ord n = ord o /\ alp n = alp o /\ bet n = bet o /\ ne n = ne o.
Proof.
  intros K f o o' T T' _ r Ha Hb Hp W W'. refine (combine_spec K f o o' T T' Ha Hb Hp W _). unfold wf, so. rewrite Ha, Hb, Hp. exact W'.
Qed.
Print Assumptions C91_elementwise.

Theorem C91_different_systems_refused :
  forall (K : CoefRing) (f : K -> K -> K) (o o' : rdm K),
  alp o' <> alp o \/ bet o' <> bet o \/ ord o' <> ord o -> combine_ f o o' = None.
Proof. exact combine_refused. Qed.
Print Assumptions C91_different_systems_refused.

Theorem C91_real_multiples :
  forall (K : CoefRing) (o : rdm K) (T : list nat -> list nat -> K) (v : K),
  let r := length (alp o) + length (bet o) in stores r (ord o) (arr o) T ->
  forall x, x = PyInt v \/ x = PyFloat v ->
  exists n, scale_ o x = Some n /\ stores r (ord o) (arr n) (fun c d => cmul (T c d) v)
    /\ ord n = ord o /\ alp n = alp o /\ bet n = bet o /\ ne n = ne o.
Proof.
  intros K o T v r W x Hx. destruct (scale_spec K o T v W x Hx) as [n [E [S [P [A [B N]]]]]]. exists n. split; [exact E|].
  split; [|auto]. unfold wf, so in S. rewrite P, A, B in S. exact S.
Qed.
Print Assumptions C91_real_multiples.

Example C91_case :
  option_map (fun e => option_map (fun x => @ceqb GaussQ x (gz 22)) (get (arr (snd e)) [1; 0; 1; 0])) (match contract o90 with Some o => combine_ cadd o90 o | None => None end) = Some (Some true)
  /\ option_map (fun n => option_map (fun x => @ceqb GaussQ x (gz 33)) (get (arr n) [1; 0; 1; 0])) (scale_ o90 (PyInt (gz 3))) = Some (Some true).
Proof. split; vm_compute; reflexivity. Qed.

(** C92. For the RDMs of any state, the values returned are <S_z> and <S^2>.  Inactive and virtual orbitals may be
    given; the spin operators are those of the active ones. *)
Theorem C92_Sz :
  forall (K : CoefRing) (a b : orbs) (psi : bits -> K),
  length (inactive a) = length (inactive b) /\ length (active a) = length (active b)
    /\ NoDup (inactive a ++ active a) /\ NoDup (inactive b ++ active b) ->
  (forall x, In x (active a ++ active b) -> x < norb a b) -> NoDup (active a ++ active b) ->
  Sz (fun i j => rdm_of (norb a b) psi [i] [j]) a b = Some (expect (norb a b) (S_z (combine (active a) (active b))) psi).
Proof. exact Sz_spec. Qed.
Print Assumptions C92_Sz.

Theorem C92_S2 :
  forall (K : CoefRing) (a b : orbs) (psi : bits -> K),
  length (inactive a) = length (inactive b) /\ length (active a) = length (active b)
    /\ NoDup (inactive a ++ active a) /\ NoDup (inactive b ++ active b) ->
  (forall x, In x (active a ++ active b) -> x < norb a b) -> NoDup (active a ++ active b) ->
  S2 (fun i k j l => rdm_of (norb a b) psi [i; k] [j; l]) (fun i j => rdm_of (norb a b) psi [i] [j]) a b
  = Some (expect (norb a b) (S_squared (norb a b) (combine (active a) (active b))) psi).
Proof. exact S2_spec. Qed.
Print Assumptions C92_S2.

(** get_spin_properties of the 2-RDM of a state with Ne particles; [w] is 1/(Ne-1). *)
Theorem C92_spin_properties :
  forall (K : CoefRing) (Ne : nat) (w : K) (al be : list nat) (D : tensor K) (psi : bits -> K),
  let r := length al + length be in
  2 <= Ne -> length al = length be -> NoDup (al ++ be) -> (forall x, In x (al ++ be) -> x < r) ->
  has_particles r Ne psi -> cmul (ofnat (Ne - 1)) w = c1 ->
  (forall i k j l, D [i; k; j; l] = rdm_of r psi [i; k] [j; l]) ->
  spin_properties w al be D = Some (expect r (S_z (combine al be)) psi, expect r (S_squared r (combine al be)) psi).
Proof. exact spin_properties_spec. Qed.
Print Assumptions C92_spin_properties.

(** Two electrons with spin up, orbitals interleaved: S_z = 1 and S^2 = 2. *)
Definition psi92 : bits -> GaussQ := basis_vec [true; false; true; false].
Definition D92 : tensor GaussQ := fun ind => match ind with [i; k; j; l] => rdm_of 4 psi92 [i; k] [j; l] | _ => c0 end.
Example C92_case :
  option_map (fun p => @ceqb GaussQ (fst p) (gz 1) && @ceqb GaussQ (snd p) (gz 2)) (spin_properties (gz 1) [0; 2] [1; 3] D92) = Some true
  /\ @ceqb GaussQ (expect 4 (S_squared 4 [(0, 1); (2, 3)]) psi92) (gz 2) = true.
Proof. split; vm_compute; reflexivity. Qed.

(** C93. Orbitals in the default order (spin up 0..N-1, spin down N..2N-1): the spatial arrays are the sums over
    spins, reducing the order commutes with the sum, the trace is kept, and the method and the function agree. *)
Theorem C93_spatial_2rdm :
  forall (K : CoefRing) (N : nat) (t : nat -> nat -> nat -> nat -> K),
  exists s, spatial4 (2 * N) (seq 0 N) (seq N N) t = Some s /\
  forall i k j l, i < N -> k < N -> j < N -> l < N ->
    s i k j l = cadd (cadd (cadd (t i k j l) (t (N + i) (N + k) (N + j) (N + l))) (t i (N + k) j (N + l))) (t (N + i) k (N + j) l).
Proof. exact spatial4_default. Qed.
Print Assumptions C93_spatial_2rdm.

Theorem C93_spatial_1rdm :
  forall (K : CoefRing) (N : nat) (t : nat -> nat -> K),
  exists s, spatial2 (2 * N) (seq 0 N) (seq N N) t = Some s /\
  forall i j, i < N -> j < N -> s i j = cadd (t i j) (t (N + i) (N + j)).
Proof. exact spatial2_default. Qed.
Print Assumptions C93_spatial_1rdm.

Theorem C93_reduce_commutes :
  forall (K : CoefRing) (N : nat) (w : K) (t s : nat -> nat -> nat -> nat -> K), spatial4 (2 * N) (seq 0 N) (seq N N) t = Some s ->
  exists s1, spatial2 (2 * N) (seq 0 N) (seq N N) (fun i j => cmul (sum_range (2 * N) (fun x => t i x j x)) w) = Some s1 /\
  forall i j, i < N -> j < N -> spatial_reduce N w s i j = s1 i j.
Proof. exact spatial_reduce_spec. Qed.
Print Assumptions C93_reduce_commutes.

Theorem C93_trace :
  forall (K : CoefRing) (N : nat) (t s : nat -> nat -> nat -> nat -> K), spatial4 (2 * N) (seq 0 N) (seq N N) t = Some s ->
  upto N (fun i => upto N (fun k => s i k i k)) = upto (2 * N) (fun i => upto (2 * N) (fun k => t i k i k)).
Proof. exact spatial_trace. Qed.
Print Assumptions C93_trace.

Theorem C93_method :
  forall (K : CoefRing) (R : nat) (t : nat -> nat -> nat -> nat -> K) (i k j l : nat), i < R -> k < R -> j < R -> l < R ->
  spatial_rdm2 R t i k j l
  = cadd (cadd (cadd (t i k j l) (t (R + i) (R + k) (R + j) (R + l))) (t i (R + k) j (R + l))) (t (R + i) k (R + j) l).
Proof. exact spatial_rdm2_spec. Qed.
Print Assumptions C93_method.

(** switch_alpha_beta, any order of orbitals: on every element that conserves spin the spins are exchanged. *)
Theorem C93_flip :
  forall (K : CoefRing) (Nso : nat) (a b : orbs) (t : nat -> nat -> nat -> nat -> K),
  NoDup (all_orbs a ++ all_orbs b) -> length (all_orbs a) = length (all_orbs b) ->
  (forall x, In x (all_orbs a ++ all_orbs b) -> x < Nso) ->
  exists n, switch_alpha_beta Nso a b t = Some n /\
  let A := combine (all_orbs a) (all_orbs b) in let B := combine (all_orbs b) (all_orbs a) in
  forall P Q, (P = A \/ P = B) -> (Q = A \/ Q = B) ->
  forall e1 e2 e3 e4, In e1 P -> In e2 Q -> (In e3 P /\ In e4 Q \/ In e3 Q /\ In e4 P) ->
    n (snd e1) (snd e2) (snd e3) (snd e4) = t (fst e1) (fst e2) (fst e3) (fst e4).
Proof. exact flip_spec. Qed.
Print Assumptions C93_flip.

Definition t93 (i k j l : nat) : GaussQ := gz (Z.of_nat (rank 4 [i; k; j; l])).
Example C93_case :
  option_map (fun s => @ceqb GaussQ (s 0 1 1 0) (gz (Z.of_nat (rank 4 [0; 1; 1; 0] + rank 4 [2; 3; 3; 2] + rank 4 [0; 3; 1; 2] + rank 4 [2; 1; 3; 0])))) (spatial4 4 [0; 1] [2; 3] t93) = Some true
  /\ option_map (fun n => @ceqb GaussQ (n 1 2 3 0) (gz (Z.of_nat (rank 4 [0; 3; 2; 1])))) (switch_alpha_beta 4 (plain [0; 2]) (plain [1; 3]) t93) = Some true.
Proof. split; vm_compute; reflexivity. Qed.

(** C94. The alpha-beta block of an array rebuilt from a block is that block, and every element of the rebuilt array
    is determined; for a singlet state the array rebuilt from the block of the 2-RDM is the 2-RDM. *)
Theorem C94_block_roundtrip :
  forall (K : CoefRing) (R : nat) (f : nat -> nat -> nat -> nat -> K) (i k j l : nat), i < R -> k < R -> j < R -> l < R ->
  antisymmetric_block R (seq 0 R) (seq R R) (from_ab R f) i k j l = f i k j l.
Proof. exact ab_roundtrip. Qed.
Print Assumptions C94_block_roundtrip.

Theorem C94_block :
  forall (K : CoefRing) (R : nat) (t : nat -> nat -> nat -> nat -> K) (i k j l : nat), i < R -> k < R -> j < R -> l < R ->
  antisymmetric_block R (seq 0 R) (seq R R) t i k j l = t i (R + k) j (R + l).
Proof. exact ab_block_spec. Qed.
Print Assumptions C94_block.

Theorem C94_rebuilt_elements :
  forall (K : CoefRing) (R : nat) (f : nat -> nat -> nat -> nat -> K) (i k j l : nat), i < R -> k < R -> j < R -> l < R ->
  let I := R + i in let Kk := R + k in let J := R + j in let L := R + l in
  from_ab R f i k j l = csub (f i k j l) (f k i j l) /\ from_ab R f I Kk J L = csub (f i k j l) (f k i j l) /\
  from_ab R f i Kk j L = f i k j l /\ from_ab R f I k J l = f i k j l /\
  from_ab R f Kk i j L = copp (f i k j l) /\ from_ab R f k I J l = copp (f i k j l) /\
  from_ab R f I k j l = c0 /\ from_ab R f i Kk j l = c0 /\ from_ab R f i k J l = c0 /\ from_ab R f i k j L = c0 /\
  from_ab R f i Kk J L = c0 /\ from_ab R f I k J L = c0 /\ from_ab R f I Kk j L = c0 /\ from_ab R f I Kk J l = c0 /\
  from_ab R f I Kk j l = c0 /\ from_ab R f i k J L = c0.
Proof. exact from_ab_blocks. Qed.
Print Assumptions C94_rebuilt_elements.

Theorem C94_singlet_rebuilt :
  forall (K : CoefRing) (N : nat) (psi : bits -> K), singlet K N psi ->
  forall x y z t, x < 2 * N -> y < 2 * N -> z < 2 * N -> t < 2 * N ->
  from_ab N (antisymmetric_block N (seq 0 N) (seq N N) (fun i k j l => rdm_of (2 * N) psi [i; k] [j; l])) x y z t
  = rdm_of (2 * N) psi [x; y] [z; t].
Proof. exact singlet_rebuild. Qed.
Print Assumptions C94_singlet_rebuilt.

(** The open-shell singlet |0 up, 1 down> + |1 up, 0 down> and a non-singlet. *)
Definition psi94 : bits -> GaussQ := fun x => if bits_eqb x [true; false; false; true] then gz 1 else if bits_eqb x [false; true; true; false] then gz 1 else gz 0.
Example C94_case :
  singlet GaussQ 2 psi94
  /\ @ceqb GaussQ (rdm_of 4 psi94 [0; 3] [1; 2]) (gz 1) = true
  /\ @ceqb GaussQ (from_ab 2 (antisymmetric_block 2 (seq 0 2) (seq 2 2) (fun i k j l => rdm_of 4 psi94 [i; k] [j; l])) 0 3 1 2) (gz 1) = true.
Proof.
  split; [|split; vm_compute; reflexivity].
  split; intros x Hx; destruct x as [|[|] [|[|] [|[|] [|[|] [|? ?]]]]]; try discriminate; apply (ceqb_spec GaussQ); vm_compute; reflexivity.
Qed.

(** C95. The cumulant of the 2-RDM of a state with Ne particles is its connected part; [w] is 1/(Ne-1). *)
Theorem C95_cumulant :
  forall (K : CoefRing) (R Ne : nat) (w : K) (D : tensor K) (psi : bits -> K), 2 <= Ne -> has_particles R Ne psi ->
  cmul (ofnat (Ne - 1)) w = c1 -> (forall i k j l, D [i; k; j; l] = rdm_of R psi [i; k] [j; l]) ->
  forall i k j l, i < R -> k < R -> j < R -> l < R ->
  cumulant R w D [i; k; j; l]
  = csub (rdm_of R psi [i; k] [j; l]) (csub (cmul (rdm_of R psi [i] [j]) (rdm_of R psi [k] [l])) (cmul (rdm_of R psi [i] [l]) (rdm_of R psi [k] [j]))).
Proof. exact cumulant_state. Qed.
Print Assumptions C95_cumulant.

(** For every array it is the array minus the minors of its contraction. *)
Theorem C95_cumulant_array :
  forall (K : CoefRing) (r : nat) (w : K) (D : tensor K) (i k j l : nat), i < r -> k < r -> j < r -> l < r ->
  let G := fun a b => cmul w (sumK (map (fun x => D [a; x; b; x]) (seq 0 r))) in
  cumulant r w D [i; k; j; l] = csub (D [i; k; j; l]) (csub (cmul (G i j) (G k l)) (cmul (G i l) (G k j))).
Proof. exact cumulant_spec. Qed.
Print Assumptions C95_cumulant_array.

(** It vanishes for Hartree-Fock. *)
Theorem C95_cumulant_hf :
  forall (K : CoefRing) (na nb R : nat) (alp bet : list nat) (w : K),
  let occ := firstn na alp ++ firstn nb bet in
  (forall z, In z occ -> z < R) -> NoDup occ -> 2 <= length occ -> cmul (ofnat (length occ - 1)) w = c1 ->
  forall i k j l, i < R -> k < R -> j < R -> l < R -> cumulant R w (build_hf 2 na nb alp bet) [i; k; j; l] = c0.
Proof. exact cumulant_hf. Qed.
Print Assumptions C95_cumulant_hf.

(** The product of three copies of any 1-RDM is the 3x3 minor; [w] = 1/2 and [v] = 1/12 are the code's weights. *)
Theorem C95_triple_product :
  forall (K : CoefRing) (r : nat) (w v : K) (D : tensor K) (i j k l m n : nat),
  cmul w (ofnat 2) = c1 -> cmul v (ofnat 12) = c1 -> i < r -> j < r -> k < r -> l < r -> m < r -> n < r ->
  wedge r 2 1 v (wedge r 1 1 w D D) D [i; j; k; l; m; n] = det3 D i j k l m n.
Proof. exact triple_product'. Qed.
Print Assumptions C95_triple_product.

(** The reconstructed 3-RDM of Hartree-Fock is the Hartree-Fock 3-RDM. *)
Theorem C95_reconstruct_hf :
  forall (K : CoefRing) (na nb R : nat) (alp bet : list nat) (w : K) (Ne : nat) (v : K),
  let occ := firstn na alp ++ firstn nb bet in
  (forall z, In z occ -> z < R) -> NoDup occ -> 2 <= length occ -> cmul (ofnat (length occ - 1)) w = c1 ->
  3 <= Ne -> cmul v (ofnat 12) = c1 ->
  forall i j k l m n, i < R -> j < R -> k < R -> l < R -> m < R -> n < R ->
  reconstruct2 R Ne w v (build_hf 2 na nb alp bet) [i; j; k; l; m; n] = build_hf 3 na nb alp bet [i; j; k; l; m; n].
Proof. exact reconstruct_hf'. Qed.
Print Assumptions C95_reconstruct_hf.

Definition D95 : tensor GaussQ := fun ind => match ind with [i; k; j; l] => rdm_of 4 psi94 [i; k] [j; l] | _ => c0 end.
Example C95_case :
  @ceqb GaussQ (cumulant 4 (gz 1) D95 [0; 3; 1; 2]) (gz 1) = true
  /\ @ceqb GaussQ (cumulant 4 (gz 1) D95 [0; 2; 0; 2]) (gz (-1)) = true
  /\ @ceqb GaussQ (cumulant 6 (gq 1 2) (build_hf 2 2 1 [0; 1; 2] [3; 4; 5]) [0; 3; 0; 3]) (gz 0) = true
  /\ @ceqb GaussQ (reconstruct2 6 3 (gq 1 2) (gq 1 12) (build_hf 2 2 1 [0; 1; 2] [3; 4; 5]) [0; 1; 3; 0; 3; 1]) (gz (-1)) = true.
Proof. repeat split; vm_compute; reflexivity. Qed.

(** C96. transpose returns the array unchanged. *)
Theorem C96_transpose_refuted :
  exists (o : rdm GaussQ) (T : list nat -> list nat -> GaussQ), stores 2 2 (arr o) T /\ ~ stores 2 2 (arr (transpose_ [2; 3; 0; 1] o)) (fun c d => T d c).
Proof.
  exists o90, T90. split; [apply C90_case|]. intros [[_ H] | [H _]]; [|discriminate].
  specialize (H [0; 0] [0; 1] ltac:(split; [reflexivity|repeat constructor]) ltac:(split; [reflexivity|repeat constructor])).
  apply (f_equal (option_map (fun x => ceqb x (gz 2)))) in H. vm_compute in H. discriminate.
Qed.
Print Assumptions C96_transpose_refuted.

Theorem C96_transpose_does_nothing : forall (K : CoefRing) (axes : list nat) (o : rdm K), transpose_ axes o = o.
Proof. reflexivity. Qed.
Print Assumptions C96_transpose_does_nothing.

(** Numbers that are not int or float (complex, numpy scalars) are refused. *)
Theorem C96_other_numbers_refused : forall (K : CoefRing) (o : rdm K) (v : K), scale_ o (OtherNumber v) = None.
Proof. reflexivity. Qed.
Print Assumptions C96_other_numbers_refused.

(** C97. With a spin-up orbital numbered N or higher (of 2N), spin_to_spatial fails: every order of the orbitals
    except spin up first. *)
Theorem C97_other_orders_refused :
  forall (K : CoefRing) (Nso : nat) (x y : list nat) (t : nat -> nat -> nat -> nat -> K) (i : nat),
  In i x -> Nat.div2 Nso <= i -> spatial4 Nso x y t = None.
Proof. exact spatial4_refused. Qed.
Print Assumptions C97_other_orders_refused.

(** S_z of a spatial RDM is 0 whatever the state. *)
Theorem C97_spatial_Sz_is_zero :
  forall (K : CoefRing) (N : nat) (rdm1 : nat -> nat -> K), Sz_spatial rdm1 (plain (seq 0 N)) (plain (seq N N)) = Some c0.
Proof. exact Sz_spatial_zero. Qed.
Print Assumptions C97_spatial_Sz_is_zero.

(** Two electrons with spin up: S_z = 1 and S^2 = 2, but the spatial object reports 0 and 5. *)
Theorem C97_spatial_spin_refuted :
  exists (psi : bits -> GaussQ) (s : nat -> nat -> nat -> nat -> GaussQ) (sz s2 : GaussQ),
  spatial4 4 [0; 1] [2; 3] (fun i k j l => rdm_of 4 psi [i; k] [j; l]) = Some s
  /\ spatial_spin_properties (gz 1) [0; 1] [2; 3] s = Some (sz, s2)
  /\ sz <> expect 4 (S_z [(0, 2); (1, 3)]) psi /\ s2 <> expect 4 (S_squared 4 [(0, 2); (1, 3)]) psi.
Proof.
  set (psi := @basis_vec GaussQ [true; true; false; false]).
  set (sp := spatial4 4 [0; 1] [2; 3] (fun i k j l => rdm_of 4 psi [i; k] [j; l])).
  assert (C : option_map (fun s => option_map (fun p => negb (@ceqb GaussQ (fst p) (expect 4 (S_z [(0, 2); (1, 3)]) psi)) && negb (@ceqb GaussQ (snd p) (expect 4 (S_squared 4 [(0, 2); (1, 3)]) psi)))
     (spatial_spin_properties (gz 1) [0; 1] [2; 3] s)) sp = Some (Some true)) by (vm_compute; reflexivity).
  destruct sp as [s|] eqn:Es; [|discriminate]. cbn [option_map] in C. destruct (spatial_spin_properties (gz 1) [0; 1] [2; 3] s) as [[sz s2]|] eqn:E; [|discriminate].
  cbn [option_map fst snd] in C. injection C as C. apply andb_true_iff in C as [C1 C2]. apply negb_true_iff in C1, C2.
  exists psi, s, sz, s2. split; [exact Es|]. split; [exact E|]. split; intro H; apply (ceqb_spec GaussQ) in H; [exact (eq_true_false_abs _ H C1)|exact (eq_true_false_abs _ H C2)].
Qed.
Print Assumptions C97_spatial_spin_refuted.
