(** C30-C37, C59: reduced density matrices. *)
From Coq Require Import Bool List ZArith Arith Permutation Sorted Lia Factorial.
From Verif Require Import Coeff MatSpec MatLemmas FockSpec OpSpec CircuitSpec RdmModel RdmSpec RdmEnum RdmPerm RdmFock RdmBuild RdmProofs RdmWedge Sqrt2.
Import ListNotations.
Local Open Scope nat_scope.

(** C30. In the default layout (alpha orbitals 0..N-1, beta orbitals N..2N-1) the generated lists hold one
    representative of every spin-conserving element, up to conjugation, nothing else and nothing twice. *)
Theorem C30_enumeration_default_layout_partial :
  forall (p N : nat) (real imag : bool), 1 <= p <= 3 ->
  (real = true \/ imag = false -> one_of_each p N (rdm_elements p real imag (seq 0 N) (seq N N)))
  /\ (real = false -> imag = true -> one_of_each_offdiag p N (rdm_elements p real imag (seq 0 N) (seq N N))).
Proof. exact enumeration. Qed.
Print Assumptions C30_enumeration_default_layout_partial.

(** In any layout the 1- and 2-body lists miss nothing. *)
Theorem C30_1body_any_layout_partial :
  forall (real imag : bool) (alp bet : list nat) (i j : nat), real = true \/ imag = false ->
  (In i alp /\ In j alp) \/ (In i bet /\ In j bet) ->
  In [i; j] (rdm1_elements real imag alp bet) \/ In [j; i] (rdm1_elements real imag alp bet).
Proof. exact rdm1_any_layout. Qed.
Print Assumptions C30_1body_any_layout_partial.

Theorem C30_2body_any_layout_partial :
  forall (real imag : bool) (alp bet : list nat) (i k j l : nat), real = true \/ imag = false ->
  (i < k /\ j < l /\ incl [i; k; j; l] alp) \/ (i < k /\ j < l /\ incl [i; k; j; l] bet)
  \/ (incl [i; j] alp /\ incl [k; l] bet) ->
  In (listed [i; k] [j; l]) (rdm2_elements real imag alp bet)
  \/ In (listed [j; l] [i; k]) (rdm2_elements real imag alp bet).
Proof. exact rdm2_any_layout. Qed.
Print Assumptions C30_2body_any_layout_partial.

(** In the alternating layout (alpha 0, 2, beta 1, 3) the 3-body list has no entry at all with creators 0, 1, 2,
    so the diagonal element of these orbitals is missed. *)
Theorem C30_alternating_layout_refuted :
  exists alp bet : list nat, NoDup (alp ++ bet) /\ In 0 alp /\ In 1 bet /\ In 2 alp /\
  forall x, In x (rdm3_elements true true alp bet) -> ~ Permutation [0; 1; 2] (firstn 3 x).
Proof.
  exists [0; 2], [1; 3]. split; [repeat constructor; simpl; intuition congruence|]. do 3 (split; [simpl; tauto|]).
  intros x Hx P.
  assert (F : forallb (fun x => negb (forallb (fun y => existsb (Nat.eqb y) (firstn 3 x)) [0; 1; 2]))
    (rdm3_elements true true [0; 2] [1; 3]) = true) by (vm_compute; reflexivity).
  rewrite forallb_forall in F. specialize (F x Hx). apply negb_true_iff in F.
  assert (G : forallb (fun y => existsb (Nat.eqb y) (firstn 3 x)) [0; 1; 2] = true); [|congruence].
  apply forallb_forall. intros y Hy. apply existsb_exists. exists y. split; [apply (Permutation_in y P Hy)|apply Nat.eqb_refl].
Qed.
Print Assumptions C30_alternating_layout_refuted.

(** In a custom layout an element and its conjugate can both be listed. *)
Theorem C30_custom_layout_refuted :
  exists alp bet : list nat, length alp = length bet /\ NoDup (alp ++ bet) /\ exists c a, c <> a /\
  In (listed c a) (rdm2_elements true true alp bet) /\ In (listed a c) (rdm2_elements true true alp bet).
Proof.
  exists [0; 1; 3], [2; 4; 5]. split; [reflexivity|]. split; [repeat constructor; simpl; intuition congruence|].
  exists [0; 5], [1; 2]. split; [discriminate|]. split; vm_compute; tauto.
Qed.
Print Assumptions C30_custom_layout_refuted.

(** Two alpha and two beta orbitals: 16+2 elements for the 2-body matrix, i.e. 12 representatives. *)
Example C30_case :
  rdm_elements 1 true true (seq 0 2) (seq 2 2) = [[0; 0]; [0; 1]; [1; 1]; [2; 2]; [2; 3]; [3; 3]]
  /\ length (rdm_elements 2 true true (seq 0 2) (seq 2 2)) = 12
  /\ length (rdm_elements 3 true true (seq 0 3) (seq 3 3)) = 92
  /\ element 2 2 [0; 3] [1; 2] /\ In (listed [0; 3] [1; 2]) (rdm_elements 2 true true (seq 0 2) (seq 2 2)).
Proof.
  do 3 (split; [vm_compute; reflexivity|]). split; [|vm_compute; tauto].
  unfold element. repeat (split; [repeat constructor; lia|]). reflexivity.
Qed.

(** C31. The 4-body list misses every element with three alpha creators and one beta creator, and no entry of the
    list has its creators in ascending order. *)
Theorem C31_4body_refuted :
  exists (N : nat) (c a : list nat), element 4 N c a /\
  forall real imag x, In x (rdm4_elements real imag (seq 0 N) (seq N N)) ->
    ~ Permutation (firstn 4 x) c /\ ~ Permutation (firstn 4 x) a.
Proof.
  exists 3, [0; 1; 2; 3], [0; 1; 2; 4]. split.
  - unfold element. repeat (split; [repeat constructor; lia|]). reflexivity.
  - intros real imag x Hx. pose proof (rdm4_no_uuud 3 real imag x Hx) as H.
    split; intro P; apply H; rewrite (perm_up_count 3 _ _ P); reflexivity.
Qed.
Print Assumptions C31_4body_refuted.

Theorem C31_4body_no_three_alpha :
  forall (N : nat) (real imag : bool) (x : list nat),
  In x (rdm4_elements real imag (seq 0 N) (seq N N)) -> up_count N (firstn 4 x) <> 3.
Proof. exact rdm4_no_uuud. Qed.
Print Assumptions C31_4body_no_three_alpha.

Theorem C31_4body_never_ascending :
  forall (N : nat) (real imag : bool) (c a : list nat), element 4 N c a ->
  ~ In (listed c a) (rdm4_elements real imag (seq 0 N) (seq N N)).
Proof. exact rdm4_never_ascending. Qed.
Print Assumptions C31_4body_never_ascending.

(** C32. The operator of an element has the real part of the element as its expectation value, i times the
    imaginary part, or their sum, in every state, unless the indices are ascending with one of them twice. *)
Theorem C32_rdme_operator :
  forall (K : CoefRing) (c a : list nat) (real imag : bool) (N : nat) (psi : bits -> K),
  length c = length a -> Forall (fun x => x < N) c -> Forall (fun x => x < N) a -> real || imag = true -> intact (listed c a) ->
  exists op, generate_rdme (listed c a) real imag N = Some op
    /\ expect N (fop_mat op) psi = part real imag (rdm_of N psi c a).
Proof. exact generate_rdme_spec. Qed.
Print Assumptions C32_rdme_operator.
(** On the others the call raises: the first string shortens the list of indices of its caller. *)
Theorem C32_ascending_raises : forall (K : CoefRing) (ind : list nat) (real imag : bool) (N : nat), Sorted le ind -> ~ NoDup ind -> @generate_rdme K ind real imag N = None.
Proof. exact generate_rdme_raises. Qed.
Print Assumptions C32_ascending_raises.
(** Every element of a 2- or 3-RDM, and every element off the diagonal of a 1-RDM, is of the first kind; the diagonal of the
    1-RDM is not. *)
Theorem C32_elements : forall p N c a, element p N c a -> 2 <= p \/ (p = 1 /\ c <> a) -> intact (listed c a).
Proof. intros p N c a H P. apply shortens_spec. exact (element_intact p N c a H P). Qed.
Print Assumptions C32_elements.
Theorem C32_diagonal_refuted : exists c a N, element 1 N c a /\ forall (K : CoefRing) real imag, @generate_rdme K (listed c a) real imag (2 * N) = None.
Proof.
  exists [0], [0], 1. split; [repeat split; repeat constructor|]. intros K real imag. apply C32_ascending_raises; [repeat constructor|].
  intro H. inversion H as [|? ? X]. apply X. left. reflexivity.
Qed.
Print Assumptions C32_diagonal_refuted.

(** RDM elements are Hermitian and antisymmetric in every state. *)
Theorem C32_rdm_hermitian :
  forall (K : CoefRing) (R : nat) (psi : bits -> K) (c a : list nat), rdm_of R psi a c = cconj (rdm_of R psi c a).
Proof. exact rdm_herm. Qed.
Print Assumptions C32_rdm_hermitian.

(** (|10> + i|01>)/sqrt 2: the element a+_0 a_1 is i/2. *)
Definition psi32 : bits -> GaussR := fun x =>
  if bits_eqb x [true; false] then rrt else if bits_eqb x [false; true] then cmul ci rrt else c0.
Example C32_case :
  rdm_of 2 psi32 [0] [1] = cmul ci chalf /\ part true false (rdm_of 2 psi32 [0] [1]) = c0
  /\ part false true (rdm_of 2 psi32 [0] [1]) = cmul ci chalf.
Proof. repeat split; apply (ceqb_spec GaussR); vm_compute; reflexivity. Qed.

(** C33. Every permutation exactly once, for lists of any length; signs right up to three. *)
Theorem C33_all_permutations_once :
  forall (A : Type) (l q : list A), l <> [] -> (In q (map fst (unordered_permute l)) <-> Permutation l q).
Proof. exact @unordered_permute_perm. Qed.
Print Assumptions C33_all_permutations_once.

Theorem C33_no_repetition :
  forall (A : Type) (l : list A), NoDup l -> NoDup (map fst (unordered_permute l)).
Proof. exact @unordered_permute_NoDup. Qed.
Print Assumptions C33_no_repetition.

Theorem C33_signs_up_to_three_partial :
  forall (l q : list nat) (s : bool), length l <= 3 -> NoDup l -> In (q, s) (unordered_permute l) -> s = perm_sign l q.
Proof. exact unordered_permute_sign. Qed.
Print Assumptions C33_signs_up_to_three_partial.

Theorem C33_signs_refuted :
  exists (l q : list nat) (s : bool), NoDup l /\ In (q, s) (unordered_permute l) /\ s <> perm_sign l q.
Proof.
  exists [0; 1; 2; 3], [0; 3; 1; 2], true. split; [repeat constructor; simpl; intuition congruence|].
  split; [vm_compute; tauto|]. vm_compute. discriminate.
Qed.
Print Assumptions C33_signs_refuted.

Example C33_case :
  unordered_permute [4; 2; 7] = [([4; 2; 7], false); ([4; 7; 2], true); ([2; 4; 7], true); ([2; 7; 4], false); ([7; 4; 2], false); ([7; 2; 4], true)].
Proof. reflexivity. Qed.

(** C34. The ascending tuples of the choices, each once. *)
Theorem C34_ascending_tuples :
  forall (d : nat) (ch t : list nat), In t (permute d ch) <-> StronglySorted lt t /\ length t = d /\ incl t ch.
Proof. exact permute_spec. Qed.
Print Assumptions C34_ascending_tuples.

Theorem C34_each_once : forall (d : nat) (ch : list nat), NoDup ch -> NoDup (permute d ch).
Proof. exact permute_NoDup. Qed.
Print Assumptions C34_each_once.

Example C34_case : permute 2 [3; 0; 5] = [[3; 5]; [0; 3]; [0; 5]].
Proof. reflexivity. Qed.

(** C35. The Hartree-Fock p-RDM is the p-RDM of the determinant, for p = 1, 2, 3. *)
Theorem C35_hf_is_the_determinant :
  forall (K : CoefRing) (p na nb : nat) (alp bet : list nat) (R : nat) (c a : list nat), 1 <= p <= 3 ->
  (forall z, In z (firstn na alp ++ firstn nb bet) -> z < R) -> length c = p -> length a = p ->
  build_hf p na nb alp bet (c ++ a) = rdm_of R (@basis_vec K (det_state R (firstn na alp ++ firstn nb bet))) c a.
Proof. exact hf_is_determinant. Qed.
Print Assumptions C35_hf_is_the_determinant.

Theorem C35_hf_antisymmetric :
  forall (K : CoefRing) (p na nb : nat) (alp bet l : list nat) (x y : nat) (l' a : list nat), 1 <= p <= 3 ->
  length (l ++ x :: y :: l') = p -> length a = p ->
  build_hf p na nb alp bet ((l ++ x :: y :: l') ++ a) = copp (@build_hf K p na nb alp bet ((l ++ y :: x :: l') ++ a))
  /\ build_hf p na nb alp bet (a ++ l ++ x :: y :: l') = copp (@build_hf K p na nb alp bet (a ++ l ++ y :: x :: l')).
Proof. exact hf_antisym. Qed.
Print Assumptions C35_hf_antisymmetric.

(** The trace is Ne!/(Ne-p)!. *)
Theorem C35_hf_trace :
  forall (K : CoefRing) (p na nb : nat) (alp bet : list nat) (R : nat), 1 <= p <= 3 ->
  NoDup (firstn na alp ++ firstn nb bet) -> (forall z, In z (firstn na alp ++ firstn nb bet) -> z < R) ->
  p <= length (firstn na alp ++ firstn nb bet) ->
  cmul (ofnat (fact (length (firstn na alp ++ firstn nb bet) - p)))
       (sumK (map (fun l => build_hf p na nb alp bet (l ++ l)) (tuples R p)))
  = @ofnat K (fact (length (firstn na alp ++ firstn nb bet))).
Proof. exact hf_trace_sum. Qed.
Print Assumptions C35_hf_trace.

(** At p = 4 the signs of [unordered_permute] make the array wrong. *)
Theorem C35_hf_4body_refuted :
  exists (na nb : nat) (alp bet : list nat) (R : nat) (c a : list nat),
  (forall z, In z (firstn na alp ++ firstn nb bet) -> z < R) /\ length c = 4 /\ length a = 4 /\
  @build_hf GaussQ 4 na nb alp bet (c ++ a) <> rdm_of R (basis_vec (det_state R (firstn na alp ++ firstn nb bet))) c a.
Proof.
  exists 2, 2, [0; 1], [2; 3], 4, [0; 1; 2; 3], [0; 3; 1; 2]. split; [simpl; lia|]. do 2 (split; [reflexivity|]).
  intro H. apply (f_equal (fun x => ceqb x c1)) in H. vm_compute in H. discriminate.
Qed.
Print Assumptions C35_hf_4body_refuted.

Example C35_case :
  @build_hf GaussQ 2 2 1 [0; 1; 2] [3; 4; 5] ([3; 0] ++ [0; 3]) = gz (-1)
  /\ @build_hf GaussQ 2 2 1 [0; 1; 2] [3; 4; 5] ([0; 1] ++ [0; 3]) = gz 0.
Proof. split; apply (ceqb_spec GaussQ); vm_compute; reflexivity. Qed.

(** C36. For an array that is the p-RDM of a state with Ne particles, p = 2, 3, the reduced array is its
    (p-1)-RDM; [w] is the factor 1/(Ne-p+1). *)
Theorem C36_reduce_order :
  forall (K : CoefRing) (p R Ne : nat) (w : K) (t : tensor K) (psi : bits -> K), p = 2 \/ p = 3 -> p <= Ne ->
  has_particles R Ne psi -> cmul (ofnat (Ne - p + 1)) w = c1 ->
  (forall c a, length c = p -> length a = p -> t (c ++ a) = rdm_of R psi c a) ->
  forall c a, length c = p - 1 -> length a = p - 1 -> reduce_order p R w t (c ++ a) = rdm_of R psi c a.
Proof. exact reduce_order_spec. Qed.
Print Assumptions C36_reduce_order.

(** For every array it is the contraction of the last index pair. *)
Theorem C36_reduce_order_contracts :
  forall (K : CoefRing) (p R : nat) (w : K) (t : tensor K) (c a : list nat), p = 2 \/ p = 3 ->
  length c = p - 1 -> length a = p - 1 ->
  reduce_order p R w t (c ++ a) = cmul w (sumK (map (fun x => t ((c ++ [x]) ++ (a ++ [x]))) (seq 0 R))).
Proof. exact reduce_order_contract. Qed.
Print Assumptions C36_reduce_order_contracts.

Theorem C36_reduce_antisymmetric :
  forall (K : CoefRing) (p R : nat) (w : K) (t : tensor K), p = 2 \/ p = 3 ->
  (forall l x y l' a, length (l ++ x :: y :: l') = p -> length a = p ->
     t ((l ++ x :: y :: l') ++ a) = copp (t ((l ++ y :: x :: l') ++ a))
     /\ t (a ++ l ++ x :: y :: l') = copp (t (a ++ l ++ y :: x :: l'))) ->
  forall l x y l' a, length (l ++ x :: y :: l') = p - 1 -> length a = p - 1 ->
     reduce_order p R w t ((l ++ x :: y :: l') ++ a) = copp (reduce_order p R w t ((l ++ y :: x :: l') ++ a))
     /\ reduce_order p R w t (a ++ l ++ x :: y :: l') = copp (reduce_order p R w t (a ++ l ++ y :: x :: l')).
Proof. exact reduce_antisym. Qed.
Print Assumptions C36_reduce_antisymmetric.

Theorem C36_reduce_hermitian :
  forall (K : CoefRing) (p R : nat) (w : K) (t : tensor K), p = 2 \/ p = 3 -> cconj w = w ->
  (forall c a, length c = p -> length a = p -> t (a ++ c) = cconj (t (c ++ a))) ->
  forall c a, length c = p - 1 -> length a = p - 1 ->
  reduce_order p R w t (a ++ c) = cconj (reduce_order p R w t (c ++ a)).
Proof. exact reduce_hermitian. Qed.
Print Assumptions C36_reduce_hermitian.

Theorem C36_reduce_hf :
  forall (K : CoefRing) (p na nb : nat) (alp bet : list nat) (R : nat) (w : K), p = 2 \/ p = 3 ->
  NoDup (firstn na alp ++ firstn nb bet) -> (forall z, In z (firstn na alp ++ firstn nb bet) -> z < R) ->
  p <= length (firstn na alp ++ firstn nb bet) ->
  cmul (ofnat (length (firstn na alp ++ firstn nb bet) - p + 1)) w = c1 ->
  forall c a, length c = p - 1 -> length a = p - 1 ->
  reduce_order p R w (build_hf p na nb alp bet) (c ++ a) = build_hf (p - 1) na nb alp bet (c ++ a).
Proof. exact reduce_hf. Qed.
Print Assumptions C36_reduce_hf.

(** A 4-RDM is reduced to the zero array. *)
Theorem C36_reduce_4body_refuted :
  exists (na nb : nat) (alp bet : list nat) (R : nat) (w : GaussQ),
  (forall z, In z (firstn na alp ++ firstn nb bet) -> z < R) /\ length (firstn na alp ++ firstn nb bet) = 4
  /\ cmul (ofnat (4 - 4 + 1)) w = c1
  /\ (forall ind, reduce_order 4 R w (build_hf 4 na nb alp bet) ind = c0)
  /\ exists c a, length c = 3 /\ length a = 3 /\ @build_hf GaussQ 3 na nb alp bet (c ++ a) <> c0.
Proof.
  exists 2, 2, [0; 1], [2; 3], 4, (gz 1). split; [simpl; lia|]. split; [reflexivity|].
  split; [apply (ceqb_spec GaussQ); vm_compute; reflexivity|]. split; [reflexivity|].
  exists [0; 1; 2], [0; 1; 2]. do 2 (split; [reflexivity|]).
  intro H. apply (f_equal (fun x => ceqb x c0)) in H. vm_compute in H. discriminate.
Qed.
Print Assumptions C36_reduce_4body_refuted.

Example C36_case :
  reduce_order 2 6 (gq 1 2) (build_hf 2 2 1 [0; 1; 2] [3; 4; 5]) [1; 1] = gq 1 1
  /\ cmul (ofnat (3 - 2 + 1)) (gq 1 2) = @c1 GaussQ.
Proof. split; apply (ceqb_spec GaussQ); vm_compute; reflexivity. Qed.

(** C37. The product of a 1-RDM with itself (used for the cumulant) is the antisymmetrised product;
    [w] is the normalisation (1/(2!2!)) (2!/(1!1!)) = 1/2 of the code. *)
Theorem C37_wedge_square_partial :
  forall (K : CoefRing) (r : nat) (w : K) (A : tensor K) (i k j l : nat), i < r -> k < r -> j < r -> l < r ->
  cmul w (cadd c1 c1) = c1 ->
  wedge r 1 1 w A A [i; k; j; l] = csub (cmul (A [i; j]) (A [k; l])) (cmul (A [i; l]) (A [k; j])).
Proof. exact wedge_square. Qed.
Print Assumptions C37_wedge_square_partial.

(** In general it is right when every ascending index list with a non-zero product splits into one on which the
    first factor has a non-zero entry and one on which the second has; for total order at most three. *)
Theorem C37_wedge_covered_partial :
  forall (K : CoefRing) (r p q : nat) (w : K) (A B : tensor K) (c a : list nat), 1 <= p -> p + q <= 3 ->
  alternating p A -> alternating q B -> covers K r p q w A B ->
  length c = p + q -> length a = p + q -> Forall (fun x => x < r) c -> Forall (fun x => x < r) a ->
  wedge r p q w A B (c ++ a) = wedge_of r p q w A B c a.
Proof. exact wedge_spec. Qed.
Print Assumptions C37_wedge_covered_partial.

(** Otherwise the product is not the antisymmetrised product and does not commute. *)
Definition unit_at (i : nat) : tensor GaussQ := fun ind => if ind_eqb ind [i; i] then c1 else c0.
Theorem C37_wedge_refuted :
  exists (r : nat) (w : GaussQ) (A B : tensor GaussQ) (c a : list nat),
  alternating 1 A /\ alternating 1 B /\ Forall (fun x => x < r) c /\ Forall (fun x => x < r) a
  /\ wedge r 1 1 w A B (c ++ a) <> wedge_of r 1 1 w A B c a
  /\ wedge r 1 1 w A B (c ++ a) <> wedge r 1 1 w B A (c ++ a).
Proof.
  exists 2, chalf, (unit_at 1), (unit_at 0), [0; 1], [0; 1]. split; [apply alternating1|]. split; [apply alternating1|].
  do 2 (split; [repeat constructor; lia|]).
  split; intro H; apply (f_equal (fun x => ceqb x c0)) in H; vm_compute in H; discriminate.
Qed.
Print Assumptions C37_wedge_refuted.

Example C37_case :
  wedge 3 1 1 (gq 1 2) (build_hf 1 2 0 [0; 2] []) (build_hf 1 2 0 [0; 2] []) [2; 0; 0; 2] = gq (-1) 1
  /\ cmul (gq 1 2) (cadd c1 c1) = @c1 GaussQ.
Proof. split; apply (ceqb_spec GaussQ); vm_compute; reflexivity. Qed.

(** C59. From the values measured for the generated elements the construction rebuilds every element of the
    RDM (its selected part), for every state with a definite number of alpha particles. *)
Theorem C59_rdm_reconstruction :
  forall (K : CoefRing) (p N nu : nat) (psi : bits -> K) (real imag : bool) (value : list nat -> K),
  1 <= p <= 3 -> real || imag = true -> has_up (2 * N) N nu psi ->
  (forall r, In r (rdm_elements p real imag (seq 0 N) (seq N N)) ->
     exists op, generate_rdme r real imag (2 * N) = Some op /\ value r = expect (2 * N) (fop_mat op) psi) ->
  forall c a, length c = p -> length a = p -> Forall (fun x => x < 2 * N) c -> Forall (fun x => x < 2 * N) a ->
  build_rdm p (rdm_elements p real imag (seq 0 N) (seq N N)) value (c ++ a) = part real imag (rdm_of (2 * N) psi c a).
Proof. exact reconstruction. Qed.
Print Assumptions C59_rdm_reconstruction.

(** (|1010> - |0101>)/sqrt 2 has one alpha particle; its element a+_0 a+_2 a_3 a_1 is -1/2. *)
Definition psi59 : bits -> GaussR := fun x =>
  if bits_eqb x [true; false; true; false] then rrt
  else if bits_eqb x [false; true; false; true] then copp rrt else c0.
Definition value59 (r : list nat) : GaussR :=
  match generate_rdme r true true 4 with Some op => expect 4 (fop_mat op) psi59 | None => c0 end.
Example C59_case :
  has_up 4 2 1 psi59
  /\ (forall r, In r (rdm_elements 2 true true (seq 0 2) (seq 2 2)) ->
       exists op, generate_rdme r true true 4 = Some op /\ value59 r = expect 4 (fop_mat op) psi59)
  /\ rdm_of 4 psi59 [0; 2] [1; 3] = copp chalf.
Proof.
  split; [|split].
  - intros x L H. unfold psi59. destruct (bits_eqb x [true; false; true; false]) eqn:E1.
    + apply bits_eqb_spec in E1. subst x. exfalso. apply H. reflexivity.
    + destruct (bits_eqb x [false; true; false; true]) eqn:E2; [|reflexivity].
      apply bits_eqb_spec in E2. subst x. exfalso. apply H. reflexivity.
  - intros r Hr. unfold value59. destruct (enumeration 2 2 true true) as [E _]; [lia|].
    destruct (E (or_introl eq_refl)) as [_ [E2 _]]. destruct (E2 r Hr) as [c [a [El ->]]]. pose proof El as [_ [_ [L1 [L2 [F1 [F2 _]]]]]].
    destruct (generate_rdme_spec GaussR c a true true 4 psi59) as [op [G _]]; [congruence|assumption|assumption|reflexivity|apply (C32_elements 2 2 c a El); left; lia|].
    rewrite G. exists op. auto.
  - apply (ceqb_spec GaussR); vm_compute; reflexivity.
Qed.
