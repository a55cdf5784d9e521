(** C158: the circuit of an ansatz in closed form.  Complex numbers; the cutoffs are those of the code. *)
From Coq Require Import Bool List Arith Reals Lra Lia.
From Verif Require Import Coeff ComplexR MatSpec MatLemmas OpSpec FockSpec CircuitSpec CircuitModel QuantSpec PauliModel RdmSpec VqeModel VqeSpec
  StoreModel PlanModel PlanSpec ConsSpec ConsModel AdCircModel ConsProofs RotSpec RotProofs RotProofs2.
From Verif Require RdmProofs RdmEnum.
Import ListNotations.
Local Open Scope nat_scope.

(** C158.  For every list of excitations of any rank (indices may coincide, unless the list is ascending), real parameters that
    are skipped, zero or above the cutoff, and every depth: the circuit is exactly the product of the rotations 1 + sin(x) G + (1 - cos(x)) G^2, one for
    each excitation and in their order, where G is the anti-Hermitian generator and x the parameter over the depth. *)
Theorem C158_ansatz : forall depth N (skip : Cx -> bool) (l : list (list nat * Cx)), 0 < depth -> usable N (filter (fun e => negb (skip (snd e))) l) ->
  exists psi gs, assign skip N l = Some psi /\ ansatz_gates depth psi = Some gs /\ (forall g, In g gs -> valid N g) /\
    meq N (cmat Crt N gs) (rotations N depth (filter (fun e => negb (skip (snd e))) l)).
Proof. intros depth N skip l D U. rewrite assign_filter. exact (ansatz_rotations depth N _ D (usable_small N _ U)). Qed.
Print Assumptions C158_ansatz.
(** The rotations form a group with that generator: exponentials. *)
Theorem C158_group : forall N m t, length t = 2 * m -> (forall i, In i t -> i < N) ->
  let G := generator m t (c1 : Cx) in
  meq N (mmul N G (mmul N G G)) (mscal (copp c1) G) /\ meq N (rotation N G 0) mone /\
  (forall x y, meq N (rotation N G (x + y)) (mmul N (rotation N G x) (rotation N G y))) /\
  (forall r c, length r = N -> length c = N -> derivable_pt_lim (fun x => fst (rotation N G x r c)) 0 (fst (G r c)) /\ derivable_pt_lim (fun x => snd (rotation N G x r c)) 0 (snd (G r c))).
Proof. exact rotation_group. Qed.
Print Assumptions C158_group.
(** The states prepared by the two solvers, up to a power of i. *)
Theorem C158_adapt : forall depth No a b (terms : list (list nat)) (ps : list Cx), 0 < depth -> a <= No -> b <= No -> (forall t, In t terms -> length t = 4) -> usable (2 * No) (combine terms ps) ->
  exists prep z, ad_circuit depth No a b terms ps = Some prep /\
    forall x, length x = 2 * No -> prepared Crt (2 * No) prep x = cmul (rotations (2 * No) depth (combine terms ps) x (reference_bits No a b)) (ipow z).
Proof. intros depth No a b L ps D A B H4 U. exact (adapt_rotations depth No a b L ps D A B (usable_small _ _ U) H4). Qed.
Print Assumptions C158_adapt.
Theorem C158_vqe : forall depth s d tr q No a b (ps : list Cx), 0 < depth -> a <= No -> b <= No -> negb s && (tr || q) = false -> (forall p, In p ps -> snd p = 0%R) ->
  exists L prep z, ucc s d tr q (seq 0 No) (seq No No) (seq 0 a ++ seq No b) = Some L /\ vqe_circuit depth s d tr q No a b ps = Some prep /\
    forall x, length x = 2 * No -> prepared Crt (2 * No) prep x
      = cmul (rotations (2 * No) depth (filter (fun e => negb (below10 (snd e))) (combine L ps)) x (reference_bits No a b)) (ipow z).
Proof. exact vqe_rotations. Qed.
Print Assumptions C158_vqe.
(** Each parameter has the period 2 pi times the depth. *)
Theorem C158_period : forall depth N t (p : Cx) l1 l2, 0 < depth -> (forall e, In e (l1 ++ (t, p) :: l2) -> length (fst e) = 4) -> usable N (l1 ++ (t, p) :: l2) -> usable N (l1 ++ (t, ((fst p + 2 * Rtrigo1.PI * INR depth, 0)%R : Cx)) :: l2) ->
  exists psi psi' gs gs', assign_variables N (l1 ++ (t, p) :: l2) = Some psi /\ assign_variables N (l1 ++ (t, ((fst p + 2 * Rtrigo1.PI * INR depth, 0)%R : Cx)) :: l2) = Some psi' /\
    ansatz_gates depth psi = Some gs /\ ansatz_gates depth psi' = Some gs' /\ meq N (cmat Crt N gs) (cmat Crt N gs').
Proof.
  intros depth N t p l1 l2 D H4 U U'. destruct (ansatz_rotations depth N _ D (usable_small N _ U)) as [psi [gs [E [G [_ M]]]]].
  destruct (ansatz_rotations depth N _ D (usable_small N _ U')) as [psi' [gs' [E' [G' [_ M']]]]].
  rewrite <- (four_indices N _ H4) in E. rewrite <- (four_indices N) in E' by (intros e I; apply in_app_iff in I; destruct I as [I|[<-|I]]; [apply H4; apply in_app_iff; left; exact I|exact (H4 (t, p) (in_elt _ _ _))|apply H4; apply in_app_iff; right; right; exact I]).
  exists psi, psi', gs, gs'. repeat (split; [assumption|]). intros r c Lr Lc. rewrite (M r c Lr Lc), (M' r c Lr Lc), (rotations_period N depth t p l1 l2 D). reflexivity.
Qed.
Print Assumptions C158_period.

(** The hypotheses: H2 in two orbitals with a single and a double excitation, one parameter zero; the double excitation
    rotates the reference into the other closed-shell determinant by the sine of its parameter. *)
Lemma c158_two : meq 4 (rotations 4 1 (combine [[0; 1]; [0; 2; 3; 1]] [(0%R, 0%R); ((1 / 2)%R, 0%R)])) (rotation 4 (generator 2 [0; 2; 3; 1] c1) (1 / 2)).
Proof.
  cbn [combine rotations fst Nat.div2 length INR]. replace (1 / 2 / 1)%R with (1 / 2)%R by field. replace (0 / 1)%R with 0%R by field. apply un.
  transitivity (mmul 4 (mmul 4 mone (rotation 4 (generator 2 [0; 2; 3; 1] c1) (1 / 2))) mone).
  - apply mmul_proper; [reflexivity|]. constructor. exact (proj1 (proj2 (C158_group 4 1 [0; 1] eq_refl ltac:(intros i [<-|[<-|[]]]; lia)))).
  - rewrite (mul1r 4), (mul1l 4). reflexivity.
Qed.
Example C158_case : usable 4 (combine [[0; 1]; [0; 2; 3; 1]] [(0%R, 0%R); ((1 / 2)%R, 0%R)]) /\ reference_bits 2 1 1 = [true; false; true; false] /\
  rotations 4 1 (combine [[0; 1]; [0; 2; 3; 1]] [(0%R, 0%R); ((1 / 2)%R, 0%R)]) [true; false; true; false] [true; false; true; false] = ((cos (1 / 2), 0)%R : Cx) /\
  rotations 4 1 (combine [[0; 1]; [0; 2; 3; 1]] [(0%R, 0%R); ((1 / 2)%R, 0%R)]) [false; true; false; true] [true; false; true; false] = ((- sin (1 / 2), 0)%R : Cx).
Proof.
  split; [|split; [reflexivity|]].
  - intros t p [I|[I|[]]]; injection I as <- <-; (split; [reflexivity|]); (split; [intros i H; cbn in H; lia|]); (split; [apply RdmProofs.shortens_spec; reflexivity|]); (split; [reflexivity|]); [left; reflexivity|right].
    cbn [fst length]. rewrite Rabs_right by lra. lra.
  - rewrite !c158_two by reflexivity. split; apply C_eq; cbn; ring.
Qed.
