(** C159, C160: the energy as a function of the parameters of an ansatz, the numerical gradients of the variational
    solvers, and the excitation chosen by the adaptive solver.  Complex numbers; the cutoffs are those of the code. *)
From Coq Require Import Bool List Arith QArith Reals Lra Lia.
From Verif Require Import Coeff ComplexR MatSpec MatLemmas OpSpec FockSpec CircuitSpec CircuitModel QuantSpec PauliModel RdmModel RdmSpec HamModel HamSpec TransformModel
  VqeModel VqeSpec StoreModel PlanModel PlanSpec PlanProofs4 ConsSpec ConsModel AdaptModel AdCircModel AdCircSpec RotSpec TrigSpec TrigProofs GradModel TrigProofs2 TrigProofs3 PlanProofs6 Prop_Plan Prop_AdCirc.
From Verif Require RdmProofs RdmEnum.
Import ListNotations.
Local Open Scope nat_scope.
Local Open Scope R_scope.

(** C159.  The energy evaluated from the tomography of the circuit of the adaptive solver is the expectation value of the
    Hamiltonian in the state of the rotations, plus the constant energy. *)
Theorem C159_adapt_energy : forall depth No a b tiny simp imag w h V en_c (terms : list (list nat)) (x : list R) prep t,
  (0 < depth)%nat -> (a <= No)%nat -> (b <= No)%nat -> (forall z : Cx, tiny z = true -> z = c0) -> sized simp -> real_data (a + b) w h V ->
  (forall k, In k terms -> ansatz_term No k) -> usable (2 * No) (combine terms (reals x)) ->
  ad_circuit depth No a b terms (reals x) = Some prep -> tomography Crt tiny jw_operator simp 2 true imag No prep = Some t ->
  fst (evaluate (2 * No) (build_K2 (2 * No) w h V) en_c t) = ansatz_energy (2 * No) depth (ham (2 * No) h V) (reference_bits No a b) (combine terms (reals x)) + fst en_c.
Proof.
  intros depth No a b tiny simp imag w h V en_c terms x prep t D HA HB Ht Sz [Hw [Iw [Ih [Sh [IV [S1 S2]]]]]].
  exact (adapt_energy depth No a b tiny simp imag w h V en_c D HA HB Ht Sz Hw Iw Ih Sh IV S1 S2 terms x prep t).
Qed.
Print Assumptions C159_adapt_energy.
(** The same for the coupled cluster solver, for parameters that are zero or not below its cutoff. *)
Theorem C159_vqe_energy : forall depth No a b tiny simp imag w h V en_c s d tr q (x : list R) L prep t,
  (0 < depth)%nat -> (a <= No)%nat -> (b <= No)%nat -> (forall z : Cx, tiny z = true -> z = c0) -> sized simp -> real_data (a + b) w h V ->
  ucc s d tr q (seq 0 No) (seq No No) (seq 0 a ++ seq No b) = Some L -> (forall y, In y x -> y = 0 \/ / 10 ^ 10 <= Rabs y) ->
  vqe_circuit depth s d tr q No a b (reals x) = Some prep -> tomography Crt tiny jw_operator simp 2 true imag No prep = Some t ->
  fst (evaluate (2 * No) (build_K2 (2 * No) w h V) en_c t) = ansatz_energy (2 * No) depth (ham (2 * No) h V) (reference_bits No a b) (combine L (reals x)) + fst en_c.
Proof.
  intros depth No a b tiny simp imag w h V en_c s d tr q x L prep t D HA HB Ht Sz [Hw [Iw [Ih [Sh [IV [S1 S2]]]]]].
  exact (vqe_energy depth No a b tiny simp imag w h V en_c D HA HB Ht Sz Hw Iw Ih Sh IV S1 S2 s d tr q x L prep t).
Qed.
Print Assumptions C159_vqe_energy.
(** As a function of any one parameter, the others fixed, that energy is a trigonometric polynomial of degree two in the
    parameter over the depth, whatever the excitation and the operator. *)
Theorem C159_trig : forall N depth (H : mat Cx) ref l1 t l2, length ref = N ->
  exists a, forall p, ansatz_energy N depth H ref (l1 ++ (t, ((p, 0) : Cx)) :: l2) = trig2 a (p / INR depth).
Proof. exact energy_trig. Qed.
Print Assumptions C159_trig.
(** The numerical gradients over those energies: every entry is within C * diff (forward) or C * diff^2 (central) of the
    partial derivative, with C independent of diff; [E] is the energy of a successful evaluation. *)
Theorem C159_adapt_gradient : forall depth No a b tiny simp imag w h V en_c,
  (0 < depth)%nat -> (a <= No)%nat -> (b <= No)%nat -> (forall z : Cx, tiny z = true -> z = c0) -> proper simp -> real_data (a + b) w h V ->
  forall (terms : list (list nat)) (E : list R -> R) x i,
  (forall k, In k terms -> ansatz_term No k) -> length terms = length x -> (i < length x)%nat ->
  (forall y prep t, ad_circuit depth No a b terms (reals y) = Some prep -> tomography Crt tiny jw_operator simp 2 true imag No prep = Some t ->
     E y = fst (evaluate (2 * No) (build_K2 (2 * No) w h V) en_c t)) ->
  exists d C, derivable_pt_lim (fun y => ansatz_energy (2 * No) depth (ham (2 * No) h V) (reference_bits No a b) (combine terms (reals (put i y x)))) (nth i x 0) d /\
    forall diff, 0 < diff ->
      (usable (2 * No) (combine terms (reals x)) -> usable (2 * No) (combine terms (reals (put i (nth i x 0 + diff) x))) ->
       Rabs (nth i (real_gradient E true diff x) 0 - d) <= C * diff) /\
      (usable (2 * No) (combine terms (reals (put i (nth i x 0 + diff) x))) -> usable (2 * No) (combine terms (reals (put i (nth i x 0 - diff) x))) ->
       Rabs (nth i (real_gradient E false diff x) 0 - d) <= C * (diff * diff)).
Proof. exact adapt_gradient. Qed.
Print Assumptions C159_adapt_gradient.
Theorem C159_vqe_gradient : forall depth No a b tiny simp imag w h V en_c,
  (0 < depth)%nat -> (a <= No)%nat -> (b <= No)%nat -> (forall z : Cx, tiny z = true -> z = c0) -> proper simp -> real_data (a + b) w h V ->
  forall s d tr q (L : list (list nat)) (E : list R -> R) x i, ucc s d tr q (seq 0 No) (seq No No) (seq 0 a ++ seq No b) = Some L ->
  length L = length x -> (i < length x)%nat ->
  (forall y prep t, vqe_circuit depth s d tr q No a b (reals y) = Some prep -> tomography Crt tiny jw_operator simp 2 true imag No prep = Some t ->
     E y = fst (evaluate (2 * No) (build_K2 (2 * No) w h V) en_c t)) ->
  let above (l : list R) := forall y, In y l -> y = 0 \/ / 10 ^ 10 <= Rabs y in
  exists d C, derivable_pt_lim (fun y => ansatz_energy (2 * No) depth (ham (2 * No) h V) (reference_bits No a b) (combine L (reals (put i y x)))) (nth i x 0) d /\
    forall diff, 0 < diff ->
      (above x -> above (put i (nth i x 0 + diff) x) -> Rabs (nth i (real_gradient E true diff x) 0 - d) <= C * diff) /\
      (above (put i (nth i x 0 + diff) x) -> above (put i (nth i x 0 - diff) x) -> Rabs (nth i (real_gradient E false diff x) 0 - d) <= C * (diff * diff)).
Proof. exact vqe_gradient. Qed.
Print Assumptions C159_vqe_gradient.

(** C160.  The derivative of the energy with respect to the parameter of a newly appended excitation T, at zero, is
    -2 Re <[T, H]> / depth in the current state: the residual of the contracted Schroedinger equation decides it. *)
Theorem C160_slope : forall N depth (H : mat Cx) ref l k, (0 < depth)%nat -> length ref = N -> meq N (madj H) H ->
  derivable_pt_lim (fun y => ansatz_energy N depth H ref (l ++ [(k, ((y, 0) : Cx))])) 0
    (- (2 * fst (expect N (comm N (excite (Nat.div2 (length k)) k) H) (ansatz_state N depth ref l))) / INR depth).
Proof. exact slope. Qed.
Print Assumptions C160_slope.
(** The adaptive solver appends, with parameter zero, an excitation of its pool with the steepest slope, provided the
    residuals it was given rank the excitations as the true ones do. *)
Theorem C160_steepest : forall N depth (H : mat Cx) ref keys r (s s' : adapt Cx), (0 < depth)%nat -> length ref = N -> meq N (madj H) H ->
  length (ad_terms s) = length (ad_para s) -> length (re_abs r) = length keys ->
  let l := combine (ad_terms s) (ad_para s) in
  let res k := fst (expect N (comm N (excite (Nat.div2 (length k)) k) H) (ansatz_state N depth ref l)) in
  (forall i j, (i < length keys)%nat -> (j < length keys)%nat -> (nth j (re_abs r) 0 <= nth i (re_abs r) 0)%Q -> Rabs (res (nth j keys [])) <= Rabs (res (nth i keys []))) ->
  ad_grow true keys r s = Some s' ->
  exists k d, In k keys /\ combine (ad_terms s') (ad_para s') = l ++ [(k, c0)] /\
    derivable_pt_lim (fun y => ansatz_energy N depth H ref (l ++ [(k, ((y, 0) : Cx))])) 0 d /\
    forall k' d', In k' keys -> derivable_pt_lim (fun y => ansatz_energy N depth H ref (l ++ [(k', ((y, 0) : Cx))])) 0 d' -> Rabs d' <= Rabs d.
Proof. exact steepest. Qed.
Print Assumptions C160_steepest.
(** If the residual of an excitation is not zero then small parameters of its sign lower the energy. *)
Theorem C160_descent : forall N depth (H : mat Cx) ref l k, (0 < depth)%nat -> length ref = N -> meq N (madj H) H ->
  fst (expect N (comm N (excite (Nat.div2 (length k)) k) H) (ansatz_state N depth ref l)) <> 0 ->
  exists e, 0 < e /\ forall y, Rabs y < e -> 0 < y * fst (expect N (comm N (excite (Nat.div2 (length k)) k) H) (ansatz_state N depth ref l)) ->
    ansatz_energy N depth H ref (l ++ [(k, ((y, 0) : Cx))]) < ansatz_energy N depth H ref l.
Proof. exact new_descent. Qed.
Print Assumptions C160_descent.
(** The numerical gradient of the new parameter, as the solver starts its optimiser from. *)
Theorem C160_gradient : forall N depth (H : mat Cx) ref (terms : list (list nat)) k (E : list R -> R) (e : R) x, (0 < depth)%nat -> length ref = N -> meq N (madj H) H -> length terms = length x ->
  exists C, forall diff, 0 < diff ->
    E (x ++ [0]) = ansatz_energy N depth H ref (combine (terms ++ [k]) (reals (x ++ [0]))) + e ->
    E (x ++ [diff]) = ansatz_energy N depth H ref (combine (terms ++ [k]) (reals (x ++ [diff]))) + e ->
    Rabs (nth (length x) (real_gradient E true diff (x ++ [0])) 0
          - - (2 * fst (expect N (comm N (excite (Nat.div2 (length k)) k) H) (ansatz_state N depth ref (combine terms (reals x))))) / INR depth) <= C * diff.
Proof. exact new_gradient. Qed.
Print Assumptions C160_gradient.

(** The hypotheses of C159: two orbitals, one electron of each spin, two excitations with the parameters
    0 and 1/2; the solver's energy as a total function. *)
Definition tiny159 (x : Cx) : bool := if ceqb x c0 then true else false.
Definition energy159 (y : list R) : R :=
  match ad_circuit 1 2 1 1 [[0; 2; 2; 1]; [0; 2; 3; 1]]%nat (reals y) with
  | Some prep => match tomography Crt tiny159 jw_operator colour136 2 true false 2 prep with
                 | Some t => fst (evaluate (K := Cx) 4 (build_K2 4 ((/ 4, 0) : Cx) minus_number (fun _ _ _ _ => c0)) c0 t) | None => 0 end
  | None => 0 end.
Example C159_case : (forall z, tiny159 z = true -> z = c0) /\ proper colour136 /\ real_data (1 + 1) ((/ 4, 0) : Cx) minus_number (fun _ _ _ _ => c0) /\
  (forall k, In k [[0; 2; 2; 1]; [0; 2; 3; 1]]%nat -> ansatz_term 2 k) /\ usable 4 (combine [[0; 2; 2; 1]; [0; 2; 3; 1]]%nat (reals [0; 1 / 2])) /\
  usable 4 (combine [[0; 2; 2; 1]; [0; 2; 3; 1]]%nat (reals (put 1 (nth 1 [0; 1 / 2] 0 + 1 / 10) [0; 1 / 2]))) /\
  (forall y prep t, ad_circuit 1 2 1 1 [[0; 2; 2; 1]; [0; 2; 3; 1]]%nat (reals y) = Some prep -> tomography Crt tiny159 jw_operator colour136 2 true false 2 prep = Some t ->
     energy159 y = fst (evaluate (K := Cx) 4 (build_K2 4 ((/ 4, 0) : Cx) minus_number (fun _ _ _ _ => c0)) c0 t)) /\
  exists d C, Rabs (nth 1 (real_gradient energy159 true (1 / 10) [0; 1 / 2]) 0 - d) <= C * (1 / 10).
Proof.
  assert (Z : forall z, tiny159 z = true -> z = c0) by (intros x H; apply (ceqb_spec Cx); unfold tiny159 in H; destruct (ceqb x c0); congruence).
  assert (RD : real_data (1 + 1) ((/ 4, 0) : Cx) minus_number (fun _ _ _ _ => c0)).
  { repeat split; try reflexivity.
    - apply C_eq; cbn; field.
    - intros i j. unfold minus_number. destruct (Nat.eqb i j); cbn; ring.
    - intros i j. unfold minus_number. rewrite Nat.eqb_sym. reflexivity. }
  assert (SB : forall k, In k [[0; 2; 2; 1]; [0; 2; 3; 1]]%nat -> ansatz_term 2 k).
  { intros k I. apply c157_keys. destruct I as [<-|[<-|[]]]; cbn [In]; tauto. }
  assert (U1 : usable 4 (combine [[0; 2; 2; 1]; [0; 2; 3; 1]]%nat (reals [0; 1 / 2]))).
  { intros t p [I|[I|[]]]; injection I as <- <-; (split; [reflexivity|]); (split; [intros i H; cbn in H; lia|]); (split; [apply RdmProofs.shortens_spec; reflexivity|]); (split; [reflexivity|]); [left; reflexivity|right].
    cbn [fst length]. rewrite Rabs_right by lra. lra. }
  assert (U2 : usable 4 (combine [[0; 2; 2; 1]; [0; 2; 3; 1]]%nat (reals (put 1 (nth 1 [0; 1 / 2] 0 + 1 / 10) [0; 1 / 2])))).
  { intros t p [I|[I|[]]]; injection I as <- <-; (split; [reflexivity|]); (split; [intros i H; cbn in H; lia|]); (split; [apply RdmProofs.shortens_spec; reflexivity|]); (split; [reflexivity|]); [left; reflexivity|right].
    cbn [fst length]. rewrite Rabs_right by lra. lra. }
  assert (HE : forall y prep t, ad_circuit 1 2 1 1 [[0; 2; 2; 1]; [0; 2; 3; 1]]%nat (reals y) = Some prep -> tomography Crt tiny159 jw_operator colour136 2 true false 2 prep = Some t ->
     energy159 y = fst (evaluate (K := Cx) 4 (build_K2 4 ((/ 4, 0) : Cx) minus_number (fun _ _ _ _ => c0)) c0 t)) by (intros y prep t E T; unfold energy159; rewrite E, T; reflexivity).
  split; [exact Z|]. split; [exact (proj1 (proj2 (proj2 C136_case)))|]. split; [exact RD|]. split; [exact SB|]. split; [exact U1|]. split; [exact U2|]. split; [exact HE|].
  destruct (C159_adapt_gradient 1 2 1 1 tiny159 colour136 false ((/ 4, 0) : Cx) minus_number (fun _ _ _ _ => c0) c0 ltac:(lia) ltac:(lia) ltac:(lia) Z (proj1 (proj2 (proj2 C136_case))) RD
    [[0; 2; 2; 1]; [0; 2; 3; 1]]%nat energy159 [0; 1 / 2] 1 SB eq_refl ltac:(cbn; lia) HE) as [d [C [_ B]]].
  exists d, C. apply (proj1 (B (1 / 10) ltac:(lra))); assumption.
Qed.
(** C160: one electron in two orbitals with a hopping term; the excitation 0 <- 1 has residual 1, and the solver picks it. *)
Definition hop : mat Cx := fun r c => if bits_eqb r [true; false] && bits_eqb c [false; true] || bits_eqb r [false; true] && bits_eqb c [true; false] then c1 else c0.
Example C160_case : meq 2 (madj hop) hop /\
  fst (expect 2 (comm 2 (excite 1 [0; 1]%nat) hop) (ansatz_state 2 1 [true; false] [])) = 1 /\ fst (expect 2 (comm 2 (excite 1 [0; 0]%nat) hop) (ansatz_state 2 1 [true; false] [])) = 0 /\
  ad_grow true [[0; 0]; [0; 1]]%nat (MkResid [0; 1]%Q 1) (MkAdapt [] [] [] [] 0 false 0) = Some (MkAdapt [[0; 1]]%nat [1]%nat [(c0 : Cx)] [] 0 false 0).
Proof.
  split; [|split; [|split]].
  - intros r c _ _. unfold madj, hop. rewrite orb_comm, !(andb_comm (bits_eqb c _)). destruct (_ || _); apply C_eq; cbn; ring.
  - cbn; ring.
  - cbn; ring.
  - reflexivity.
Qed.
