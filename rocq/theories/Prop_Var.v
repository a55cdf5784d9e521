(** C169: the variance of the energy in the iterative mode.  [H] is any Hermitian matrix, [root] the square root used for counts
    only. *)
From Coq Require Import Bool List Arith Reals Lra.
From Verif Require Import Coeff ComplexR MatSpec CircuitSpec ItModel ItSpec PlanSpec VarModel VarSpec VarProofs.
Import ListNotations.
Local Open Scope nat_scope.

(** After any number of circuits the variance is the squared length of (H - E) psi, psi the state of all the circuits and E its
    average energy; it is not negative, and zero exactly when psi is an eigenvector. *)
Theorem C169_variance : forall root N circuits (H : mat Cx), (forall g, In g (concat circuits) -> valid N g) -> selfadjoint N H ->
  let psi := prepared Crt N (concat circuits) in
  let E := expect N H psi in
  check_variance N (Some (run_rho root N circuits)) H = Some (fst (dot N (deviation N H E psi) (deviation N H E psi))) /\
  exists v, check_variance N (Some (run_rho root N circuits)) H = Some v /\ (0 <= v)%R /\ (v = 0%R <-> eigenvector N H E psi).
Proof. intros root N circuits H V S. exact (conj (variance_value root N circuits H V S) (variance_nonneg root N circuits H V S)). Qed.
Print Assumptions C169_variance.

(** It bounds the weight of every eigenvector by the distance of its energy. *)
Theorem C169_bound : forall root N circuits (H : mat Cx), (forall g, In g (concat circuits) -> valid N g) -> selfadjoint N H ->
  forall (lam : Cx) phi v, eigenvector N H lam phi -> snd lam = 0%R -> dot N phi phi = c1 ->
  check_variance N (Some (run_rho root N circuits)) H = Some v ->
  let psi := prepared Crt N (concat circuits) in
  ((fst lam - fst (expect N H psi)) * (fst lam - fst (expect N H psi)) * fst (cmul (cconj (dot N phi psi)) (dot N phi psi)) <= v)%R.
Proof. exact variance_bound. Qed.
Print Assumptions C169_bound.

(** On the other backends there is no density matrix, and the call raises. *)
Theorem C169_other_backends_raise : forall N H, check_variance N None H = None.
Proof. reflexivity. Qed.
Print Assumptions C169_other_backends_raise.

(** One qubit, two circuits, H = Z: the hypotheses, with the eigenvector |1> of energy -1. *)
Definition one169 (b : bits) : Cx := match b with [true] => c1 | _ => c0 end.
Example C169_case : (forall g, In g (concat [[Gh 0]; [Gs 0]]) -> valid (K := Cx) 1 g) /\ selfadjoint 1 (pmat (K := Cx) [PZ]) /\
  eigenvector 1 (pmat [PZ]) (copp c1 : Cx) one169 /\ snd (copp c1 : Cx) = 0%R /\ dot 1 one169 one169 = c1.
Proof.
  split; [|split; [|split; [|split]]].
  - intros g [<-|[<-|[]]]; split; cbn; auto.
  - intros [|[] [|? ?]] [|[] [|? ?]] L L'; try discriminate; apply C_eq; cbn; ring.
  - intros [|[] [|? ?]] L; try discriminate; apply C_eq; cbn; ring.
  - cbn. ring.
  - apply C_eq; cbn; ring.
Qed.
