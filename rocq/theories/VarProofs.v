(** The variance is the squared length of (H - E) psi. *)
From Coq Require Import Bool List Arith Reals Lra Ring.
From Verif Require Import Coeff ComplexR MatSpec MatLemmas CircuitSpec CircuitProofs CircuitProofs2 ItModel ItSpec ItProofs PlanSpec PlanProofs3 PlanProofs5 VarModel VarSpec.
Import ListNotations.

Section Gen.
  Variable K : CoefRing.
  Add Ring KRing : (c_ring K).
  Local Open Scope coef_scope.
  Lemma dot_add_l N (a b c : bits -> K) : dot N (fun r => a r - b r) c = dot N a c - dot N b c.
  Proof.
    unfold dot. transitivity (sumbits N (fun r => cconj (a r) * c r + - (1) * (cconj (b r) * c r))).
    - apply sumbits_ext. intros r _. replace (a r - b r) with (a r + - b r) by ring. rewrite cconj_add, cconj_opp. ring.
    - rewrite sumbits_add, sumbits_scal. ring.
  Qed.
  Lemma dot_add_r N (a b c : bits -> K) : dot N c (fun r => a r - b r) = dot N c a - dot N c b.
  Proof.
    unfold dot. transitivity (sumbits N (fun r => cconj (c r) * a r + - (1) * (cconj (c r) * b r))).
    - apply sumbits_ext. intros r _. ring.
    - rewrite sumbits_add, sumbits_scal. ring.
  Qed.
  Lemma dot_scal_l N x (a b : bits -> K) : dot N (fun r => x * a r) b = cconj x * dot N a b.
  Proof. unfold dot. rewrite <- sumbits_scal. apply sumbits_ext. intros r _. rewrite cconj_mul. ring. Qed.
  Lemma dot_scal_r N x (a b : bits -> K) : dot N a (fun r => x * b r) = x * dot N a b.
  Proof. unfold dot. rewrite <- sumbits_scal. apply sumbits_ext. intros r _. ring. Qed.
  Lemma dot_conj N (a b : bits -> K) : cconj (dot N a b) = dot N b a.
  Proof. unfold dot. rewrite sumbits_conj. apply sumbits_ext. intros r _. rewrite cconj_mul, cconj_inv. ring. Qed.
  Lemma dot_ext N (a b c d : bits -> K) : (forall r, length r = N -> a r = c r) -> (forall r, length r = N -> b r = d r) -> dot N a b = dot N c d.
  Proof. intros H1 H2. unfold dot. apply sumbits_ext. intros r L. rewrite H1, H2 by exact L. reflexivity. Qed.
  (** <a|H b> = <H a|b>. *)
  Lemma dot_adj N (H : mat K) (a b : bits -> K) : selfadjoint N H -> dot N a (mvec N H b) = dot N (mvec N H a) b.
  Proof.
    intro S. unfold dot, mvec.
    transitivity (sumbits N (fun r => sumbits N (fun c => cconj (a r) * (H r c * b c)))).
    - apply sumbits_ext. intros r _. rewrite <- sumbits_scal. reflexivity.
    - rewrite sumbits_swap. apply sumbits_ext. intros c Lc. rewrite sumbits_conj. rewrite <- sumbits_scal_r. apply sumbits_ext. intros r Lr.
      rewrite cconj_mul. rewrite <- (S r c Lr Lc). unfold madj. ring.
  Qed.
  Variables (N : nat) (H : mat K) (psi : bits -> K).
  Hypothesis S : selfadjoint N H.
  Hypothesis Nm : norm2 N psi = 1.
  Let E := expect N H psi.
  Lemma expect_dot : E = dot N psi (mvec N H psi).
  Proof. reflexivity. Qed.
  Lemma E_real : cconj E = E.
  Proof. rewrite expect_dot, dot_conj. symmetry. apply dot_adj. exact S. Qed.
  Lemma square_dot : expect N (mmul N H H) psi = dot N (mvec N H psi) (mvec N H psi).
  Proof.
    rewrite <- (dot_adj N H psi (mvec N H psi) S). unfold expect, dot. apply sumbits_ext. intros r L. f_equal. apply mvec_mmul.
  Qed.
  Lemma variance_dot : expect N (mmul N H H) psi - E * E = dot N (deviation N H E psi) (deviation N H E psi).
  Proof.
    unfold deviation. rewrite dot_add_l, !dot_add_r, !dot_scal_l, !dot_scal_r, <- square_dot.
    rewrite <- (dot_adj N H psi psi S), <- expect_dot, E_real.
    replace (dot N psi psi) with (1 : K) by (symmetry; exact Nm). ring.
  Qed.
  (** The part of a vector along a normalised one. *)
  Lemma bessel (phi v : bits -> K) : dot N phi phi = 1 ->
    dot N v v - cconj (dot N phi v) * dot N phi v = dot N (fun r => v r - dot N phi v * phi r) (fun r => v r - dot N phi v * phi r).
  Proof.
    intro P. rewrite dot_add_l, !dot_add_r, !dot_scal_l, !dot_scal_r, P. rewrite <- (dot_conj N phi v). ring.
  Qed.
  Lemma overlap (lam : K) (phi : bits -> K) : eigenvector N H lam phi -> cconj lam = lam -> dot N phi (deviation N H E psi) = (lam - E) * dot N phi psi.
  Proof.
    intros Ev Rl. unfold deviation. rewrite dot_add_r, dot_scal_r, (dot_adj N H phi psi S).
    rewrite (dot_ext N (mvec N H phi) psi (fun r => lam * phi r) psi Ev) by reflexivity. rewrite dot_scal_l, Rl. ring.
  Qed.
End Gen.

Lemma dot_pos N (v : bits -> Cx) : (0 <= fst (dot N v v))%R /\ snd (dot N v v) = 0%R.
Proof.
  unfold dot. revert v. induction N as [|N IH]; intro v; cbn [sumbits].
  - cbn. split; [|ring]. pose proof (Rle_0_sqr (fst (v []))). pose proof (Rle_0_sqr (snd (v []))). unfold Rsqr in *. lra.
  - destruct (IH (fun b => v (false :: b))) as [A1 A2]. destruct (IH (fun b => v (true :: b))) as [B1 B2].
    cbn [Cx cadd Cadd fst snd] in *. split; lra.
Qed.
Lemma dot_zero N (v : bits -> Cx) : fst (dot N v v) = 0%R -> forall r, length r = N -> v r = c0.
Proof.
  unfold dot. revert v. induction N as [|N IH]; intros v Z r L; cbn [sumbits] in Z.
  - destruct r; [|discriminate]. cbn in Z. pose proof (Rle_0_sqr (fst (v []))) as A. pose proof (Rle_0_sqr (snd (v []))) as B. unfold Rsqr in *.
    apply C_eq; apply Rsqr_0_uniq; unfold Rsqr; lra.
  - destruct r as [|x r]; [discriminate|]. injection L as L.
    destruct (dot_pos N (fun b => v (false :: b))) as [A1 _]. destruct (dot_pos N (fun b => v (true :: b))) as [B1 _]. unfold dot in A1, B1.
    cbn [Cx cadd Cadd fst] in Z, A1, B1.
    destruct x; [apply (IH (fun b => v (true :: b)))|apply (IH (fun b => v (false :: b)))]; try exact L; cbn [Cx cadd fst]; lra.
Qed.

Section Var.
  Variables (root : Cx -> Cx) (N : nat) (circuits : list (list (gate Cx))) (H : mat Cx).
  Hypothesis Va : forall g, In g (concat circuits) -> valid N g.
  Hypothesis S : selfadjoint N H.
  Let psi := prepared Crt N (concat circuits).
  Let E := expect N H psi.
  Lemma run_pure : meq N (run_rho root N circuits) (pure psi).
  Proof. unfold run_rho. eapply meq_trans; [apply run_sequence|]. apply step_pure. Qed.
  Lemma run_trace (A : mat Cx) : mtrace N (mmul N (run_rho root N circuits) A) = expect N A psi.
  Proof. rewrite mtrace_comm, <- trace_pure. apply mtrace_meq. apply mmul_meq; [apply meq_refl|apply run_pure]. Qed.
  Lemma psi_norm : norm2 N psi = c1.
  Proof. apply (prepared_norm Cx Crt Crt_sq crt_real N (concat circuits) Va). Qed.
  Lemma variance_value : check_variance N (Some (run_rho root N circuits)) H = Some (fst (dot N (deviation N H E psi) (deviation N H E psi))).
  Proof. unfold check_variance. cbv zeta. rewrite !run_trace. f_equal. f_equal. apply (variance_dot Cx N H psi S psi_norm). Qed.
  Theorem variance_nonneg : exists v, check_variance N (Some (run_rho root N circuits)) H = Some v /\ (0 <= v)%R /\ (v = 0%R <-> eigenvector N H E psi).
  Proof.
    exists (fst (dot N (deviation N H E psi) (deviation N H E psi))). split; [exact variance_value|]. split; [apply dot_pos|]. split.
    - intros Z r L. pose proof (dot_zero N _ Z r L) as X. unfold deviation in X. revert X. generalize (mvec N H psi r) (cmul E (psi r)). intros a b X.
      apply (f_equal fst) in X as X1. apply (f_equal snd) in X as X2. cbn [Cx csub Csub c0 C0 fst snd] in X1, X2. apply C_eq; lra.
    - intro Ev. rewrite (dot_ext Cx N _ _ (fun r => cmul c0 (psi r)) (fun r => cmul c0 (psi r))).
      + rewrite dot_scal_l. generalize (dot N psi (fun r => cmul c0 (psi r))). intros [a b]. cbn. ring.
      + intros r L. unfold deviation. rewrite (Ev r L). apply C_eq; cbn; ring.
      + intros r L. unfold deviation. rewrite (Ev r L). apply C_eq; cbn; ring.
  Qed.
  Theorem variance_bound lam phi v : eigenvector N H lam phi -> snd lam = 0%R -> dot N phi phi = c1 ->
    check_variance N (Some (run_rho root N circuits)) H = Some v ->
    ((fst lam - fst E) * (fst lam - fst E) * fst (cmul (cconj (dot N phi psi)) (dot N phi psi)) <= v)%R.
  Proof.
    intros Ev Rl P V. rewrite variance_value in V. injection V as <-. set (d := deviation N H E psi).
    pose proof (bessel Cx N phi d P) as B. pose proof (dot_pos N (fun r => csub (d r) (cmul (dot N phi d) (phi r)))) as [Pos _]. rewrite <- B in Pos. clear B.
    assert (Cl : cconj lam = lam) by (apply C_eq; cbn; [reflexivity|rewrite Rl; ring]).
    assert (O : dot N phi d = cmul (csub lam E) (dot N phi psi)) by (apply overlap; assumption). rewrite O in Pos.
    pose proof (E_real Cx N H psi S) as Re. fold E in Re. apply (f_equal snd) in Re. cbn [Cx cconj Cconj snd] in Re.
    revert Pos. generalize (dot N phi psi). generalize (dot N d d). intros x y Pos. destruct lam as [l l'], E as [e e'], x as [x x'], y as [y y']. cbn [snd] in *. 
    cbn [Cx csub cmul cconj Csub Cmul Cconj fst snd] in *. subst l'. assert (e' = 0%R) by lra. subst e'. nra.
  Qed.
End Var.
