(** The quantum residual and the classical one; complex states. *)
From Coq Require Import Bool List Arith Reals Lra Lia Ring.
From Verif Require Import Coeff MatSpec MatLemmas AdjProofs OpSpec CircuitSpec CircuitModel CircuitProofs CircuitProofs2 FockSpec RdmSpec RdmFock HamModel HamSpec ResSpec ResModel
  ComplexR QuantModel QuantSpec QuantProofs QuantProofs2 QuantProofs3.
Import ListNotations.

Section Sector.
  Variable K : CoefRing.
  Add Ring KRing : (c_ring K).
  Local Open Scope coef_scope.
  Lemma excitation_count i k j l (x y : bits) : @excitation K i k j l x y <> 0 -> popcount x = popcount y.
  Proof.
    unfold excitation, fock_mat, pmap_mat. destruct (fock _ y) as [[s m]|] eqn:E; [|contradiction].
    destruct (bits_eqb m x) eqn:B; [|intro H; contradiction H; reflexivity]. apply bits_eqb_spec in B. subst m. intros _.
    pose proof (fock_count (fun _ => true) _ _ _ _ E) as G.
    rewrite <- !popcount_pcnt in G. cbn [ocnt] in G. unfold chi in G. specialize (G (ladders_letters [i; k] [j; l])). cbn in G. lia.
  Qed.
  Lemma expect_split N (A : mat K) psi : expect N A psi = sumbits N (fun x => sumbits N (fun y => cconj (psi x) * A x y * psi y)).
  Proof.
    unfold expect. apply sumbits_ext. intros x _. unfold mvec. rewrite <- sumbits_scal. apply sumbits_ext. intros; ring.
  Qed.
  (** Only the matrix elements between states with the same number of particles matter. *)
  Lemma comm_sector N Ne i k j l (A B : mat K) psi : has_particles N Ne psi ->
    (forall x y, length x = N -> length y = N -> popcount x = Ne -> popcount y = Ne -> A x y = B x y) ->
    expect N (comm N (excitation i k j l) A) psi = expect N (comm N (excitation i k j l) B) psi.
  Proof.
    intros HP E. rewrite !expect_split. apply sumbits_ext. intros x Lx. apply sumbits_ext. intros y Ly.
    destruct (Nat.eq_dec (popcount x) Ne) as [Px|Px]; [|rewrite (HP x Lx Px), cconj_0; ring].
    destruct (Nat.eq_dec (popcount y) Ne) as [Py|Py]; [|rewrite (HP y Ly Py); ring].
    replace (comm N (excitation i k j l) A x y) with (comm N (excitation i k j l) B x y); [reflexivity|].
    unfold comm, mmul. f_equal; apply sumbits_ext; intros z Lz.
    - destruct (@ceqb K (excitation i k j l x z) 0) eqn:Z.
      + apply ceqb_spec in Z. rewrite Z. ring.
      + rewrite E; auto. rewrite <- Px. symmetry. apply (excitation_count i k j l). intro H. rewrite H in Z.
        rewrite (proj2 (ceqb_spec K 0 0) eq_refl) in Z. discriminate.
    - destruct (@ceqb K (excitation i k j l z y) 0) eqn:Z.
      + apply ceqb_spec in Z. rewrite Z. ring.
      + rewrite E; auto. rewrite <- Py. apply (excitation_count i k j l). intro H. rewrite H in Z.
        rewrite (proj2 (ceqb_spec K 0 0) eq_refl) in Z. discriminate.
  Qed.
  Lemma comm_const N (A B : mat K) x : meq N (comm N A (madd B (mscal x mone))) (comm N A B).
  Proof.
    intros r c Lr Lc. unfold comm.
    assert (E1 : mmul N A (madd B (mscal x mone)) r c = mmul N A B r c + x * mmul N A mone r c).
    { unfold mmul, madd, mscal. rewrite <- sumbits_scal, <- sumbits_add. apply sumbits_ext. intros; ring. }
    assert (E2 : mmul N (madd B (mscal x mone)) A r c = mmul N B A r c + x * mmul N mone A r c).
    { unfold mmul, madd, mscal. rewrite <- sumbits_scal, <- sumbits_add. apply sumbits_ext. intros; ring. }
    rewrite E1, E2, (mmul_one_l K N A r c Lr Lc), (mmul_one_r K N A r c Lr Lc). ring.
  Qed.
  (** Any matrix that acts, on Ne particles, as the Hamiltonian plus a constant has the residual of the reduced
      Hamiltonian. *)
  Theorem residual_agrees r Ne (w c : K) (h : nat -> nat -> K) (V : nat -> nat -> nat -> nat -> K) (A : mat K) psi i k j l :
    has_particles r Ne psi -> (1 + 1 + 1 + 1) * w * ofnat (Ne - 1) = 1 -> real_symmetric (build_K2 r w h V) ->
    (forall x y, length x = r -> length y = r -> popcount x = Ne -> popcount y = Ne ->
      A x y = ham r (fun p q => h q p) (fun p t q s => V q s p t) x y + c * mone x y) ->
    re_expect r (comm r (excitation i k j l) A) psi = residual_of r (build_K2 r w h V) psi i k j l.
  Proof.
    intros HP Hw HS E. unfold residual_of, re_expect.
    rewrite (comm_sector r Ne i k j l A (madd (two_body r (build_K2 r w h V)) (mscal c mone)) psi HP).
    - now rewrite (expect_meq K r _ _ psi (comm_const r (excitation i k j l) (two_body r (build_K2 r w h V)) c)).
    - intros x y Lx Ly Px Py. unfold madd, mscal. rewrite (K2_on_particles K r Ne w h V x y Hw HS Lx Ly Px Py). apply E; assumption.
  Qed.
End Sector.

Local Open Scope R_scope.
Section Complex.
  Variable N n : nat.
  Variable phi : bits -> Cx.
  Variable ansatz : list (gate Cx).
  Notation psi := (mvec N (cmat Crt N ansatz) phi).
  (** Otherwise there is no limit: the imaginary part of the RDM, divided by the step, is added to the residual. *)
  Theorem no_limit H i k j l lim : real_op N H -> snd (rdm_of N psi [i; k] [j; l]) <> 0 ->
    ~ tends_to (fun d => fst (run_expiH Crt chalf_angle N phi ansatz n ((/ INR n, 0) : Cx) ((d, 0) : Cx) ((/ d, 0) : Cx) H i k j l)) lim.
  Proof.
    intros L Z T. set (A := @fock_mat Cx (rdm_letters [i; k] [j; l])) in *.
    pose proof (CD_average N (concat (repeat (rates (/ INR n) H) n)) A psi (rounds_len N _ n H L)) as [_ D].
    set (s := fun d => snd (expect N A (mvec N (exp_seq N (rated (concat (repeat (rates (/ INR n) H) n)) d)) psi))).
    assert (V0 : s 0 = snd (rdm_of N psi [i; k] [j; l])).
    { unfold s, rdm_of. fold A. f_equal. apply expect_state_ext. intros r Lr.
      transitivity (mvec N mone psi r); [apply mvec_meq; [exact (proj1 (MD_seq N _))|exact Lr]|].
      transitivity (mvec N (mmul N mone (cmat Crt N ansatz)) phi r); [symmetry; apply mvec_mmul|].
      apply mvec_meq; [apply mmul_one_l|exact Lr]. }
    match type of D with derivable_pt_lim _ _ ?u => set (d0 := u) in D end.
    destruct (D 1 Rlt_0_1) as [e1 D1]. destruct (T 1 Rlt_0_1) as [e2 [P2 T1]].
    set (z := Rabs (s 0)). assert (Pz : 0 < z) by (apply Rabs_pos_lt; rewrite V0; exact Z).
    set (b := Rabs lim + 1 + (Rabs d0 + 1)). assert (Pb : 0 < b) by (unfold b; pose proof (Rabs_pos lim); pose proof (Rabs_pos d0); lra).
    set (x := Rmin (Rmin (e1 / 2) (e2 / 2)) (z / (2 * b))).
    assert (X0 : 0 < x). { unfold x. repeat apply Rmin_glb_lt; try lra; [pose proof (cond_pos e1); lra|]. apply Rdiv_lt_0_compat; lra. }
    assert (X1 : x < e1). { unfold x. pose proof (cond_pos e1). pose proof (Rmin_l (Rmin (e1 / 2) (e2 / 2)) (z / (2 * b))). pose proof (Rmin_l (e1 / 2) (e2 / 2)). lra. }
    assert (X2 : x < e2). { unfold x. pose proof (Rmin_l (Rmin (e1 / 2) (e2 / 2)) (z / (2 * b))). pose proof (Rmin_r (e1 / 2) (e2 / 2)). lra. }
    assert (X3 : x <= z / (2 * b)) by apply Rmin_r.
    assert (Ax : Rabs x = x) by (apply Rabs_pos_eq; lra). assert (Nx : x <> 0) by lra.
    specialize (D1 x Nx ltac:(rewrite Ax; exact X1)). specialize (T1 x Nx ltac:(rewrite Ax; exact X2)).
    rewrite run_value in T1 by exact L. cbn [fst] in T1. fold A in T1. rewrite Rplus_0_l in D1.
    change (Rabs ((s x - s 0) / x - d0) < 1) in D1. change (Rabs (s x * / x - lim) < 1) in T1.
    assert (B1 : Rabs ((s x - s 0) / x) < Rabs d0 + 1).
    { replace ((s x - s 0) / x) with (((s x - s 0) / x - d0) + d0) by ring. eapply Rle_lt_trans; [apply Rabs_triang|lra]. }
    assert (B2 : Rabs (s x * / x) < Rabs lim + 1).
    { replace (s x * / x) with ((s x * / x - lim) + lim) by ring. eapply Rle_lt_trans; [apply Rabs_triang|lra]. }
    assert (B3 : Rabs (s 0 / x) < b).
    { replace (s 0 / x) with (s x * / x + - ((s x - s 0) / x)) by (field; exact Nx).
      eapply Rle_lt_trans; [apply Rabs_triang|]. rewrite Rabs_Ropp. unfold b. lra. }
    unfold Rdiv in B3. rewrite Rabs_mult, (Rabs_pos_eq (/ x)) in B3 by (left; apply Rinv_0_lt_compat; exact X0). fold z in B3.
    assert (B4 : z < b * x). { apply (Rmult_lt_compat_r x) in B3; [|exact X0]. replace (z * / x * x) with z in B3 by (field; exact Nx). exact B3. }
    assert (B5 : b * x <= z / 2). { apply (Rmult_le_compat_l b) in X3; [|lra]. replace (b * (z / (2 * b))) with (z / 2) in X3 by (field; lra). exact X3. }
    lra.
  Qed.
End Complex.
