(** The circuit of an excitation is the rotation generated by it. *)
From Coq Require Import Bool List Arith Reals Lra Lia Ring.
From Verif Require Import Coeff MatSpec MatLemmas AdjProofs OpSpec FockSpec CircuitSpec CircuitModel CircuitProofs CircuitProofs2 ComplexR PauliModel OperatorModel FermiModel FermiProofs KeyProofs
  QuantSpec QuantProofs QuantProofs2 RdmModel RdmSpec RdmFock VqeModel VqeSpec VqeProofs3 VqeProofs4 ConsSpec ConsModel ConsProofs ConsProofs2 ConsProofs3 EulerProofs3 AdaptProofs3 RotSpec.
Import ListNotations.
Local Open Scope R_scope.
Add Ring CxRing5 : (c_ring Cx).

(** Two one-parameter groups with the same derivative are equal. *)
Section Groups.
  Variable N : nat.
  Variables (F H : R -> mat Cx) (D : mat Cx).
  Hypothesis FA : forall t u, F (t + u) =[N]= mmul N (F t) (F u).
  Hypothesis HA : forall t u, H (t + u) =[N]= mmul N (H t) (H u).
  Hypothesis FD : MD N F mone D.
  Hypothesis HD : MD N H mone D.
  Lemma CD_neg (f : R -> Cx) (d : Cx) : CD f d -> CD (fun t => f (- t)) (copp d).
  Proof.
    assert (X : forall (g : R -> R) l, derivable_pt_lim g 0 l -> derivable_pt_lim (fun t => g (- t)) 0 (- l)).
    { intros g l A eps He. destruct (A eps He) as [e B]. exists e. intros h H1 H2. specialize (B (- h)). rewrite !Rplus_0_l in *. rewrite Ropp_0.
      replace ((g (- h) - g 0) / h - - l) with (- ((g (- h) - g 0) / - h - l)) by (field; exact H1). rewrite Rabs_Ropp. apply B; [lra|rewrite Rabs_Ropp; exact H2]. }
    intros [A B]. split; [apply (X (fun t => fst (f t)) _ A)|apply (X (fun t => snd (f t)) _ B)].
  Qed.
  Definition mix (t : R) : mat Cx := mmul N (F (- t)) (H t).
  Lemma F0 : F 0 =[N]= mone. Proof. constructor. exact (proj1 FD). Qed.
  Lemma H0 : H 0 =[N]= mone. Proof. constructor. exact (proj1 HD). Qed.
  Lemma MD_mix : MD N mix mone mzero.
  Proof.
    assert (FN : MD N (fun t => F (- t)) mone (mscal (copp c1) D)).
    { split; [rewrite Ropp_0; exact (proj1 FD)|]. intros r c Lr Lc. eapply CD_ext; [intro t; reflexivity| |exact (CD_neg (fun t => F t r c) (D r c) (proj2 FD r c Lr Lc))]. unfold mscal. ring. }
    unfold mix. eapply MD_congr; [| |apply MD_mul; [exact FN|exact HD]]; apply un.
    - apply mul1l.
    - rewrite (mul1r N), (mul1l N). constructor. intros r c _ _. unfold madd, mscal, mzero. ring.
  Qed.
  Lemma mix_add t u : mix (t + u) =[N]= mmul N (F (- t)) (mmul N (mix u) (H t)).
  Proof. unfold mix. replace (- (t + u)) with (- t + - u) by ring. rewrite FA, (Rplus_comm t u), HA, !(mulA N). reflexivity. Qed.
  Lemma mix_const t : mix t =[N]= mone.
  Proof.
    constructor. intros r c Lr Lc. transitivity (mix 0 r c).
    2:{ exact (proj1 MD_mix r c Lr Lc). }
    assert (Z : forall t, CD (fun u => mix (t + u) r c) c0).
    { intro t0. destruct (MD_mul N _ _ _ _ _ _ (MD_const N (F (- t0))) (MD_mul N _ _ _ _ _ _ MD_mix (MD_const N (H t0)))) as [_ M].
      specialize (M r c Lr Lc). eapply CD_ext; [| |exact M].
      - intro u. cbv beta. symmetry. apply (un _ _ _ (mix_add t0 u)); assumption.
      - assert (E : madd (mmul N mzero (mmul N mone (H t0))) (mmul N (F (- t0)) (madd (mmul N mzero (H t0)) (mmul N mone mzero))) =[N]= mzero).
        { rewrite !(mul0l N), (mul0r N). assert (Z2 : madd mzero mzero =[N]= @mzero Cx) by (constructor; intros x y _ _; unfold madd, mzero; ring).
          rewrite Z2, (mul0r N). exact Z2. }
        exact (un _ _ _ E r c Lr Lc). }
    apply C_eq.
    - apply (null_const (fun t => fst (mix t r c))). intro t0. exact (proj1 (CD_shift (fun t => mix t r c) t0 c0 (Z t0))).
    - apply (null_const (fun t => snd (mix t r c))). intro t0. exact (proj2 (CD_shift (fun t => mix t r c) t0 c0 (Z t0))).
  Qed.
  Theorem groups_equal t : F t =[N]= H t.
  Proof.
    assert (I : mmul N (F t) (F (- t)) =[N]= mone) by (rewrite <- FA; replace (t + - t) with 0 by ring; apply F0).
    transitivity (mmul N (F t) (mix t)); [rewrite mix_const; symmetry; apply mul1r|]. unfold mix. rewrite <- (mulA N), I. apply mul1l.
  Qed.
End Groups.

(** Rotations. *)
Section Rotation.
  Variables (N : nat) (G : mat Cx).
  Hypothesis cube : mmul N G (mmul N G G) =[N]= mscal (copp c1) G.
  Lemma rotation_add t u : rotation N G (t + u) =[N]= mmul N (rotation N G t) (rotation N G u).
  Proof.
    unfold rotation. rewrite !(addl N), !(addr N), !(scall N), !(scalr N), !(mul1l N), (mul1r N).
    assert (Q : mmul N (mmul N G G) G =[N]= mscal (copp c1) G) by (rewrite (mulA N); exact cube).
    assert (Q2 : mmul N (mmul N G G) (mmul N G G) =[N]= mscal (copp c1) (mmul N G G)) by (rewrite (mulA N), cube, (scalr N); reflexivity).
    rewrite Q, Q2, cube, (mul1r N (mmul N G G)). constructor. intros r c _ _. unfold madd, mscal. rewrite sin_plus, cos_plus.
    generalize (sin t) (cos t) (sin u) (cos u) (@mone Cx r c) (G r c) (mmul N G G r c). intros s1 c1' s2 c2' x y z. apply C_eq; cbn; ring.
  Qed.
  Lemma rotation_MD x : MD N (fun t => rotation N G (x * t)) mone (mscal ((x, 0) : Cx) G).
  Proof.
    split.
    - intros r c _ _. unfold rotation, madd, mscal. rewrite Rmult_0_r, sin_0, cos_0. replace ((1 - 1, 0) : Cx) with (c0 : Cx) by (apply C_eq; cbn; ring). replace ((0, 0) : Cx) with (c0 : Cx) by reflexivity. ring.
    - intros r c Lr Lc. unfold rotation, madd, mscal. generalize (@mone Cx r c) (G r c) (mmul N G G r c). intros a y z.
      assert (S : CD (fun t => ((sin (x * t), 0) : Cx)) (x, 0)) by (split; cbn [fst snd]; [apply sin_lim|apply derivable_pt_lim_const]).
      assert (Cc : CD (fun t => ((1 - cos (x * t), 0) : Cx)) (c0 : Cx)).
      { split; cbn [fst snd]; [|apply derivable_pt_lim_const]. pose proof (derivable_pt_lim_minus (fun _ => 1) (fun t => cos (x * t)) 0 0 0 (derivable_pt_lim_const 1 0) (cos_lim x)) as Q.
        unfold minus_fct in Q. replace (0 - 0) with 0 in Q by ring. exact Q. }
      eapply CD_ext; [intro t; reflexivity| |apply CD_add; [apply CD_const|apply CD_add; [apply CD_mul; [exact S|apply CD_const]|apply CD_mul; [exact Cc|apply CD_const]]]].
      ring_simplify. reflexivity.
  Qed.
End Rotation.

(** The generator of a fermionic word. *)
Section Word.
  Variables (N : nat) (s : fstr).
  Hypothesis L : length s = N.
  Let E : mat Cx := fstr_mat s.
  Lemma supp_l : forall s r c c', supp s r c = true -> supp s r c' = true -> c = c'.
  Proof.
    induction s0 as [|x s0 IH]; intros [|a r] [|b c] [|b' c'] H H'; try discriminate; [reflexivity|]. cbn [supp] in *. apply andb_true_iff in H, H'. destruct H as [H1 H2], H' as [H1' H2'].
    f_equal; [|exact (IH r c c' H2 H2')]. destruct x as [[]|], a, b, b'; try reflexivity; discriminate.
  Qed.
  Lemma supp_r : forall s r r' c, supp s r c = true -> supp s r' c = true -> r = r'.
  Proof.
    induction s0 as [|x s0 IH]; intros [|a r] [|a' r'] [|b c] H H'; try discriminate; [reflexivity|]. cbn [supp] in *. apply andb_true_iff in H, H'. destruct H as [H1 H2], H' as [H1' H2'].
    f_equal; [|exact (IH r r' c H2 H2')]. destruct x as [[]|], a, a', b; try reflexivity; discriminate.
  Qed.
  Lemma supp_sq : forall s r m c, adjs s <> s -> supp s r m = true -> supp s m c = true -> False.
  Proof.
    induction s0 as [|x s0 IH]; intros r m c A H H'; [now apply A|]. destruct r as [|a r], m as [|b m], c as [|d c]; try discriminate. cbn [supp] in *. apply andb_true_iff in H, H'. destruct H as [H1 H2], H' as [H1' H2'].
    destruct x as [[]|]; try (destruct a, b, d; discriminate); apply (IH r m c); auto; intro X; apply A; cbn [adjs map option_map fadj]; f_equal; exact X.
  Qed.
  Lemma E_zero r c : length r = N -> length c = N -> supp s r c = false -> E r c = c0.
  Proof. intros Lr Lc S. pose proof (supp_mat Cx s r c ltac:(congruence) ltac:(congruence)) as H. rewrite S in H. exact H. Qed.
  Lemma E_pm r c : length r = N -> length c = N -> supp s r c = true -> pm Cx (E r c).
  Proof. intros Lr Lc S. pose proof (supp_mat Cx s r c ltac:(congruence) ltac:(congruence)) as H. rewrite S in H. exact H. Qed.
  Lemma E_E : adjs s <> s -> mmul N E E =[N]= mzero.
  Proof.
    intro A. constructor. intros r c Lr Lc. unfold mmul, mzero. transitivity (sumbits N (fun _ => c0 : Cx)); [|apply sumbits_0]. apply sumbits_ext. intros m Lm.
    destruct (supp s r m) eqn:S1; [|rewrite (E_zero r m Lr Lm S1); ring]. destruct (supp s m c) eqn:S2; [|rewrite (E_zero m c Lm Lc S2); ring].
    exfalso. exact (supp_sq s r m c A S1 S2).
  Qed.
  Lemma E_Ed_E : mmul N E (mmul N (madj E) E) =[N]= E.
  Proof.
    constructor. intros r c Lr Lc. unfold mmul.
    transitivity (sumbits N (fun m => if bits_eqb m c then E r c else c0)).
    2:{ rewrite (sumbits_pick Cx N c (fun _ => E r c) Lc). reflexivity. }
    apply sumbits_ext. intros m Lm. destruct (bits_eqb m c) eqn:Q.
    - apply bits_eqb_spec in Q. subst m. destruct (supp s r c) eqn:S; [|rewrite (E_zero r c Lr Lc S); ring].
      transitivity (cmul (E r c) (sumbits N (fun k => if bits_eqb k r then (c1 : Cx) else c0))); [|rewrite (sumbits_pick Cx N r (fun _ => c1) Lr); ring].
      f_equal. apply sumbits_ext. intros k Lk. unfold madj. destruct (bits_eqb k r) eqn:Q2.
      + apply bits_eqb_spec in Q2. subst k. rewrite (pm_conj Cx _ (E_pm r c Lr Lc S)). apply (pm_sq Cx _ (E_pm r c Lr Lc S)).
      + destruct (supp s k c) eqn:S2; [|rewrite (E_zero k c Lk Lc S2); ring]. exfalso. rewrite (supp_r s k r c S2 S), (proj2 (bits_eqb_spec r r) eq_refl) in Q2. discriminate.
    - destruct (supp s r m) eqn:S; [|rewrite (E_zero r m Lr Lm S); ring].
      transitivity (cmul (E r m) (sumbits N (fun _ => c0 : Cx))); [|rewrite sumbits_0; ring]. f_equal. apply sumbits_ext. intros k Lk. unfold madj.
      destruct (supp s k m) eqn:S2; [|rewrite (E_zero k m Lk Lm S2), cconj_0; ring]. destruct (supp s k c) eqn:S3; [|rewrite (E_zero k c Lk Lc S3); ring].
      exfalso. rewrite (supp_l s k m c S2 S3), (proj2 (bits_eqb_spec c c) eq_refl) in Q. discriminate.
  Qed.
End Word.
Lemma madj_same N (A B : mat Cx) : A =[N]= B -> madj A =[N]= madj B.
Proof. intros [H]. constructor. intros r c Lr Lc. unfold madj. now rewrite (H c r Lc Lr). Qed.
Lemma madj_mul N (A B : mat Cx) : madj (mmul N A B) =[N]= mmul N (madj B) (madj A).
Proof.
  constructor. intros r c _ _. unfold madj, mmul. rewrite (sumbits_conj Cx). apply sumbits_ext. intros m _. rewrite cconj_mul. ring.
Qed.
Lemma madj_twice N (A : mat Cx) : madj (madj A) =[N]= A.
Proof. constructor. intros r c _ _. unfold madj. apply cconj_inv. Qed.

Section Cube.
  Variables (N : nat) (A : mat Cx).
  Hypothesis sq : mmul N A A =[N]= mzero.
  Hypothesis iso : mmul N A (mmul N (madj A) A) =[N]= A.
  Let B := madj A.
  Lemma sq' : mmul N B B =[N]= mzero.
  Proof. unfold B. rewrite <- madj_mul. transitivity (madj (@mzero Cx)); [now apply madj_same|]. constructor. intros r c _ _. unfold madj, mzero. apply cconj_0. Qed.
  Lemma iso' : mmul N B (mmul N A B) =[N]= B.
  Proof.
    pose proof (madj_same N _ _ iso) as X. rewrite (madj_mul N A), (madj_mul N (madj A)), (madj_twice N A), (mulA N) in X. exact X.
  Qed.
  Lemma cube_of : let G := madd A (mscal (copp c1) B) in mmul N G (mmul N G G) =[N]= mscal (copp c1) G.
  Proof.
    cbv zeta. set (G := madd A (mscal (copp c1) B)).
    assert (GG : mmul N G G =[N]= mscal (copp c1) (madd (mmul N A B) (mmul N B A))).
    { unfold G. rewrite !(addl N), !(addr N), !(scall N), !(scalr N), sq, sq'. constructor. intros r c _ _. unfold madd, mscal, mzero. ring. }
    assert (iso0 : mmul N A (mmul N B A) =[N]= A) by exact iso.
    rewrite GG, (scalr N). unfold G. rewrite !(addl N), !(addr N), !(scall N), iso0, iso'.
    assert (Z1 : mmul N A (mmul N A B) =[N]= mzero) by (rewrite <- (mulA N), sq; apply mul0l).
    assert (Z2 : mmul N B (mmul N B A) =[N]= mzero) by (rewrite <- (mulA N), sq'; apply mul0l).
    rewrite Z1, Z2. constructor. intros r c _ _. unfold madd, mscal, mzero. ring.
  Qed.
End Cube.

Lemma generator_split m t (p : Cx) r c : generator m t p r c = cmul p (cadd (excite m t r c) (copp (madj (excite m t) r c))).
Proof. unfold generator. ring. Qed.
Theorem generator_cube N m t : length t = (2 * m)%nat -> (forall i, In i t -> (i < N)%nat) ->
  let G : mat Cx := generator m t c1 in mmul N G (mmul N G G) =[N]= mscal (copp c1) G.
Proof.
  intros HL HN. cbv zeta. set (G := generator m t c1 : mat Cx).
  destruct (fermi_new_spec Cx c1 (rdme_letters t) N) as [s [x [E [Ls [M X]]]]]; [now apply (letters_lt m)|].
  assert (EX : forall r c, excite m t r c = cmul x (fstr_mat s r c)) by (intros r c; rewrite (M r c), (excite_letters Cx m t HL); ring).
  assert (Z : G =[N]= mzero -> mmul N G (mmul N G G) =[N]= mscal (copp c1) G).
  { intro Z. rewrite Z, (mul0l N). constructor. intros r c _ _. unfold mscal, mzero. ring. }
  assert (XP : x = c0 \/ pm Cx x) by (destruct X as [X|[X|X]]; [right; left; exact X|right; right; exact X|left; exact X]).
  destruct XP as [XP|XP].
  { apply Z. constructor. intros r c _ _. unfold G. rewrite generator_split. unfold madj, mzero. rewrite !EX, XP. rewrite cconj_mul, cconj_0. ring. }
  set (A := excite m t : mat Cx).
  assert (GA : G =[N]= madd A (mscal (copp c1) (madj A))) by (constructor; intros r c _ _; unfold G; rewrite generator_split; unfold madd, mscal, A; ring).
  assert (EA : A =[N]= mscal x (fstr_mat s)) by (constructor; intros r c _ _; apply EX).
  assert (EB : madj A =[N]= mscal x (madj (fstr_mat s))).
  { rewrite (madj_same N _ _ EA). constructor. intros r c _ _. unfold madj, mscal. rewrite cconj_mul, (pm_conj Cx x XP). reflexivity. }
  destruct (list_eq_dec (fun a b : option fop => ltac:(decide equality; decide equality) : {a = b} + {a <> b}) (adjs s) s) as [SA|SA].
  - apply Z. rewrite GA, EB, EA. destruct (adjs_mat Cx N s Ls) as [w [Pw AW]]. destruct (supp_diag s SA) as [r0 [Lr Sr]].
    pose proof (supp_mat Cx s r0 r0 Lr Lr) as Y. rewrite Sr in Y. rewrite Ls in Lr. pose proof (AW r0 r0 Lr Lr) as Q. rewrite SA, (pm_conj Cx _ Y) in Q.
    assert (W1 : w = c1). { apply (pm_cancel Cx _ _ (fstr_mat s r0 r0) cx_domain (pm_ne Cx _ Y)). transitivity (cmul w (fstr_mat s r0 r0)); [ring|]. rewrite <- Q. ring. }
    constructor. intros r c Hr Hc. unfold madd, mscal, mzero, madj. rewrite (AW r c Hr Hc) || idtac. pose proof (AW r c Hr Hc) as R0. rewrite SA, W1 in R0. rewrite R0 at 1. ring.
  - rewrite GA. apply cube_of.
    + rewrite EA, (scall N), (scalr N), (E_E N s Ls SA). constructor. intros r c _ _. unfold mscal, mzero. ring.
    + rewrite EB, EA, !(scall N), !(scalr N), (E_Ed_E N s Ls). constructor. intros r c _ _. unfold mscal.
      transitivity (cmul (cmul x x) (cmul x (fstr_mat s r c))); [ring|]. rewrite (pm_sq Cx x XP). ring.
Qed.
