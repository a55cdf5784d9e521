(** The quantum residual: gates, several rounds, several Hamiltonians. *)
From Coq Require Import Bool List Arith Reals Lra Lia Ring.
From Verif Require Import Coeff MatSpec MatLemmas AdjProofs OpSpec CircuitSpec CircuitModel CircuitProofs CircuitProofs2 FockSpec RdmSpec HamSpec ResSpec ResModel
  ComplexR QuantModel QuantSpec QuantProofs.
Import ListNotations.
Local Open Scope R_scope.
Add Ring CxRing2 : (c_ring Cx).
Notation pop := (list (list pauli * Cx)).

Fixpoint sumop (l : list (R * list pauli)) : mat Cx :=
  match l with [] => mzero | (w, s) :: l' => madd (mscal ((w, 0) : Cx) (pmat s)) (sumop l') end.
Lemma pmat_id s : existsb (fun p => negb (pauli_eqb p PI)) s = false -> meq (length s) (pmat s : mat Cx) mone.
Proof.
  induction s as [|p s IH]; intros E r c Lr Lc.
  - destruct r; [|discriminate]. destruct c; [|discriminate]. reflexivity.
  - destruct r as [|x r]; [discriminate|]. destruct c as [|y c]; [discriminate|]. cbn [existsb] in E.
    apply Bool.orb_false_iff in E. destruct E as [E1 E2]. destruct p; try discriminate E1. injection Lr as Lr. injection Lc as Lc.
    cbn [pmat]. rewrite (IH E2 r c Lr Lc). unfold mone. cbn [pauli1 bits_eqb]. destruct x, y; cbn [Bool.eqb andb]; destruct (bits_eqb r c); ring.
Qed.
Lemma sumop_gen N l : (forall w s, In (w, s) l -> length s = N) -> exists x : Cx, meq N (sumop l) (madd (gen l) (mscal x mone)).
Proof.
  induction l as [|[w s] l IH]; intro L.
  - exists c0. intros r c _ _. cbn [sumop gen]. unfold madd, mscal, mzero. ring.
  - destruct (IH (fun w' s' I => L w' s' (or_intror I))) as [x Hx]. pose proof (L w s (or_introl eq_refl)) as Ls. cbn [sumop gen].
    destruct (existsb (fun p => negb (pauli_eqb p PI)) s) eqn:E.
    + exists x. intros r c Lr Lc. pose proof (Hx r c Lr Lc) as e. unfold madd, mscal in *. rewrite e. ring.
    + exists (cadd ((w, 0) : Cx) x). intros r c Lr Lc. pose proof (Hx r c Lr Lc) as e. unfold madd, mscal, mzero in *. rewrite e.
      subst N. rewrite (pmat_id s E r c Lr Lc). ring.
Qed.
Lemma comm_shift N (A B : mat Cx) x : meq N (comm N A (madd B (mscal x mone))) (comm N A B).
Proof.
  intros r c Lr Lc. unfold comm.
  assert (E1 : mmul N A (madd B (mscal x mone)) r c = cadd (mmul N A B r c) (cmul x (mmul N A mone r c))).
  { unfold mmul, madd, mscal. rewrite <- sumbits_scal, <- sumbits_add. apply sumbits_ext. intros; ring. }
  assert (E2 : mmul N (madd B (mscal x mone)) A r c = cadd (mmul N B A r c) (cmul x (mmul N mone A r c))).
  { unfold mmul, madd, mscal. rewrite <- sumbits_scal, <- sumbits_add. apply sumbits_ext. intros; ring. }
  rewrite E1, E2, (mmul_one_r Cx N A r c Lr Lc), (mmul_one_l Cx N A r c Lr Lc). ring.
Qed.
Lemma comm_meq_r N (A B B' : mat Cx) : meq N B B' -> meq N (comm N A B) (comm N A B').
Proof.
  intros E r c Lr Lc. unfold comm. rewrite (mmul_meq Cx N A A B B' (meq_refl Cx N A) E r c Lr Lc), (mmul_meq Cx N B B' A A E (meq_refl Cx N A) r c Lr Lc). reflexivity.
Qed.
Lemma comm_gen N A l : (forall w s, In (w, s) l -> length s = N) -> meq N (comm N A (gen l)) (comm N A (sumop l)).
Proof.
  intro L. destruct (sumop_gen N l L) as [x Hx]. eapply meq_trans; [apply meq_sym, (comm_shift N A (gen l) x)|]. apply comm_meq_r, meq_sym. exact Hx.
Qed.

(** Rates of the rounds. *)
Definition rates (v : R) (H : pop) : list (R * list pauli) := map (fun e => (v * fst (snd e), fst e)) H.
Lemma rates_omat v N (H : pop) r c : real_op N H -> sumop (rates v H) r c = cmul ((v, 0) : Cx) (omat H r c).
Proof.
  induction H as [|[s x] H IH]; intro L; cbn [rates map sumop omat fst snd].
  - unfold mzero. ring.
  - fold (rates v H). unfold madd, mscal. rewrite IH by (intros s' x' I; apply (L s' x'); right; exact I).
    destruct (L s x (or_introl eq_refl)) as [_ E]. replace ((v * fst x, 0) : Cx) with (cmul ((v, 0) : Cx) x); [ring|].
    apply C_eq; cbn; rewrite E; ring.
Qed.
Lemma sumop_app l l' r c : sumop (l ++ l') r c = cadd (sumop l r c) (sumop l' r c).
Proof. induction l as [|[w s] l IH]; cbn [app sumop]; unfold madd, mzero in *; [ring|rewrite IH; ring]. Qed.
Lemma sumop_rounds l n r c : sumop (concat (repeat l n)) r c = cmul ((INR n, 0) : Cx) (sumop l r c).
Proof.
  induction n as [|n IH]; cbn [repeat concat].
  - cbn [sumop INR]. unfold mzero. change ((0, 0) : Cx) with (c0 : Cx). ring.
  - rewrite sumop_app, IH, S_INR. replace ((INR n + 1, 0) : Cx) with (cadd ((INR n, 0) : Cx) c1) by (apply C_eq; cbn; ring). ring.
Qed.
Lemma rounds_omat N n (H : pop) : (0 < n)%nat -> real_op N H -> meq N (sumop (concat (repeat (rates (/ INR n) H) n))) (omat H).
Proof.
  intros Hn L r c _ _. rewrite sumop_rounds, (rates_omat _ N) by exact L.
  transitivity (cmul (cmul ((INR n, 0) : Cx) ((/ INR n, 0) : Cx)) (omat H r c)); [ring|].
  replace (cmul ((INR n, 0) : Cx) ((/ INR n, 0) : Cx)) with (c1 : Cx); [ring|].
  assert (INR n <> 0) by (apply not_0_INR; lia). apply C_eq; cbn; [field; assumption|ring].
Qed.
Lemma rounds_len N v n (H : pop) : real_op N H -> forall w s, In (w, s) (concat (repeat (rates v H) n)) -> length s = N.
Proof.
  intros L w s I. apply in_concat in I. destruct I as [x [I1 I2]]. apply repeat_spec in I1. subst x.
  unfold rates in I2. apply in_map_iff in I2. destruct I2 as [[s' y] [E I2]]. injection E as _ <-. exact (proj1 (L s' y I2)).
Qed.
Lemma map_repeat {A B} (f : A -> B) x n : map f (repeat x n) = repeat (f x) n.
Proof. induction n as [|n IH]; [reflexivity|]. cbn [repeat map]. now rewrite IH. Qed.
Lemma apply_h_rated v n t (H : pop) : apply_h chalf_angle n ((v, 0) : Cx) ((t, 0) : Cx) H = rated (concat (repeat (rates v H) n)) t.
Proof.
  unfold apply_h, rated. rewrite concat_map, map_repeat. f_equal. f_equal. unfold apply_h_round, rates. rewrite map_map.
  apply map_ext. intros [s x]. cbn [fst snd]. f_equal. unfold chalf_angle. 
  replace (fst (cmul (cmul ((v, 0) : Cx) ((t, 0) : Cx)) (@re Cx x))) with (fst ((v * fst x * t, 0) : Cx)); [reflexivity|].
  unfold re. cbn. field.
Qed.

Lemma im_snd (x : Cx) : im x = (snd x, 0).
Proof. unfold im. apply C_eq; cbn; field. Qed.
Lemma re_expect_fst N (A : mat Cx) psi : re_expect N A psi = (fst (expect N A psi), 0).
Proof. unfold re_expect. apply C_eq; cbn; field. Qed.

Section Limit.
  Variable N n : nat.
  Hypothesis Hn : (0 < n)%nat.
  Variable phi : bits -> Cx.
  Variable ansatz : list (gate Cx).
  Notation psi := (mvec N (cmat Crt N ansatz) phi).
  Let run (H : pop) (d : R) := run_expiH Crt chalf_angle N phi ansatz n ((/ INR n, 0) : Cx) ((d, 0) : Cx) ((/ d, 0) : Cx) H.

  Lemma expect_state_ext (A : mat Cx) f g : (forall r, length r = N -> f r = g r) -> expect N A f = expect N A g.
  Proof.
    intro E. unfold expect. apply sumbits_ext. intros r Lr. rewrite (E r Lr). f_equal. unfold mvec. apply sumbits_ext. intros c Lc. now rewrite (E c Lc).
  Qed.
  Lemma run_value H d i k j l : real_op N H ->
    run H d i k j l = (snd (expect N (fock_mat (rdm_letters [i; k] [j; l])) (mvec N (exp_seq N (rated (concat (repeat (rates (/ INR n) H) n)) d)) psi)) * / d, 0).
  Proof.
    intro L. unfold run, run_expiH, rdm_of. rewrite im_snd. unfold quant_gates. rewrite apply_h_rated.
    rewrite (expect_state_ext _ _ (mvec N (exp_seq N (rated (concat (repeat (rates (/ INR n) H) n)) d)) psi)).
    - apply C_eq; cbn [Cx cmul Cmul fst snd]; ring.
    - intros r Lr. rewrite (mvec_meq Cx N _ _ phi r (cmat_app Cx Crt N _ _) Lr), mvec_mmul. apply mvec_meq; [|exact Lr].
      apply gadget_seq; [exact Crt_sq|]. intros v s I. unfold rated in I. apply in_map_iff in I. destruct I as [[w s'] [E I]].
      injection E as _ <-. exact (rounds_len N _ n H L w s' I).
  Qed.
  Lemma run_limit H i k j l : real_op N H -> snd (rdm_of N psi [i; k] [j; l]) = 0 ->
    tends_to (fun d => fst (run H d i k j l)) (fst (re_expect N (comm N (fock_mat (rdm_letters [i; k] [j; l])) (omat H)) psi)).
  Proof.
    intros L Z. rewrite re_expect_fst. set (A := fock_mat (rdm_letters [i; k] [j; l])).
    pose proof (CD_average N (concat (repeat (rates (/ INR n) H) n)) A psi (rounds_len N _ n H L)) as [_ D].
    rewrite (expect_meq Cx N _ (comm N A (omat H))) in D
      by (eapply meq_trans; [apply comm_gen, (rounds_len N _ n H L)|apply comm_meq_r, rounds_omat; assumption]).
    cbn [Cx cmul ci Cmul Ci fst snd] in D.
    intros eps He. destruct (D eps He) as [d Hd]. exists (pos d). split; [apply cond_pos|]. intros x Hx Hxd.
    specialize (Hd x Hx Hxd). rewrite Rplus_0_l in Hd. rewrite run_value by exact L. cbn [fst]. fold A.
    assert (V0 : snd (expect N A (mvec N (exp_seq N (rated (concat (repeat (rates (/ INR n) H) n)) 0)) psi)) = 0).
    { transitivity (snd (rdm_of N psi [i; k] [j; l])); [|exact Z]. unfold rdm_of. fold A. f_equal. apply expect_state_ext. intros r Lr.
      transitivity (mvec N mone psi r); [apply mvec_meq; [exact (proj1 (MD_seq N _))|exact Lr]|].
      transitivity (mvec N (mmul N mone (cmat Crt N ansatz)) phi r); [symmetry; apply mvec_mmul|].
      apply mvec_meq; [apply mmul_one_l|exact Lr]. }
    rewrite V0 in Hd. match goal with |- Rabs (?u * / x - ?v) < eps => replace (u * / x - v) with ((u - 0) / x - (0 * snd (expect N (comm N A (omat H)) psi) + 1 * fst (expect N (comm N A (omat H)) psi)))
      by (field; exact Hx) end. exact Hd.
  Qed.

  Lemma tends_add f g a b : tends_to f a -> tends_to g b -> tends_to (fun x => f x + g x) (a + b).
  Proof.
    intros F G eps He. destruct (F (eps / 2)) as [d1 [P1 H1]]; [lra|]. destruct (G (eps / 2)) as [d2 [P2 H2]]; [lra|].
    exists (Rmin d1 d2). split; [apply Rmin_glb_lt; assumption|]. intros x Hx Hd.
    specialize (H1 x Hx (Rlt_le_trans _ _ _ Hd (Rmin_l _ _))). specialize (H2 x Hx (Rlt_le_trans _ _ _ Hd (Rmin_r _ _))).
    replace (f x + g x - (a + b)) with ((f x - a) + (g x - b)) by ring.
    eapply Rle_lt_trans; [apply Rabs_triang|lra].
  Qed.
  Lemma tends_ext f g a b : (forall x, x <> 0 -> f x = g x) -> a = b -> tends_to f a -> tends_to g b.
  Proof. intros E <- F eps He. destruct (F eps He) as [d [P H]]. exists d. split; [exact P|]. intros x Hx Hd. rewrite <- E by exact Hx. apply H; assumption. Qed.
  Lemma comm_concat (A : mat Cx) (H H' : pop) : meq N (comm N A (omat (H ++ H'))) (madd (comm N A (omat H)) (comm N A (omat H'))).
  Proof.
    assert (E : forall r c, omat (H ++ H') r c = cadd (omat H r c) (omat H' r c)).
    { intros r c. induction H as [|[s x] H0 IH]; cbn [app omat]; unfold madd, mscal, mzero in *; [ring|rewrite IH; ring]. }
    intros r c _ _. unfold comm, madd, mmul.
    transitivity (csub (sumbits N (fun k => cadd (cmul (A r k) (omat H k c)) (cmul (A r k) (omat H' k c))))
                       (sumbits N (fun k => cadd (cmul (omat H r k) (A k c)) (cmul (omat H' r k) (A k c))))).
    - f_equal; apply sumbits_ext; intros k _; rewrite E; ring.
    - rewrite !sumbits_add. ring.
  Qed.
  Lemma re_expect_add (A B : mat Cx) f : fst (re_expect N (madd A B) f) = fst (re_expect N A f) + fst (re_expect N B f).
  Proof.
    rewrite !re_expect_fst. cbn [fst]. change (fst (expect N A f) + fst (expect N B f)) with (fst (cadd (expect N A f) (expect N B f))). f_equal.
    unfold expect. rewrite <- sumbits_add. apply sumbits_ext. intros r _.
    replace (mvec N (madd A B) f r) with (cadd (mvec N A f r) (mvec N B f r)); [ring|].
    unfold mvec, madd. rewrite <- sumbits_add. apply sumbits_ext. intros; ring.
  Qed.
  Lemma re_expect_meq (A B : mat Cx) f : meq N A B -> re_expect N A f = re_expect N B f.
  Proof. intro E. unfold re_expect. now rewrite (expect_meq Cx N A B f E). Qed.

  Theorem array_limit (Hs : list pop) i k j l : Hs <> [] -> (forall H, In H Hs -> real_op N H) -> snd (rdm_of N psi [i; k] [j; l]) = 0 ->
    tends_to (fun d => match quant_array Crt chalf_angle N phi ansatz n ((/ INR n, 0) : Cx) ((d, 0) : Cx) ((/ d, 0) : Cx) Hs with
                       | Some A => fst (A i k j l) | None => 0 end)
      (fst (re_expect N (comm N (fock_mat (rdm_letters [i; k] [j; l])) (omat (concat Hs))) psi)).
  Proof.
    destruct Hs as [|H Hs]; [contradiction|]. intros _ L Z. cbn [quant_array].
    assert (G : forall (Hs : list pop) (B : R -> nat -> nat -> nat -> nat -> Cx) (H : pop), (forall H', In H' Hs -> real_op N H') ->
      tends_to (fun d => fst (B d i k j l)) (fst (re_expect N (comm N (fock_mat (rdm_letters [i; k] [j; l])) (omat H)) psi)) ->
      tends_to (fun d => fst (fold_left (fun A H' => fun i k j l => cadd (A i k j l) (run H' d i k j l)) Hs (B d) i k j l))
        (fst (re_expect N (comm N (fock_mat (rdm_letters [i; k] [j; l])) (omat (H ++ concat Hs))) psi))).
    { clear H Hs L. induction Hs as [|H' Hs IH]; intros B H L T.
      - cbn [fold_left concat]. rewrite app_nil_r. exact T.
      - cbn [fold_left concat]. rewrite app_assoc.
        apply (IH (fun d i k j l => cadd (B d i k j l) (run H' d i k j l)) (H ++ H')); [intros H0 I; apply L; right; exact I|].
        eapply tends_ext; [| |exact (tends_add _ _ _ _ T (run_limit H' i k j l (L H' (or_introl eq_refl)) Z))].
        + intros x _. reflexivity.
        + rewrite (re_expect_meq _ _ _ (comm_concat _ H H')). symmetry. apply re_expect_add. }
    cbn [concat]. apply (G Hs (fun d => run H d) H); [intros H' I; apply L; right; exact I|].
    apply run_limit; [apply L; left; reflexivity|exact Z].
  Qed.
End Limit.
