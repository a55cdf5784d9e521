(** The quantum residual tends to the commutator average as the step goes to 0. *)
From Coq Require Import Bool List Arith Reals Lra Lia Ring.
From Verif Require Import Coeff MatSpec MatLemmas AdjProofs OpSpec CircuitSpec CircuitModel CircuitProofs CircuitProofs2 FockSpec RdmSpec HamSpec ResSpec ResModel
  ComplexR QuantModel QuantSpec.
Import ListNotations.
Local Open Scope R_scope.

Add Ring CxRing : (c_ring Cx).

(** Derivative at 0 of a complex function of a real variable. *)
Definition CD (f : R -> Cx) (d : Cx) : Prop :=
  derivable_pt_lim (fun t => fst (f t)) 0 (fst d) /\ derivable_pt_lim (fun t => snd (f t)) 0 (snd d).
Lemma CD_const (x : Cx) : CD (fun _ => x) c0.
Proof. split; apply (derivable_pt_lim_const _ 0). Qed.
Lemma CD_add f g (a b : Cx) : CD f a -> CD g b -> CD (fun t => cadd (f t) (g t)) (cadd a b).
Proof. intros [A B] [E F]. split; [exact (derivable_pt_lim_plus _ _ _ _ _ A E)|exact (derivable_pt_lim_plus _ _ _ _ _ B F)]. Qed.
Lemma CD_conj f (a : Cx) : CD f a -> CD (fun t => cconj (f t)) (cconj a).
Proof. intros [A B]. split; [exact A|exact (derivable_pt_lim_opp _ _ _ B)]. Qed.
Lemma CD_mul f g (a b : Cx) : CD f a -> CD g b -> CD (fun t => cmul (f t) (g t)) (cadd (cmul a (g 0)) (cmul (f 0) b)).
Proof.
  intros [A B] [E F]. split.
  - pose proof (derivable_pt_lim_minus _ _ _ _ _ (derivable_pt_lim_mult _ _ _ _ _ A E) (derivable_pt_lim_mult _ _ _ _ _ B F)) as H.
    cbn [Cx cmul cadd Cmul Cadd fst snd]. match goal with |- derivable_pt_lim _ 0 ?x => replace x with
      (fst a * fst (g 0) + fst (f 0) * fst b - (snd a * snd (g 0) + snd (f 0) * snd b)) by ring end. exact H.
  - pose proof (derivable_pt_lim_plus _ _ _ _ _ (derivable_pt_lim_mult _ _ _ _ _ A F) (derivable_pt_lim_mult _ _ _ _ _ B E)) as H.
    cbn [Cx cmul cadd Cmul Cadd fst snd]. match goal with |- derivable_pt_lim _ 0 ?x => replace x with
      (fst a * snd (g 0) + fst (f 0) * snd b + (snd a * fst (g 0) + snd (f 0) * fst b)) by ring end. exact H.
Qed.
Lemma CD_ext f g (a b : Cx) : (forall t, f t = g t) -> a = b -> CD f a -> CD g b.
Proof.
  intros E <- [A B]. split; [intros eps He; destruct (A eps He) as [d Hd]|intros eps He; destruct (B eps He) as [d Hd]];
    exists d; intros h H1 H2; rewrite <- !E; apply Hd; assumption.
Qed.
Lemma CD_sumbits N : forall (f : R -> bits -> Cx) (d : bits -> Cx), (forall b, length b = N -> CD (fun t => f t b) (d b)) ->
  CD (fun t => sumbits N (f t)) (sumbits N d).
Proof.
  induction N as [|N IH]; intros f d H; [exact (H [] eq_refl)|]. cbn [sumbits].
  apply (CD_add (fun t => sumbits N (fun b => f t (false :: b))) (fun t => sumbits N (fun b => f t (true :: b)))).
  - apply (IH (fun t b => f t (false :: b)) (fun b => d (false :: b))). intros b L. apply H. cbn. now rewrite L.
  - apply (IH (fun t b => f t (true :: b)) (fun b => d (true :: b))). intros b L. apply H. cbn. now rewrite L.
Qed.

(** Value and derivative at 0 of a matrix. *)
Definition MD (N : nat) (F : R -> mat Cx) (A D : mat Cx) : Prop :=
  meq N (F 0) A /\ forall r c, length r = N -> length c = N -> CD (fun t => F t r c) (D r c).
Lemma MD_ext N F G A D : (forall t, meq N (F t) (G t)) -> MD N F A D -> MD N G A D.
Proof.
  intros E [V H]. split; [eapply meq_trans; [apply meq_sym, E|exact V]|]. intros r c Lr Lc.
  apply (CD_ext (fun t => F t r c) (fun t => G t r c) (D r c) (D r c)); [intro t; apply E; assumption|reflexivity|apply H; assumption].
Qed.
Lemma MD_const N (A : mat Cx) : MD N (fun _ => A) A mzero.
Proof. split; [apply meq_refl|]. intros. apply CD_const. Qed.
Lemma MD_adj N F A D : MD N F A D -> MD N (fun t => madj (F t)) (madj A) (madj D).
Proof.
  intros [V H]. split; [intros r c Lr Lc; unfold madj; now rewrite V|]. intros r c Lr Lc. unfold madj.
  exact (CD_conj _ _ (H c r Lc Lr)).
Qed.
Lemma MD_mul N F G A B D E : MD N F A D -> MD N G B E -> MD N (fun t => mmul N (F t) (G t)) (mmul N A B) (madd (mmul N D B) (mmul N A E)).
Proof.
  intros [V H] [W J]. split; [apply mmul_meq; assumption|]. intros r c Lr Lc. unfold madd, mmul. rewrite <- sumbits_add.
  apply (CD_sumbits N (fun t k => cmul (F t r k) (G t k c))). intros k Lk.
  pose proof (CD_mul (fun t => F t r k) (fun t => G t k c) _ _ (H r k Lr Lk) (J k c Lk Lc)) as M. cbv beta in M.
  rewrite (V r k Lr Lk), (W k c Lk Lc) in M. exact M.
Qed.
Lemma CD_expect N F A D psi : MD N F A D -> CD (fun t => expect N (F t) psi) (expect N D psi).
Proof.
  intros [_ H]. unfold expect, mvec. apply (CD_sumbits N (fun t r => cmul (cconj (psi r)) (sumbits N (fun c => cmul (F t r c) (psi c))))).
  intros r Lr. eapply CD_ext; [reflexivity| |apply (CD_mul (fun _ => cconj (psi r)) (fun t => sumbits N (fun c => cmul (F t r c) (psi c))));
    [apply CD_const|apply (CD_sumbits N (fun t c => cmul (F t r c) (psi c)) (fun c => cmul (D r c) (psi c)))]].
  - ring.
  - intros c Lc. eapply CD_ext; [reflexivity| |apply (CD_mul (fun t => F t r c) (fun _ => psi c)); [apply H; assumption|apply CD_const]]. ring.
Qed.

Lemma cos_of_half x : cos_of (chalf_angle x) = (cos (fst x), 0).
Proof.
  unfold cos_of, chalf_angle. cbn [fst snd]. apply C_eq; cbn [Cx cmul csub Cmul Csub fst snd]; [|ring].
  replace (fst x) with (2 * (fst x / 2)) at 5 by field. rewrite cos_2a. ring.
Qed.
Lemma sin_of_half x : sin_of (chalf_angle x) = (sin (fst x), 0).
Proof.
  unfold sin_of, chalf_angle. cbn [fst snd]. apply C_eq; cbn [Cx cmul cadd c1 Cmul Cadd C1 fst snd]; [|ring].
  replace (fst x) with (2 * (fst x / 2)) at 5 by field. rewrite sin_2a. ring.
Qed.

(** The exponentials of strings with rates [w]. *)
Definition rated (l : list (R * list pauli)) (t : R) : list (angle Cx * list pauli) :=
  map (fun e => (chalf_angle (fst e * t, 0), snd e)) l.
(** The generator; strings without letters give no gates. *)
Fixpoint gen (l : list (R * list pauli)) : mat Cx :=
  match l with
  | [] => mzero
  | (w, s) :: l' => madd (mscal ((w, 0) : Cx) (if existsb (fun p => negb (pauli_eqb p PI)) s then pmat s else mzero)) (gen l')
  end.
Lemma cos_lim w : derivable_pt_lim (fun t => cos (w * t)) 0 0.
Proof.
  pose proof (derivable_pt_lim_comp (fun t => w * t) cos 0 w 0) as H. replace 0 with (0 * w) at 2 by ring. apply H.
  - pose proof (derivable_pt_lim_scal id w 0 1 (derivable_pt_lim_id 0)) as J. rewrite Rmult_1_r in J. exact J.
  - replace (w * 0) with 0 by ring. pose proof (derivable_pt_lim_cos 0) as J. rewrite sin_0, Ropp_0 in J. exact J.
Qed.
Lemma sin_lim w : derivable_pt_lim (fun t => sin (w * t)) 0 w.
Proof.
  pose proof (derivable_pt_lim_comp (fun t => w * t) sin 0 w 1) as H. rewrite Rmult_1_l in H. apply H.
  - pose proof (derivable_pt_lim_scal id w 0 1 (derivable_pt_lim_id 0)) as J. rewrite Rmult_1_r in J. exact J.
  - replace (w * 0) with 0 by ring. pose proof (derivable_pt_lim_sin 0) as J. rewrite cos_0 in J. exact J.
Qed.
Lemma MD_item N w s : MD N (fun t => exp_item (chalf_angle (w * t, 0)) s) mone
  (mscal ci (mscal ((w, 0) : Cx) (if existsb (fun p => negb (pauli_eqb p PI)) s then pmat s else mzero))).
Proof.
  unfold exp_item. destruct (existsb _ s).
  - split.
    + intros r c _ _. unfold madd, mscal. rewrite cos_of_half, sin_of_half. cbn [fst]. rewrite Rmult_0_r, cos_0, sin_0.
      change ((1, 0) : Cx) with (c1 : Cx). change ((0, 0) : Cx) with (c0 : Cx). ring.
    + intros r c _ _. unfold madd, mscal.
      apply (CD_ext (fun t => cadd (cmul ((cos (w * t), 0) : Cx) (mone r c)) (cmul (cmul ci ((sin (w * t), 0) : Cx)) (pmat s r c))) _
        (cadd (cmul c0 (mone r c)) (cmul (cmul ci ((w, 0) : Cx)) (pmat s r c))) _).
      * intro t. rewrite cos_of_half, sin_of_half. reflexivity.
      * ring.
      * apply CD_add.
        -- eapply CD_ext; [reflexivity| |apply (CD_mul (fun t => ((cos (w * t), 0) : Cx)) (fun _ => mone r c) c0 c0);
             [split; [apply cos_lim|apply (derivable_pt_lim_const 0 0)]|apply CD_const]]. ring.
        -- eapply CD_ext; [reflexivity| |apply (CD_mul (fun t => cmul ci ((sin (w * t), 0) : Cx)) (fun _ => pmat s r c) (cmul ci ((w, 0) : Cx)) c0); [|apply CD_const]]; [ring|].
           eapply CD_ext; [reflexivity| |apply (CD_mul (fun _ => ci) (fun t => ((sin (w * t), 0) : Cx)) c0 ((w, 0) : Cx));
             [apply CD_const|split; [apply sin_lim|apply (derivable_pt_lim_const 0 0)]]]. ring.
  - eapply MD_ext; [intro; apply meq_refl|]. destruct (MD_const N mone) as [V H]. split; [exact V|]. intros r c Lr Lc.
    eapply CD_ext; [reflexivity| |exact (H r c Lr Lc)]. unfold mscal, mzero. ring.
Qed.
Lemma MD_congr N F A A' D D' : meq N A A' -> meq N D D' -> MD N F A D -> MD N F A' D'.
Proof.
  intros EA ED [V H]. split; [eapply meq_trans; eassumption|]. intros r c Lr Lc.
  eapply CD_ext; [reflexivity|apply ED; assumption|apply H; assumption].
Qed.
Lemma MD_seq N l : MD N (fun t => exp_seq N (rated l t)) mone (mscal ci (gen l)).
Proof.
  induction l as [|[w s] l IH].
  - destruct (MD_const N (@mone Cx)) as [V H]. split; [exact V|]. intros r c Lr Lc. eapply CD_ext; [reflexivity| |exact (H r c Lr Lc)].
    cbn [gen]. unfold mscal, mzero. ring.
  - cbn [rated map exp_seq gen fst snd]. eapply MD_congr; [| |apply (MD_mul N (fun t => exp_seq N (rated l t)) (fun t => exp_item (chalf_angle (w * t, 0)) s));
      [exact IH|apply MD_item]].
    + apply mmul_one_l.
    + intros r c Lr Lc. unfold madd. rewrite (mmul_one_r Cx N _ r c Lr Lc), (mmul_one_l Cx N _ r c Lr Lc). unfold mscal, madd. ring.
Qed.

Lemma gen_adj N l : (forall w s, In (w, s) l -> length s = N) -> meq N (madj (gen l)) (gen l).
Proof.
  induction l as [|[w s] l IH]; intro L; intros r c Lr Lc.
  - unfold madj, gen, mzero. apply cconj_0.
  - cbn [gen]. unfold madj, madd, mscal. rewrite cconj_add, cconj_mul.
    pose proof (IH (fun w' s' I => L w' s' (or_intror I)) r c Lr Lc) as E. unfold madj in E. rewrite E. f_equal. f_equal.
    + apply C_eq; cbn; ring.
    + destruct (existsb _ s); [|apply cconj_0]. exact (pmat_adj Cx s N (L w s (or_introl eq_refl)) r c Lr Lc).
Qed.

(** The average in the state after the exponentials. *)
Lemma CD_average N l (A : mat Cx) psi : (forall w s, In (w, s) l -> length s = N) ->
  CD (fun t => expect N A (mvec N (exp_seq N (rated l t)) psi)) (cmul ci (expect N (comm N A (gen l)) psi)).
Proof.
  intro L.
  apply (CD_ext (fun t => expect N (mmul N (madj (exp_seq N (rated l t))) (mmul N A (exp_seq N (rated l t)))) psi) _
    (expect N (mscal ci (comm N A (gen l))) psi)).
  - intro t. rewrite expect_adj. unfold expect. apply sumbits_ext. intros b _. now rewrite mvec_mmul.
  - unfold expect. rewrite <- sumbits_scal. apply sumbits_ext. intros b _. unfold mvec, mscal.
    rewrite <- !sumbits_scal. apply sumbits_ext. intros k _. ring.
  - eapply CD_expect. eapply MD_congr; [apply meq_refl| |apply MD_mul; [apply MD_adj, (MD_seq N l)|apply MD_mul; [apply (MD_const N A)|apply (MD_seq N l)]]].
    intros r c Lr Lc. unfold madd at 1.
    assert (E1 : mmul N (madj (mscal ci (gen l))) (mmul N A mone) r c = mmul N (mscal (copp ci) (gen l)) A r c).
    { apply (mmul_meq Cx N); [|apply mmul_one_r|exact Lr|exact Lc].
      intros x y Lx Ly. unfold madj, mscal. rewrite cconj_mul, cconj_i. f_equal. exact (gen_adj N l L x y Lx Ly). }
    rewrite E1. clear E1.
    rewrite (mmul_meq Cx N (madj mone) mone (madd (mmul N mzero mone) (mmul N A (mscal ci (gen l)))) (mscal ci (mmul N A (gen l)))); try assumption.
    + rewrite (mmul_one_l Cx N _ r c Lr Lc). unfold mscal, comm. 
      replace (mmul N (fun r0 c0 => cmul (copp ci) (gen l r0 c0)) A r c) with (cmul (copp ci) (mmul N (gen l) A r c)).
      * ring.
      * unfold mmul. rewrite <- sumbits_scal. apply sumbits_ext. intros; ring.
    + apply mone_adj.
    + intros x y Lx Ly. unfold madd. replace (mmul N mzero mone x y) with (c0 : Cx).
      * unfold mmul, mscal. transitivity (sumbits N (fun k => cmul ci (cmul (A x k) (gen l k y)))).
        -- transitivity (cadd c0 (sumbits N (fun k => cmul (A x k) (cmul ci (gen l k y))))); [reflexivity|].
           transitivity (sumbits N (fun k => cmul (A x k) (cmul ci (gen l k y)))); [ring|]. apply sumbits_ext. intros; ring.
        -- apply sumbits_scal.
      * unfold mmul, mzero. symmetry. transitivity (sumbits N (fun _ => (c0 : Cx))); [apply sumbits_ext; intros; ring|apply sumbits_0].
Qed.
