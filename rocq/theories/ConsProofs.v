(** Exponentials of commuting strings conserve what their generator conserves. *)
From Coq Require Import Bool List Arith Reals Lra Lia Ring Setoid Morphisms.
From Verif Require Import Coeff MatSpec MatLemmas AdjProofs OpSpec CircuitSpec CircuitModel CircuitProofs CircuitProofs2 ComplexR TaperProofs2 QuantSpec QuantProofs QuantProofs2.
Import ListNotations.
Local Open Scope R_scope.

Add Ring CxRing : (c_ring Cx).
(** [meq] as a relation that [rewrite] treats as opaque. *)
Inductive same (N : nat) (A B : mat Cx) : Prop := Same : meq N A B -> same N A B.
Notation "A =[ N ]= B" := (same N A B) (at level 70).
Lemma un N A B : A =[N]= B -> meq N A B.
Proof. intros [H]. exact H. Qed.
Global Instance same_equiv N : Equivalence (same N).
Proof.
  split; [intro A; exact (Same _ _ _ (meq_refl Cx N A))|intros A B [H]; exact (Same _ _ _ (meq_sym Cx N _ _ H))|
    intros A B D [H] [J]; exact (Same _ _ _ (meq_trans Cx N _ _ _ H J))].
Qed.
Global Instance mmul_proper N : Proper (same N ==> same N ==> same N) (mmul N).
Proof. intros A A' [H] B B' [H']. constructor. exact (mmul_meq Cx N A A' B B' H H'). Qed.
Global Instance madd_proper N : Proper (same N ==> same N ==> same N) (@madd Cx).
Proof. intros A A' [H] B B' [H']. constructor. intros r c Lr Lc. unfold madd. now rewrite H, H'. Qed.
Global Instance mscal_proper N x : Proper (same N ==> same N) (mscal x).
Proof. intros A A' [H]. constructor. intros r c Lr Lc. unfold mscal. now rewrite H. Qed.
Section Alg.
  Variable N : nat.
  Implicit Types A B D : mat Cx.
  Lemma mulA A B D : mmul N (mmul N A B) D =[N]= mmul N A (mmul N B D).
  Proof. constructor. apply meq_sym, mmul_assoc. Qed.
  Lemma mul1l A : mmul N mone A =[N]= A. Proof. constructor. apply mmul_one_l. Qed.
  Lemma mul1r A : mmul N A mone =[N]= A. Proof. constructor. apply mmul_one_r. Qed.
  Lemma mul0l A : mmul N mzero A =[N]= mzero. Proof. constructor. apply mmul_zero_l. Qed.
  Lemma mul0r A : mmul N A mzero =[N]= mzero. Proof. constructor. apply mmul_zero_r. Qed.
  Lemma addl A B D : mmul N (madd A B) D =[N]= madd (mmul N A D) (mmul N B D). Proof. constructor. apply mmul_add_l. Qed.
  Lemma addr A B D : mmul N D (madd A B) =[N]= madd (mmul N D A) (mmul N D B). Proof. constructor. apply mmul_add_r. Qed.
  Lemma scall x A B : mmul N (mscal x A) B =[N]= mscal x (mmul N A B). Proof. constructor. apply mmul_scal_l. Qed.
  Lemma scalr x A B : mmul N A (mscal x B) =[N]= mscal x (mmul N A B). Proof. constructor. apply mmul_scal_r. Qed.
End Alg.

Definition commutes (N : nat) (A B : mat Cx) : Prop := mmul N A B =[N]= mmul N B A.
Lemma commutes_one N A : commutes N A mone.
Proof. unfold commutes. rewrite (mul1l N A), (mul1r N A). reflexivity. Qed.
Lemma commutes_sym N A B : commutes N A B -> commutes N B A.
Proof. unfold commutes. intro H. symmetry. exact H. Qed.
Lemma commutes_mul N A B D : commutes N A B -> commutes N A D -> commutes N A (mmul N B D).
Proof.
  unfold commutes. intros H J. rewrite <- (mulA N A B D), H, (mulA N B A D), J, <- (mulA N B D A). reflexivity.
Qed.
Lemma commutes_add N A B D : commutes N A B -> commutes N A D -> commutes N A (madd B D).
Proof. unfold commutes. intros H J. rewrite (addr N B D A), (addl N B D A), H, J. reflexivity. Qed.
Lemma commutes_scal N A x B : commutes N A B -> commutes N A (mscal x B).
Proof. unfold commutes. intros H. rewrite (scalr N x A B), (scall N x B A), H. reflexivity. Qed.
Lemma commutes_ext N A B B' : B =[N]= B' -> commutes N A B -> commutes N A B'.
Proof. unfold commutes. intros E H. rewrite <- E. exact H. Qed.

(** One item. *)
Definition item (w : R) (s : list pauli) (t : R) : mat Cx := exp_item (chalf_angle (w * t, 0)) s.
Lemma commutes_item N A w s t : commutes N A (pmat s) -> commutes N A (item w s t).
Proof.
  intro H. unfold item, exp_item. destruct (existsb _ s); [|apply commutes_one].
  apply commutes_add; apply commutes_scal; [apply commutes_one|exact H].
Qed.
Lemma item_add N w s t u : length s = N -> item w s (t + u) =[N]= mmul N (item w s t) (item w s u).
Proof.
  intro L. unfold item, exp_item. destruct (existsb _ s); [|rewrite (mul1l N mone); reflexivity].
  rewrite (addl N), !(addr N), !(scall N), !(scalr N), (mul1l N mone), (mul1l N (pmat s)), (mul1r N (pmat s)).
  assert (E : mmul N (pmat s) (pmat s) =[N]= @mone Cx) by (constructor; intros r c Lr Lc; apply (pmat_sq Cx s N L r c Lr Lc)). rewrite E.
  constructor. intros r c Lr Lc. unfold madd, mscal. rewrite !cos_of_half, !sin_of_half. cbn [fst].
  replace (w * (t + u)) with (w * t + w * u) by ring. rewrite cos_plus, sin_plus.
  generalize (cos (w * t)) (cos (w * u)) (sin (w * t)) (sin (w * u)) (@mone Cx r c) (@pmat Cx s r c). intros a b a' b' m p.
  apply C_eq; cbn; ring.
Qed.
Lemma item_zero N w s : item w s 0 =[N]= mone.
Proof. constructor. exact (proj1 (MD_item N w s)). Qed.

(** A list of items with pairwise commuting strings is a one-parameter group. *)
Definition commuting (N : nat) (l : list (R * list pauli)) : Prop :=
  forall w s w' s', In (w, s) l -> In (w', s') l -> length s = N /\ commutes N (pmat s) (pmat s').
Definition flow (N : nat) (l : list (R * list pauli)) (t : R) : mat Cx := exp_seq N (rated l t).
Lemma commutes_flow N A l t : (forall w s, In (w, s) l -> commutes N A (pmat s)) -> commutes N A (flow N l t).
Proof.
  induction l as [|[w s] l IH]; intro H; [apply commutes_one|]. unfold flow. cbn [rated map exp_seq fst snd].
  apply commutes_mul; [apply IH; intros w' s' I; apply (H w' s'); right; exact I|]. apply commutes_item. apply (H w s). left. reflexivity.
Qed.
Lemma flow_add N l t u : commuting N l -> flow N l (t + u) =[N]= mmul N (flow N l t) (flow N l u).
Proof.
  induction l as [|[w s] l IH]; intro H; [symmetry; apply (mul1l N mone)|].
  assert (H' : commuting N l) by (intros a b a' b' I I'; apply (H a b a' b'); right; assumption).
  destruct (H w s w s (or_introl eq_refl) (or_introl eq_refl)) as [L _].
  change (flow N ((w, s) :: l) (t + u)) with (mmul N (flow N l (t + u)) (item w s (t + u))).
  change (flow N ((w, s) :: l) t) with (mmul N (flow N l t) (item w s t)). change (flow N ((w, s) :: l) u) with (mmul N (flow N l u) (item w s u)).
  rewrite (IH H'), (item_add N w s t u L).
  assert (C : commutes N (item w s t) (flow N l u)).
  { apply commutes_sym, commutes_item, commutes_sym, commutes_flow. intros w' s' I. apply (H w s w' s'); [left; reflexivity|right; exact I]. }
  unfold commutes in C. rewrite !(mulA N). rewrite <- (mulA N (flow N l u) (item w s t) (item w s u)), <- C, (mulA N (item w s t)). reflexivity.
Qed.
Lemma flow_zero N l : flow N l 0 =[N]= mone.
Proof. constructor. exact (proj1 (MD_seq N l)). Qed.

(** The reversed flow. *)
Definition neg_rates (l : list (R * list pauli)) : list (R * list pauli) := map (fun e => (- fst e, snd e)) l.
Lemma rated_neg l t : rated (neg_rates l) t = rated l (- t).
Proof. unfold rated, neg_rates. rewrite map_map. apply map_ext. intros [w s]. cbn [fst snd]. replace (- w * t) with (w * - t) by ring. reflexivity. Qed.
Lemma gen_neg l r c : gen (neg_rates l) r c = copp (gen l r c).
Proof.
  induction l as [|[w s] l IH]; [unfold gen, mzero; cbn; apply C_eq; cbn; ring|]. cbn [neg_rates map gen fst snd]. fold (neg_rates l). unfold madd, mscal. rewrite IH.
  generalize (if existsb (fun p => negb (pauli_eqb p PI)) s then pmat s else @mzero Cx). intro M. apply C_eq; cbn; ring.
Qed.

(** The Heisenberg picture of a matrix along the flow is constant. *)
Definition heis (N : nat) (l : list (R * list pauli)) (D : mat Cx) (t : R) : mat Cx := mmul N (flow N l (- t)) (mmul N D (flow N l t)).
Lemma heis_add N l D t u : commuting N l -> heis N l D (t + u) =[N]= mmul N (flow N l (- t)) (mmul N (heis N l D u) (flow N l t)).
Proof.
  intro H. unfold heis. replace (- (t + u)) with (- t + - u) by ring. rewrite (flow_add N l (- t) (- u) H). rewrite (Rplus_comm t u), (flow_add N l u t H).
  rewrite !(mulA N). reflexivity.
Qed.
Lemma MD_heis N l D : commutes N D (gen l) -> MD N (heis N l D) D mzero.
Proof.
  intro H. unfold heis.
  apply (MD_ext N (fun t => mmul N (exp_seq N (rated (neg_rates l) t)) (mmul N D (exp_seq N (rated l t))))).
  { intro t. apply un. rewrite rated_neg. reflexivity. }
  eapply MD_congr; [| |apply MD_mul; [apply MD_seq|apply MD_mul; [apply MD_const|apply MD_seq]]]; apply un.
  - rewrite (mul1l N), (mul1r N). reflexivity.
  - rewrite (mul1r N D), (mul1l N), (mul0l N), (scall N), (scalr N).
    assert (E : mmul N (gen (neg_rates l)) D =[N]= mscal (copp c1) (mmul N (gen l) D)).
    { rewrite <- (scall N). apply mmul_proper; [|reflexivity]. constructor. intros r c _ _. rewrite gen_neg. unfold mscal. ring. }
    rewrite E. unfold commutes in H. rewrite H. constructor. intros r c _ _. unfold madd, mscal, mzero. ring.
Qed.
Lemma CD_shift (f : R -> Cx) t (d : Cx) : CD (fun u => f (t + u)) d -> derivable_pt_lim (fun x => fst (f x)) t (fst d) /\ derivable_pt_lim (fun x => snd (f x)) t (snd d).
Proof.
  intros [A B]. split; intros eps He; [destruct (A eps He) as [e H]|destruct (B eps He) as [e H]]; exists e; intros h H1 H2; specialize (H h H1 H2); cbv beta in H;
    rewrite Rplus_0_l, Rplus_0_r in H; exact H.
Qed.
Lemma null_const (f : R -> R) : (forall t, derivable_pt_lim f t 0) -> forall x, f x = f 0.
Proof.
  intro H. assert (pr : derivable f) by (intro t; exists 0; apply H). pose proof (null_derivative_1 f pr) as C.
  intro x. apply C. intro t. unfold derive_pt. destruct (pr t) as [v Hv]. cbn. apply (uniqueness_limite f t); [exact Hv|apply H].
Qed.
Lemma heis_const N l D t : commuting N l -> commutes N D (gen l) -> heis N l D t =[N]= D.
Proof.
  intros H G. constructor. intros r c Lr Lc. transitivity (heis N l D 0 r c).
  2:{ exact (proj1 (MD_heis N l D G) r c Lr Lc). }
  assert (Z : forall t, CD (fun u => heis N l D (t + u) r c) c0).
  { intro t0. destruct (MD_mul N _ _ _ _ _ _ (MD_const N (flow N l (- t0))) (MD_mul N _ _ _ _ _ _ (MD_heis N l D G) (MD_const N (flow N l t0)))) as [_ M].
    specialize (M r c Lr Lc). eapply CD_ext; [| |exact M].
    - intro u. cbv beta. symmetry. apply (un _ _ _ (heis_add N l D t0 u H)); assumption.
    - assert (E : madd (mmul N mzero (mmul N D (flow N l t0))) (mmul N (flow N l (- t0)) (madd (mmul N mzero (flow N l t0)) (mmul N D mzero))) =[N]= mzero).
      { rewrite !(mul0l N), (mul0r N). assert (Z2 : madd mzero mzero =[N]= @mzero Cx) by (constructor; intros x y _ _; unfold madd, mzero; ring).
        rewrite Z2, (mul0r N). exact Z2. }
      exact (un _ _ _ E r c Lr Lc). }
  apply C_eq.
  - apply (null_const (fun t => fst (heis N l D t r c))). intro t0. exact (proj1 (CD_shift (fun t => heis N l D t r c) t0 c0 (Z t0))).
  - apply (null_const (fun t => snd (heis N l D t r c))). intro t0. exact (proj2 (CD_shift (fun t => heis N l D t r c) t0 c0 (Z t0))).
Qed.
Theorem flow_commutes N l D t : commuting N l -> commutes N D (gen l) -> commutes N D (flow N l t).
Proof.
  intros H G. pose proof (heis_const N l D t H G) as E. unfold heis in E. unfold commutes.
  assert (I : mmul N (flow N l t) (flow N l (- t)) =[N]= mone).
  { rewrite <- (flow_add N l t (- t) H). replace (t + - t) with 0 by ring. apply flow_zero. }
  rewrite <- E at 2. rewrite <- (mulA N (flow N l t)), I, (mul1l N). reflexivity.
Qed.
