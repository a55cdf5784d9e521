(** The particle-qubit Hamiltonian: operator and reduced Hamiltonian; the operator of the particle ACSE. *)
From Coq Require Import Bool List Arith Lia Ring.
From Verif Require Import Coeff MatSpec MatLemmas FockSpec OpSpec FermiModel FermiProofs OperatorModel OperatorProofs AdjProofs TransformModel QubitProofs
  CircuitSpec InvModel RdmModel RdmSpec RdmFock RdmProofs TraceProofs HamModel HamSpec HamProofs HamProofs2 HamProofs3 Sqrt2 QRdmModel QRdmSpec QRdmProofs1.
Import ListNotations.

Section QRdm2.
  Variable K : CoefRing.
  Add Ring KRing : (c_ring K).
  Local Open Scope coef_scope.
  Notation qm := (@qubits_mat K).
  Notation tensor4 := (nat -> nat -> nat -> nat -> K).
  Notation word := (list (fop * nat)).
  Notation fo := (list (fstr * K)).

  Lemma add_qstrings_spec N : forall (l : list (K * word)) (o : fo), (forall e, In e o -> length (fst e) = N) ->
    (forall e, In e l -> snd e <> [] /\ forall x, In x (snd e) -> (snd x < N)%nat) ->
    exists R, add_qstrings N l o = Some R /\ (forall e, In e R -> length (fst e) = N) /\ forall r c, qop_mat R r c = qop_mat o r c + over l (fun e => fst e * qm (snd e) r c).
  Proof.
    induction l as [|[x w] l IH]; intros o Ho Hl; [exists o; split; [reflexivity|split; [exact Ho|intros; cbn; ring]]|].
    cbn [add_qstrings]. destruct (Hl (x, w) (or_introl eq_refl)) as [W0 W1].
    destruct (qubit_new_spec K x w N W0 W1) as [s [c' [E [L [M _]]]]]. rewrite E.
    destruct (IH (op_add_string fstr_eqb o (s, c'))) as [R [E1 [W M1]]].
    - intros y Hy. assert (G : In (fst y) (map fst (op_add_string fstr_eqb o (s, c')))) by now apply in_map.
      apply (In_fst_add_string K _ _ fstr_eqb_spec') in G. destruct G as [-> |G]; [exact L|]. apply in_map_iff in G. destruct G as [z [Ez G]]. rewrite <- Ez. now apply Ho.
    - intros e He; apply Hl; now right.
    - exists R. split; [exact E1|]. split; [exact W|]. intros r c. rewrite M1, !qop_mat_lin, (lin_add_string K _ _ fstr_eqb_spec'). cbn [fst snd over fold_right].
      rewrite M. unfold over. ring.
  Qed.
  Lemma qm_zero_ann p r s x y : qm [(Cre, p); (Cre, r); (Ann, s); (Ann, s)] x y = 0.
  Proof.
    apply qm_zero. intro n. rewrite fock_cons, fock_cons. rewrite (fock_dup_none Ann s [] n) by auto. reflexivity.
  Qed.

  Variable tiny : K -> bool.
  Notation cut := (HamSpec.cut tiny).
  Lemma particle_operator_spec (d No_as No_core No_tot : nat) h V : (No_as <= No_tot)%nat -> (No_core + No_as + No_tot <= d)%nat ->
    exists F, particle_operator tiny d No_as No_core No_tot h V = Some F /\ (forall e, In e F -> length (fst e) = 2 * No_as)%nat /\
      meq (2 * No_as) (qop_mat F)
        (particle_ham (2 * No_as) (fun p q => cut (h (active_mode No_as No_core No_tot p) (active_mode No_as No_core No_tot q)))
           (fun p r q s => cut (V (active_mode No_as No_core No_tot p) (active_mode No_as No_core No_tot r) (active_mode No_as No_core No_tot q) (active_mode No_as No_core No_tot s)))).
  Proof.
    intros HT Hd. unfold particle_operator. rewrite orbs_eq. set (R := (2 * No_as)%nat). set (ob := orb No_as No_core No_tot).
    change (active_mode No_as No_core No_tot) with ob.
    assert (OI : forall i j, In i (seq 0 R) -> In j (seq 0 R) -> ob i = ob j -> i = j).
    { intros i j Hi Hj. apply in_seq in Hi, Hj. apply orb_inj; unfold R in *; lia. }
    assert (OG : forall i, In i (seq 0 R) -> dget (ob i) (o2q No_as No_core No_tot) = Some i).
    { intros i Hi. apply in_seq in Hi. apply dget_o2q; unfold R in *; lia. }
    assert (OL : forall i, In i (seq 0 R) -> (ob i <? d)%nat = true).
    { intros i Hi. apply in_seq in Hi. apply Nat.ltb_lt. apply orb_lt; unfold R in *; lia. }
    set (g1 := fun pq : nat * nat => if tiny (h (ob (fst pq)) (ob (snd pq))) then [] else [(h (ob (fst pq)) (ob (snd pq)), [(Cre, fst pq); (Ann, snd pq)])]).
    rewrite list_prod_map, map_map.
    rewrite (all_some_total _ _ _ g1).
    2:{ intros [p q] Hx. apply in_prod_iff in Hx. destruct Hx as [Hp Hq]. cbn [fst snd term1]. rewrite (OG p Hp), (OG q Hq), (OL p Hp), (OL q Hq). reflexivity. }
    rewrite list_prod_map, list_prod_map, map_map.
    set (g2 := fun x : nat * (nat * (nat * nat)) => let '(p, (r, (s, q))) := x in
      if Nat.eqb p r then [] else if Nat.eqb q s then [] else
      if tiny (V (ob p) (ob r) (ob q) (ob s)) then [] else [(chalf * V (ob p) (ob r) (ob q) (ob s), [(Cre, p); (Cre, r); (Ann, s); (Ann, q)])]).
    rewrite (all_some_total _ _ _ g2).
    2:{ intros [p [r [s q]]] Hx. rewrite !in_prod_iff in Hx. destruct Hx as [Hp [Hr [Hs Hq]]]. cbn [fst snd term2 g2].
        assert (EQ : forall i j, In i (seq 0 R) -> In j (seq 0 R) -> Nat.eqb (ob i) (ob j) = Nat.eqb i j).
        { intros i j Hi Hj. destruct (Nat.eqb_spec i j) as [-> |N]; [apply Nat.eqb_refl|]. apply Nat.eqb_neq. intro G. apply N. now apply OI. }
        rewrite (OG p Hp), (OG r Hr), (OG s Hs), (OG q Hq), (OL p Hp), (OL q Hq), (OL r Hr), (OL s Hs), !EQ by assumption.
        destruct (Nat.eqb_spec p r) as [-> |Npr]; [reflexivity|]. 
        replace (Nat.eqb (b2n false + b2n (s =? p)%nat + b2n (s =? r)%nat) 3) with false
          by (destruct (s =? p)%nat, (s =? r)%nat; reflexivity).
        destruct (Nat.eqb_spec q s) as [-> |Nqs].
        - destruct (Nat.leb 3 _); reflexivity.
        - replace (Nat.leb 3 (b2n false + b2n (s =? p)%nat + b2n (s =? r)%nat + b2n (q =? p)%nat + b2n (q =? r)%nat + b2n false)) with false; [reflexivity|].
          destruct (Nat.eqb_spec s p), (Nat.eqb_spec s r), (Nat.eqb_spec q p), (Nat.eqb_spec q r); subst; try reflexivity; congruence. }
    rewrite map_length, seq_length.
    destruct (add_qstrings_spec R (concat (map g1 (list_prod (seq 0 R) (seq 0 R))) ++ concat (map g2 (list_prod (seq 0 R) (list_prod (seq 0 R) (list_prod (seq 0 R) (seq 0 R)))))) []) as [F [E [W M]]].
    - intros e [].
    - intros e He. apply in_app_or in He. destruct He as [He|He]; apply in_concat in He; destruct He as [l [Hl He]]; apply in_map_iff in Hl; destruct Hl as [y [<- Hy]].
      + destruct y as [p q]. apply in_prod_iff in Hy. destruct Hy as [Hp Hq]. apply in_seq in Hp, Hq. unfold g1 in He. cbn [fst snd] in He.
        destruct (tiny _); [destruct He|]. destruct He as [<-|[]]. split; [discriminate|]. intros x Hx. destruct Hx as [<-|[<-|[]]]; cbn; lia.
      + destruct y as [p [r [s q]]]. rewrite !in_prod_iff in Hy. destruct Hy as [Hp [Hr [Hs Hq]]]. apply in_seq in Hp, Hq, Hr, Hs. unfold g2 in He.
        destruct (Nat.eqb p r); [destruct He|]. destruct (Nat.eqb q s); [destruct He|]. destruct (tiny _); [destruct He|]. destruct He as [<-|[]].
        split; [discriminate|]. intros x Hx. destruct Hx as [<-|[<-|[<-|[<-|[]]]]]; cbn; lia.
    - exists F. split; [exact E|]. split; [exact W|]. intros x y Hx Hy. rewrite M. unfold qop_mat at 1, particle_ham. cbn [map sumK fold_right].
      rewrite over_app, !over_concat, !over_map, !over_prod. unfold upto.
      transitivity (over (seq 0 R) (fun p => over (seq 0 R) (fun q => cut (h (ob p) (ob q)) * mmul R (splus p) (sminus q) x y)) +
        over (seq 0 R) (fun p => over (seq 0 R) (fun r => over (seq 0 R) (fun q => over (seq 0 R) (fun s => chalf * (cut (V (ob p) (ob r) (ob q) (ob s)) * mmul R (splus p) (mmul R (splus r) (mmul R (sminus s) (sminus q))) x y)))))).
      2:{ f_equal. rewrite <- over_scal. apply over_ext. intros p _. rewrite <- over_scal. apply over_ext. intros r _. rewrite <- over_scal. apply over_ext. intros q _. rewrite <- over_scal. reflexivity. }
      assert (G1 : forall p q, over (g1 (p, q)) (fun e => fst e * qm (snd e) x y) = cut (h (ob p) (ob q)) * mmul R (splus p) (sminus q) x y).
      { intros p q. unfold g1, HamSpec.cut. cbn [fst snd]. unfold splus, sminus. rewrite (qword2 K R _ _ x y Hx Hy). destruct (tiny _); cbn; ring. }
      assert (G2 : forall p r s q, over (g2 (p, (r, (s, q)))) (fun e => fst e * qm (snd e) x y) = chalf * (cut (V (ob p) (ob r) (ob q) (ob s)) * mmul R (splus p) (mmul R (splus r) (mmul R (sminus s) (sminus q))) x y)).
      { intros p r s q. unfold g2, HamSpec.cut, splus, sminus. rewrite (qword4 K R _ _ _ _ x y Hx Hy).
        destruct (Nat.eqb_spec p r) as [-> |Npr]; [rewrite qm_zero by (intro; apply fock_dup_none; auto); cbn; ring|].
        destruct (Nat.eqb_spec q s) as [-> |Nqs]; [rewrite qm_zero_ann; cbn; ring|].
        destruct (tiny _); cbn; ring. }
      rewrite (over_ext K (seq 0 R) (fun p => over (seq 0 R) (fun q => over (g1 (p, q)) (fun e => fst e * qm (snd e) x y))) (fun p => over (seq 0 R) (fun q => cut (h (ob p) (ob q)) * mmul R (splus p) (sminus q) x y)))
        by (intros p _; apply over_ext; intros q _; apply G1).
      assert (S2 : over (seq 0 R) (fun p => over (list_prod (seq 0 R) (list_prod (seq 0 R) (seq 0 R))) (fun z => over (g2 (p, z)) (fun e => fst e * qm (snd e) x y))) =
        over (seq 0 R) (fun p => over (seq 0 R) (fun r => over (seq 0 R) (fun q => over (seq 0 R) (fun s => chalf * (cut (V (ob p) (ob r) (ob q) (ob s)) * mmul R (splus p) (mmul R (splus r) (mmul R (sminus s) (sminus q))) x y)))))).
      { apply over_ext. intros p _. rewrite over_prod. apply over_ext. intros r _. rewrite over_prod, over_swap. apply over_ext. intros q _. apply over_ext. intros s _. apply G2. }
      rewrite S2. ring.
  Qed.

  (** ** Expectation of the Hamiltonian *)
  Lemma expect_particle_ham R (h : nat -> nat -> K) (V : tensor4) (psi : bits -> K) : expect R (particle_ham R h V) psi =
    upto R (fun p => upto R (fun q => h p q * qrdm_of R psi [p] [q])) +
    chalf * upto R (fun p => upto R (fun r => upto R (fun q => upto R (fun s => V p r q s * qrdm_of R psi [p; r] [q; s])))).
  Proof.
    transitivity (expect R (madd (fun x y => upto R (fun p => upto R (fun q => mscal (h p q) (qm [(Cre, p); (Ann, q)]) x y)))
      (mscal chalf (fun x y => upto R (fun p => upto R (fun r => upto R (fun q => upto R (fun s => mscal (V p r q s) (qm [(Cre, p); (Cre, r); (Ann, s); (Ann, q)]) x y))))))) psi).
    - apply expect_ext. intros x y Hx Hy. unfold particle_ham, madd, mscal. f_equal.
      + apply upto_ext. intros p _. apply upto_ext. intros q _. unfold splus, sminus. now rewrite (qword2 K R _ _ x y Hx Hy).
      + f_equal. apply upto_ext. intros p _. apply upto_ext. intros r _. apply upto_ext. intros q _. apply upto_ext. intros s _. unfold splus, sminus. now rewrite (qword4 K R _ _ _ _ x y Hx Hy).
    - rewrite expect_madd, expect_scal. f_equal; [|f_equal].
      + rewrite (expect_upto K R R (fun p x y => upto R (fun q => mscal (h p q) (qm [(Cre, p); (Ann, q)]) x y))). apply upto_ext. intros p _.
        rewrite (expect_upto K R R (fun q => mscal (h p q) (qm [(Cre, p); (Ann, q)]))). apply upto_ext. intros q _. rewrite expect_scal, qrdm_word. reflexivity.
      + rewrite (expect_upto K R R (fun p x y => upto R (fun r => upto R (fun q => upto R (fun s => mscal (V p r q s) (qm [(Cre, p); (Cre, r); (Ann, s); (Ann, q)]) x y))))). apply upto_ext. intros p _.
        rewrite (expect_upto K R R (fun r x y => upto R (fun q => upto R (fun s => mscal (V p r q s) (qm [(Cre, p); (Cre, r); (Ann, s); (Ann, q)]) x y)))). apply upto_ext. intros r _.
        rewrite (expect_upto K R R (fun q x y => upto R (fun s => mscal (V p r q s) (qm [(Cre, p); (Cre, r); (Ann, s); (Ann, q)]) x y))). apply upto_ext. intros q _.
        rewrite (expect_upto K R R (fun s => mscal (V p r q s) (qm [(Cre, p); (Cre, r); (Ann, s); (Ann, q)]))). apply upto_ext. intros s _. rewrite expect_scal, qrdm_word. reflexivity.
  Qed.
  Lemma one_body_q_value R (psi : bits -> K) (x : K) i j k :
    over (one_body_q x i j k) (fun u => let '(a, b, c, d, v) := u in v * qrdm_of R psi [c; d] [a; b])
    = (1 + 1 + 1 + 1) * x * qrdm_of R psi [j; k] [i; k].
  Proof.
    cbn [one_body_q over fold_right].
    assert (C := fun a b l => qrdm_sym_cre K R psi [] a b [] l). assert (A := fun a b l => qrdm_sym_ann K R psi [] a b [] l). cbn [app] in A, C.
    rewrite (C k j [k; i]), (A k i [j; k]), (C k j [i; k]). ring.
  Qed.
  Lemma K2_q_energy r Ne (w : K) (h : nat -> nat -> K) (V : tensor4) (psi : bits -> K) : has_particles r Ne psi -> (1 + 1 + 1 + 1) * w * ofnat (Ne - 1) = 1 ->
    observable r (build_K2_q r w h V) (fun a b c d => qrdm_of r psi [a; b] [c; d]) = expect r (particle_ham r (fun p q => h q p) (fun p t q s => V q s p t)) psi.
  Proof.
    intros HN Hw. unfold build_K2_q. rewrite observable_apply.
    2:{ intros a b c d v Hi. apply in_flat_map in Hi. destruct Hi as [i [Hi H]]. apply in_flat_map in H. destruct H as [j [Hj H]]. apply in_flat_map in H. destruct H as [k [Hk H]].
        apply in_seq in Hi, Hj, Hk. destruct H as [E|[E|[E|[E|[]]]]]; injection E; intros; subst; lia. }
    rewrite expect_particle_ham, observable_eq, over_flat_map.
    assert (E1 : over (seq 0 r) (fun x => over (flat_map (fun j => flat_map (fun k => one_body_q (h x j * w) x j k) (seq 0 r)) (seq 0 r)) (fun u => let '(a, b, c, d, v) := u in v * qrdm_of r psi [c; d] [a; b]))
      = upto r (fun p => upto r (fun q => h q p * qrdm_of r psi [p] [q]))).
    { rewrite (upto_swap K r r (fun p q => h q p * qrdm_of r psi [p] [q])). apply over_ext. intros i _. rewrite over_flat_map. apply over_ext. intros j _. rewrite over_flat_map.
      rewrite (over_ext K (seq 0 r) _ (fun k => ((1 + 1 + 1 + 1) * (h i j * w)) * qrdm_of r psi [j; k] [i; k])) by (intros k _; exact (one_body_q_value r psi (h i j * w) i j k)).
      rewrite over_scal. assert (C := qrdm_contract K r Ne psi [j] [i] HN). cbn [app length] in C. unfold over. unfold lsum in C. rewrite C.
      transitivity (((1 + 1 + 1 + 1) * w * ofnat (Ne - 1)) * (h i j * qrdm_of r psi [j] [i])); [ring|rewrite Hw; ring]. }
    rewrite E1.
    assert (E2 : upto r (fun i => upto r (fun k => upto r (fun j => upto r (fun l => V i k j l * chalf * qrdm_of r psi [j; l] [i; k])))) =
       chalf * upto r (fun p => upto r (fun t => upto r (fun q => upto r (fun s => V q s p t * qrdm_of r psi [p; t] [q; s]))))).
    { transitivity (chalf * upto r (fun i => upto r (fun k => upto r (fun j => upto r (fun l => V i k j l * qrdm_of r psi [j; l] [i; k]))))).
      { rewrite <- upto_scal. apply upto_ext. intros i _. rewrite <- upto_scal. apply upto_ext. intros k _. rewrite <- upto_scal. apply upto_ext. intros j _. rewrite <- upto_scal. apply upto_ext. intros l _. ring. }
      f_equal.
      transitivity (upto r (fun i => upto r (fun j => upto r (fun k => upto r (fun l => V i k j l * qrdm_of r psi [j; l] [i; k]))))).
      { apply upto_ext. intros i _. apply upto_swap. }
      rewrite upto_swap. apply upto_ext. intros p _.
      transitivity (upto r (fun i => upto r (fun l => upto r (fun k => V i k p l * qrdm_of r psi [p; l] [i; k])))).
      { apply upto_ext. intros i _. apply upto_swap. }
      apply upto_swap. }
    rewrite E2. ring.
  Qed.

  (** ** The particle ACSE *)
  Variable small_term : K -> bool.
  Definition kept (x : K) : K := if small_term x then 0 else x.
  Lemma pacse_operator_spec r (t : tensor4) : exists F, pacse_operator small_term r t = Some F /\ (forall e, In e F -> length (fst e) = r) /\
    meq r (qop_mat F) (fun x y => - upto r (fun i => upto r (fun k => upto r (fun j => upto r (fun l =>
      kept (t i k j l) * mmul r (splus i) (mmul r (splus k) (mmul r (sminus l) (sminus j))) x y))))).
  Proof.
    unfold pacse_operator.
    set (L := flat_map _ _). destruct (add_qstrings_spec r L []) as [F [E [W M]]].
    - intros e [].
    - intros e He. unfold L in He. apply in_flat_map in He. destruct He as [i [Hi He]]. apply in_flat_map in He. destruct He as [k [Hk He]].
      apply in_flat_map in He. destruct He as [j [Hj He]]. apply in_flat_map in He. destruct He as [l [Hl He]]. apply in_seq in Hi, Hj, Hk, Hl.
      cbv zeta in He. destruct (ceqb _ _); [destruct He|]. destruct (small_term _); [destruct He|]. destruct He as [<-|[]].
      split; [discriminate|]. intros x Hx. cbn [snd] in Hx. destruct Hx as [<-|[<-|[<-|[<-|[]]]]]; cbn; lia.
    - exists F. split; [exact E|]. split; [exact W|]. intros x y Hx Hy. rewrite M. unfold qop_mat at 1. cbn [map sumK fold_right].
      unfold L. rewrite over_flat_map. transitivity ((- (1)) * upto r (fun i => upto r (fun k => upto r (fun j => upto r (fun l =>
        kept (t i k j l) * mmul r (splus i) (mmul r (splus k) (mmul r (sminus l) (sminus j))) x y))))); [|ring].
      rewrite <- upto_scal. match goal with |- 0 + ?X = _ => transitivity X; [ring|] end.
      apply over_ext. intros i _. rewrite over_flat_map, <- upto_scal. apply over_ext. intros k _. rewrite over_flat_map, <- upto_scal. apply over_ext. intros j _.
      rewrite over_flat_map, <- upto_scal. apply over_ext. intros l _. cbv zeta. unfold splus, sminus. rewrite (qword4 K r _ _ _ _ x y Hx Hy). unfold kept.
      destruct (ceqb (t i k j l) 0) eqn:Z.
      + apply ceqb_spec in Z. rewrite Z. destruct (small_term 0); cbn; ring.
      + destruct (small_term (t i k j l)); cbn; ring.
  Qed.

  Definition antiherm4 (t : tensor4) : Prop := forall i k j l, t j l i k = - cconj (t i k j l).
  Lemma imag_of_real x : cconj (@imag_of K x) = imag_of x.
  Proof.
    unfold imag_of. rewrite cconj_mul, cconj_opp, cconj_mul, cconj_half, cconj_i.
    replace (x - cconj x) with (x + - cconj x) by ring. rewrite cconj_add, cconj_opp, cconj_inv. ring.
  Qed.
  Lemma imag_of_conj x : @imag_of K (cconj x) = - imag_of x.
  Proof. unfold imag_of. rewrite cconj_inv. ring. Qed.
  Definition herm4 (t : tensor4) : Prop := forall i k j l, t j l i k = cconj (t i k j l).
  Definition real4 (t : tensor4) : Prop := forall i k j l, cconj (t i k j l) = t i k j l.
  Lemma run_all_spec hss rdms : cconj hss = hss -> rdms <> [] -> Forall herm4 rdms ->
    exists t, run_all hss rdms = Some t /\ real4 t /\ antiherm4 t.
  Proof.
    intros Hs Ne F. destruct rdms as [|x l]; [contradiction|]. inversion_clear F as [|? ? Fx Fl]. unfold run_all. eexists. split; [reflexivity|].
    assert (S1 : forall y, herm4 y -> real4 (run_expiH hss y) /\ antiherm4 (run_expiH hss y)).
    { intros y Hy. assert (R : real4 (run_expiH hss y)) by (intros i k j m; unfold run_expiH; rewrite cconj_mul, imag_of_real, Hs; reflexivity).
      split; [exact R|]. intros i k j m. rewrite (R i k j m). unfold run_expiH. rewrite (Hy i k j m), imag_of_conj. ring. }
    assert (G : forall t, real4 t /\ antiherm4 t -> real4 (fold_left (fun t y i k j m => t i k j m + run_expiH hss y i k j m) l t) /\ antiherm4 (fold_left (fun t y i k j m => t i k j m + run_expiH hss y i k j m) l t)).
    { clear Fx Ne. induction Fl as [|y l Hy Fl IH]; intros t Ht; [exact Ht|]. cbn [fold_left]. refine (IH _ _). destruct (S1 y Hy) as [Ry Ay]. destruct Ht as [Rt At]. split.
      - intros i k j m. rewrite cconj_add, Ry, Rt. reflexivity.
      - intros i k j m. rewrite cconj_add, At, Ay. ring. }
    apply G. apply S1. exact Fx.
  Qed.
  Lemma madj_words r i k j l x y : length x = r -> length y = r ->
    cconj (mmul r (@splus K i) (mmul r (splus k) (mmul r (sminus l) (sminus j))) y x) = mmul r (splus j) (mmul r (splus l) (mmul r (sminus k) (sminus i))) x y.
  Proof.
    intros Hx Hy. unfold splus, sminus. rewrite (qword4 K r _ _ _ _ y x Hy Hx), (qword4 K r _ _ _ _ x y Hx Hy).
    assert (A := qm_adj K [(Cre, i); (Cre, k); (Ann, l); (Ann, j)] r x y Hx Hy). cbn [map rev app cadj fst snd fadj] in A. symmetry. exact A.
  Qed.
  Lemma upto_conj n (f : nat -> K) : cconj (upto n f) = upto n (fun i => cconj (f i)).
  Proof.
    unfold upto. induction (seq 0 n) as [|a l IH]; cbn [over fold_right]; [apply cconj_0|]. rewrite cconj_add. f_equal. exact IH.
  Qed.
  Lemma pacse_antihermitian hss r rdms : cconj hss = hss -> rdms <> [] -> Forall herm4 rdms -> (forall x, small_term (- x) = small_term x) ->
    exists t F, run_all hss rdms = Some t /\ pacse_operator small_term r t = Some F /\ (forall e, In e F -> length (fst e) = r) /\
      meq r (madj (qop_mat F)) (mscal (- (1)) (qop_mat F)).
  Proof.
    intros Hs Ne Hm Hc. destruct (run_all_spec hss rdms Hs Ne Hm) as [t [Et [Rt At]]]. destruct (pacse_operator_spec r t) as [F [E [W M]]].
    exists t, F. split; [exact Et|]. split; [exact E|]. split; [exact W|]. intros x y Hx Hy. unfold madj, mscal. rewrite (M y x Hy Hx), (M x y Hx Hy).
    rewrite cconj_opp. transitivity (upto r (fun i => upto r (fun k => upto r (fun j => upto r (fun l =>
      kept (t i k j l) * mmul r (splus i) (mmul r (splus k) (mmul r (sminus l) (sminus j))) x y))))); [|ring].
    assert (Kc : forall i k j l, cconj (kept (t i k j l)) = - kept (t j l i k)).
    { intros i k j l. unfold kept. rewrite (At i k j l), (Rt i k j l), Hc. destruct (small_term (t i k j l)); [rewrite cconj_0; ring|]. rewrite Rt. ring. }
    transitivity (upto r (fun i => upto r (fun k => upto r (fun j => upto r (fun l =>
      kept (t j l i k) * mmul r (splus j) (mmul r (splus l) (mmul r (sminus k) (sminus i))) x y))))).
    - transitivity ((- (1)) * cconj (upto r (fun i => upto r (fun k => upto r (fun j => upto r (fun l =>
      kept (t i k j l) * mmul r (splus i) (mmul r (splus k) (mmul r (sminus l) (sminus j))) y x)))))); [ring|].
      rewrite upto_conj, <- upto_scal. apply upto_ext. intros i _. rewrite upto_conj, <- upto_scal. apply upto_ext. intros k _. rewrite upto_conj, <- upto_scal. apply upto_ext. intros j _.
      rewrite upto_conj, <- upto_scal. apply upto_ext. intros l _. rewrite cconj_mul, Kc, madj_words by assumption. ring.
    - transitivity (upto r (fun i => upto r (fun j => upto r (fun k => upto r (fun l => kept (t j l i k) * mmul r (splus j) (mmul r (splus l) (mmul r (sminus k) (sminus i))) x y))))).
      { apply upto_ext. intros i _. apply upto_swap. }
      rewrite upto_swap. apply upto_ext. intros j _.
      transitivity (upto r (fun i => upto r (fun l => upto r (fun k => kept (t j l i k) * mmul r (splus j) (mmul r (splus l) (mmul r (sminus k) (sminus i))) x y)))).
      { apply upto_ext. intros i _. apply upto_swap. }
      rewrite upto_swap. reflexivity.
  Qed.
End QRdm2.
