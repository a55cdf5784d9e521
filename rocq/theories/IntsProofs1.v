(** The integral transformation loops compute the sums. *)
From Coq Require Import Bool List Arith Lia Ring.
From Verif Require Import Coeff MatSpec FockSpec InvModel HamModel HamSpec HamProofs HamProofs3 IntsModel IntsSpec.
Import ListNotations.
Section Ints1.
  Variable K : CoefRing.
  Add Ring KRing : (c_ring K).
  Local Open Scope coef_scope.
  Notation array2 := (nat -> nat -> K).
  Notation array4 := (nat -> nat -> nat -> nat -> K).
  Variable N : nat.

  Lemma fold_point {A T} (step : T -> A -> T) (at_ : T -> K) (g : A -> K) : (forall t a, at_ (step t a) = at_ t + g a) ->
    forall l t, at_ (fold_left step l t) = at_ t + over l g.
  Proof. intros H. induction l as [|a l IH]; intros t; cbn [fold_left over fold_right]; [unfold over; cbn; ring|]. rewrite IH, H. unfold over. ring. Qed.
  Lemma fold_same {A T V} (step : T -> A -> T) (at_ : T -> V) l : (forall t a, In a l -> at_ (step t a) = at_ t) -> forall t, at_ (fold_left step l t) = at_ t.
  Proof. induction l as [|a l IH]; intros H t; cbn [fold_left]; [reflexivity|]. rewrite IH; [apply H; now left|intros; apply H; now right]. Qed.

  (** ** One electron *)
  Lemma ei1_row (U ei : array2) P t p b : fold_left (fun t a => fun p b => if Nat.eqb p P then t p b + U P a * ei a b else t p b) (seq 0 N) t p b
    = if Nat.eqb p P then t p b + upto N (fun a => U P a * ei a b) else t p b.
  Proof.
    destruct (Nat.eqb p P) eqn:E.
    - apply (fold_point (fun t a => fun p b => if Nat.eqb p P then t p b + U P a * ei a b else t p b) (fun t => t p b)). intros. now rewrite E.
    - apply (fold_same (fun t a => fun p b => if Nat.eqb p P then t p b + U P a * ei a b else t p b) (fun t => t p b)). intros. now rewrite E.
  Qed.
  Definition at2 (i j x y : nat) : bool := Nat.eqb x i && Nat.eqb y j.
  Lemma ei1_cell (f : nat -> K) i j new x y : fold_left (fun n b => add2 K i j (f b) n) (seq 0 N) (set2 K i j 0 new) x y
    = if at2 i j x y then upto N f else new x y.
  Proof.
    unfold at2. destruct (Nat.eqb x i && Nat.eqb y j) eqn:E.
    - rewrite (fold_point (fun n b => add2 K i j (f b) n) (fun t => t x y) f); [unfold set2; rewrite E; unfold upto; ring|]. intros. unfold add2. now rewrite E.
    - rewrite (fold_same (fun n b => add2 K i j (f b) n) (fun t => t x y)); [unfold set2; now rewrite E|]. intros. unfold add2. now rewrite E.
  Qed.
  Definition look (L : list (nat * nat)) (i : nat) : option nat := option_map snd (find (fun e => Nat.eqb (fst e) i) L).
  Lemma look_none L i : look L i = None <-> ~ In i (map fst L).
  Proof.
    unfold look. induction L as [|[j Q] L IH]; cbn [find map fst In option_map]; [tauto|]. destruct (Nat.eqb_spec j i) as [->|E]; cbn [option_map snd]; [intuition discriminate|]. tauto.
  Qed.
  Lemma look_in L i P : NoDup (map fst L) -> (look L i = Some P <-> In (i, P) L).
  Proof.
    unfold look. induction L as [|[j Q] L IH]; cbn [find map fst In option_map]; [intuition discriminate|]. intros Nd. inversion Nd; subst.
    destruct (Nat.eqb_spec j i) as [->|E]; cbn [option_map snd].
    - split; [intros [= ->]; now left|]. intros [[= ->]|H]; [reflexivity|]. exfalso. apply H1. apply in_map_iff. now exists (i, P).
    - rewrite IH by assumption. split; [now right|]. intros [[= -> ->]|H]; [congruence|assumption].
  Qed.
  Lemma ei1_loop (f : nat -> nat -> K) i x y : forall L new, NoDup (map fst L) ->
    fold_left (fun new jQ => let '(j, Q) := jQ in fold_left (fun n b => add2 K i j (f Q b) n) (seq 0 N) (set2 K i j 0 new)) L new x y
    = if Nat.eqb x i then match look L y with Some Q => upto N (f Q) | None => new x y end else new x y.
  Proof.
    induction L as [|[j Q] L IH]; intros new Nd; cbn [fold_left]; [unfold look; cbn; now destruct (Nat.eqb x i)|].
    cbn [map fst] in Nd. inversion Nd; subst. rewrite IH by assumption. rewrite ei1_cell. unfold at2.
    destruct (Nat.eqb_spec x i); cbn [andb]; [|reflexivity]. unfold look at 2. cbn [find fst]. rewrite (Nat.eqb_sym j y). destruct (Nat.eqb_spec y j) as [->|E].
    - cbn [option_map snd]. now rewrite (proj2 (look_none L j) H1).
    - reflexivity.
  Qed.
  Lemma ei1_steps (U ei : array2) (LL : list (nat * nat)) x y : NoDup (map fst LL) -> forall L t new, NoDup (map fst L) -> NoDup (map snd L) ->
    (forall P, In P (map snd L) -> forall b, t P b = 0) ->
    snd (fold_left (ei1_step K N U ei LL) L (t, new)) x y
    = match look L x, look LL y with Some P, Some Q => upto N (fun b => U Q b * upto N (fun a => U P a * ei a b)) | _, _ => new x y end.
  Proof.
    intros ND. induction L as [|[i P] L IH]; intros t new N1 N2 Z; [reflexivity|]. cbn [fold_left ei1_step]. cbn [map fst snd] in N1, N2. inversion N1; subst. inversion N2; subst.
    rewrite IH; [|assumption|assumption|].
    - unfold look at 3. cbn [find fst]. rewrite (Nat.eqb_sym i x). destruct (Nat.eqb_spec x i) as [->|E].
      + cbn [option_map snd]. rewrite (proj2 (look_none L i) H1).
        rewrite (ei1_loop (fun Q b => U Q b * _) i i y) by assumption. rewrite Nat.eqb_refl. destruct (look LL y) as [Q|]; [|reflexivity].
        apply upto_ext. intros b _. rewrite ei1_row, Nat.eqb_refl, Z by (now left). ring.
      + change (option_map snd (find (fun e => Nat.eqb (fst e) x) L)) with (look L x). destruct (look L x) as [P'|] eqn:EL; [|].
        * destruct (look LL y); [reflexivity|]. rewrite (ei1_loop (fun Q b => U Q b * _) i x y) by assumption. apply Nat.eqb_neq in E. now rewrite E.
        * rewrite (ei1_loop (fun Q b => U Q b * _) i x y) by assumption. apply Nat.eqb_neq in E. now rewrite E.
    - intros P' HP b. rewrite ei1_row. destruct (Nat.eqb_spec P' P) as [->|_]; [contradiction|]. apply Z. now right.
  Qed.
  Lemma ei1_block_spec (U ei : array2) L new x y : NoDup (map fst L) -> NoDup (map snd L) ->
    ei1_block N U ei L new x y = match look L x, look L y with Some P, Some Q => upto N (fun b => U Q b * upto N (fun a => U P a * ei a b)) | _, _ => new x y end.
  Proof. intros N1 N2. unfold ei1_block. apply ei1_steps; auto. Qed.

  (** ** Two electrons *)
  Definition q4 : Type := (nat * nat * nat * nat)%type.
  Definition q4_eqb (u v : q4) : bool := let '(a, b, c, d) := u in let '(a', b', c', d') := v in Nat.eqb a' a && Nat.eqb b' b && Nat.eqb c' c && Nat.eqb d' d.
  Definition get (t : array4) (u : q4) : K := let '(a, b, c, d) := u in t a b c d.
  Lemma get_upd4 u v t w : get (upd4 (u, v) t) w = if q4_eqb u w then get t w + v else get t w.
  Proof. destruct u as [[[a b] c] d], w as [[[a' b'] c'] d']. reflexivity. Qed.
  Section Block.
    Variables (U1 U2 : array2) (skip : bool) (place : nat -> nat -> nat -> nat -> q4) (ei : array4) (L1 L2 : list (nat * nat)).
    Definition T1 P b c d := upto N (fun a => U1 P a * ei a b c d).
    Definition T2 P Q c d := upto N (fun b => U1 Q b * T1 P b c d).
    Definition T3 P Q R d := upto N (fun c => U2 R c * T2 P Q c d).
    Definition T4 P Q R S' := upto N (fun d => U2 S' d * T3 P Q R d).
    Variable w : q4.
    Definition hit (i k j l : nat) (v : K) : K := if q4_eqb (place i k j l) w then v else 0.
    Definition c_l i P j Q k R (lS : nat * nat) : K := if skip && Nat.eqb j (fst lS) then 0 else hit i k j (fst lS) (T4 P Q R (snd lS)).
    Definition c_k i P j Q (kR : nat * nat) : K := if skip && Nat.eqb i (fst kR) then 0 else over L2 (c_l i P j Q (fst kR) (snd kR)).
    Definition c_j i P (jQ : nat * nat) : K := over L2 (c_k i P (fst jQ) (snd jQ)).
    Definition c_i (iP : nat * nat) : K := over L1 (c_j (fst iP) (snd iP)).

    Lemma l_spec i P j Q k R t3 : (forall d, t3 P Q R d = T3 P Q R d) -> forall L new,
      get (fold_left (ei2_l K N U2 skip place i P j Q k R t3) L new) w = get new w + over L (c_l i P j Q k R).
    Proof.
      intros H L new. apply (fold_point (ei2_l K N U2 skip place i P j Q k R t3) (fun t => get t w)). intros t [l S']. unfold ei2_l, c_l. cbn [fst snd]. destruct (skip && Nat.eqb j l); [ring|].
      rewrite (fold_point (fun n d => upd4 (place i k j l, U2 S' d * t3 P Q R d) n) (fun t => get t w) (fun d => hit i k j l (U2 S' d * T3 P Q R d))).
      - f_equal. unfold hit, T4, upto. destruct (q4_eqb (place i k j l) w); [reflexivity|]. apply over_0.
      - intros t' d. rewrite get_upd4, H. unfold hit. destruct (q4_eqb (place i k j l) w); ring.
    Qed.
    Lemma k_spec i P j Q t2 : (forall c d, t2 P Q c d = T2 P Q c d) -> forall L t3 new, NoDup (map snd L) -> (forall R, In R (map snd L) -> forall d, t3 P Q R d = 0) ->
      let st := fold_left (ei2_k K N U2 skip place L2 i P j Q t2) L (t3, new) in
      get (snd st) w = get new w + over L (c_k i P j Q) /\ (forall p q, (p, q) <> (P, Q) -> forall r d, fst st p q r d = t3 p q r d).
    Proof.
      intros H2. induction L as [|[k R] L IH]; intros t3 new Nd Z; [split; [cbn; unfold over; cbn; ring|reflexivity]|].
      cbn [map snd] in Nd. inversion Nd; subst. cbn [fold_left ei2_k].
      destruct (skip && Nat.eqb i k) eqn:Es.
      - destruct (IH t3 new) as [I1 I2]; [assumption|intros; apply Z; now right|]. split; [|exact I2]. etransitivity; [exact I1|].
        cbn [over fold_right]. unfold c_k at 2. cbn [fst]. rewrite Es. unfold over. ring.
      - match goal with |- context [fold_left _ L (?t, ?n)] => set (t3' := t); set (n' := n) end.
        assert (V : forall p q r d, t3' p q r d = if Nat.eqb p P && Nat.eqb q Q && Nat.eqb r R then t3 p q r d + T3 P Q R d else t3 p q r d).
        { intros p q r d. unfold t3'. destruct (Nat.eqb p P && Nat.eqb q Q && Nat.eqb r R) eqn:E.
          - rewrite (fold_point (fun t c => fun p q r d => if Nat.eqb p P && Nat.eqb q Q && Nat.eqb r R then t p q r d + U2 R c * t2 P Q c d else t p q r d) (fun t => t p q r d) (fun c => U2 R c * T2 P Q c d)); [reflexivity|].
            intros. now rewrite E, H2.
          - apply (fold_same (fun t c => fun p q r d => if Nat.eqb p P && Nat.eqb q Q && Nat.eqb r R then t p q r d + U2 R c * t2 P Q c d else t p q r d) (fun t => t p q r d)). intros. now rewrite E. }
        destruct (IH t3' n') as [I1 I2]; [assumption| |].
        + intros R' HR d. rewrite V. destruct (Nat.eqb_spec R' R) as [->|_]; [contradiction|]. rewrite andb_false_r. apply Z. now right.
        + split.
          * etransitivity; [exact I1|]. unfold n'. rewrite l_spec.
            -- cbn [over fold_right]. unfold c_k at 2. cbn [fst snd]. rewrite Es. unfold over. ring.
            -- intros d. rewrite V, !Nat.eqb_refl. cbn [andb]. rewrite Z by (now left). ring.
          * intros p q Hpq r d. etransitivity; [now apply I2|]. rewrite V. destruct (Nat.eqb_spec p P), (Nat.eqb_spec q Q); subst; cbn [andb]; try reflexivity. contradiction.
    Qed.
    Lemma j_spec (ND2 : NoDup (map snd L2)) i P t1 : (forall b c d, t1 P b c d = T1 P b c d) -> forall L t2 t3 new, NoDup (map snd L) ->
      (forall Q, In Q (map snd L) -> forall c d, t2 P Q c d = 0) -> (forall Q, In Q (map snd L) -> forall r d, t3 P Q r d = 0) ->
      let st := fold_left (ei2_j K N U1 U2 skip place L2 i P t1) L (t2, (t3, new)) in
      get (snd (snd st)) w = get new w + over L (c_j i P) /\ (forall p, p <> P -> forall q r d, fst st p q r d = t2 p q r d /\ fst (snd st) p q r d = t3 p q r d).
    Proof.
      intros H1. induction L as [|[j Q] L IH]; intros t2 t3 new Nd Z2 Z3; [split; [cbn; unfold over; cbn; ring|split; reflexivity]|].
      cbn [map snd] in Nd. inversion Nd; subst. cbn [fold_left ei2_j].
      match goal with |- context [fold_left _ L (?t, _)] => set (t2' := t) end.
      assert (V : forall p q r d, t2' p q r d = if Nat.eqb p P && Nat.eqb q Q then t2 p q r d + T2 P Q r d else t2 p q r d).
      { intros p q r d. unfold t2'. destruct (Nat.eqb p P && Nat.eqb q Q) eqn:E.
        - rewrite (fold_point (fun t b => fun p q c d => if Nat.eqb p P && Nat.eqb q Q then t p q c d + U1 Q b * t1 P b c d else t p q c d) (fun t => t p q r d) (fun b => U1 Q b * T1 P b r d)); [reflexivity|].
          intros. now rewrite E, H1.
        - apply (fold_same (fun t b => fun p q c d => if Nat.eqb p P && Nat.eqb q Q then t p q c d + U1 Q b * t1 P b c d else t p q c d) (fun t => t p q r d)). intros. now rewrite E. }
      assert (B2 : forall c d, t2' P Q c d = T2 P Q c d). { intros c d. rewrite V, !Nat.eqb_refl. cbn [andb]. rewrite Z2 by (now left). ring. }
      destruct (k_spec i P j Q t2' B2 L2 t3 new ND2) as [K1 K2]; [intros; apply Z3; now left|].
      destruct (fold_left (ei2_k K N U2 skip place L2 i P j Q t2') L2 (t3, new)) as [t3' n'] eqn:Ek. cbn [fst snd] in K1, K2.
      destruct (IH t2' t3' n') as [I1 I2]; [assumption| | |].
      - intros Q' HQ c d. rewrite V. destruct (Nat.eqb_spec Q' Q) as [->|_]; [contradiction|]. rewrite andb_false_r. apply Z2. now right.
      - intros Q' HQ r d. rewrite K2; [apply Z3; now right|]. intros [= ->]. contradiction.
      - split.
        + etransitivity; [exact I1|]. rewrite K1. change (over L2 (c_k i P j Q)) with (c_j i P (j, Q)). unfold over. cbn [fold_right]. ring.
        + intros p Hp q r d. destruct (I2 p Hp q r d) as [A B]. split.
          * etransitivity; [exact A|]. rewrite V. apply Nat.eqb_neq in Hp. now rewrite Hp.
          * etransitivity; [exact B|]. apply K2. congruence.
    Qed.
    Lemma i_spec (ND1 : NoDup (map snd L1)) (ND2 : NoDup (map snd L2)) : forall L t1 t2 t3 new, NoDup (map snd L) ->
      (forall P, In P (map snd L) -> forall b c d, t1 P b c d = 0 /\ t2 P b c d = 0 /\ t3 P b c d = 0) ->
      get (snd (snd (snd (fold_left (ei2_i K N U1 U2 skip place ei L1 L2) L (t1, (t2, (t3, new))))))) w = get new w + over L c_i.
    Proof.
      induction L as [|[i P] L IH]; intros t1 t2 t3 new Nd Z; [cbn; unfold over; cbn; ring|].
      cbn [map snd] in Nd. inversion Nd; subst. cbn [fold_left ei2_i].
      match goal with |- context [fold_left _ L (?t, _)] => set (t1' := t) end.
      assert (V : forall p q r d, t1' p q r d = if Nat.eqb p P then t1 p q r d + T1 P q r d else t1 p q r d).
      { intros p q r d. unfold t1'. destruct (Nat.eqb p P) eqn:E.
        - rewrite (fold_point (fun t a => fun p b c d => if Nat.eqb p P then t p b c d + U1 P a * ei a b c d else t p b c d) (fun t => t p q r d) (fun a => U1 P a * ei a q r d)); [reflexivity|].
          intros. now rewrite E.
        - apply (fold_same (fun t a => fun p b c d => if Nat.eqb p P then t p b c d + U1 P a * ei a b c d else t p b c d) (fun t => t p q r d)). intros. now rewrite E. }
      assert (B1 : forall b c d, t1' P b c d = T1 P b c d). { intros b c d. rewrite V, Nat.eqb_refl. destruct (Z P (or_introl eq_refl) b c d) as [-> _]. ring. }
      destruct (j_spec ND2 i P t1' B1 L1 t2 t3 new ND1) as [K1 K2]; [intros; apply Z; now left|intros; apply Z; now left|].
      destruct (fold_left (ei2_j K N U1 U2 skip place L2 i P t1') L1 (t2, (t3, new))) as [t2' [t3' n']] eqn:Ek. cbn [fst snd] in K1, K2.
      rewrite IH; [|assumption|].
      - rewrite K1. change (over L1 (c_j i P)) with (c_i (i, P)). unfold over. cbn [fold_right]. ring.
      - intros P' HP b c d. assert (P' <> P) by congruence. destruct (K2 P' ltac:(assumption) b c d) as [-> ->]. rewrite V. apply Nat.eqb_neq in H. rewrite H. apply Z. now right.
    Qed.
    Lemma ei2_block_spec new : NoDup (map snd L1) -> NoDup (map snd L2) ->
      get (ei2_block N U1 U2 skip place ei L1 L2 new) w = get new w + over L1 c_i.
    Proof. intros N1 N2. unfold ei2_block. apply i_spec; auto. Qed.
  End Block.
End Ints1.
