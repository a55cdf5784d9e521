(** The arrays and energies of a tomography run on counts are unbiased. *)
From Coq Require Import Bool List Arith ZArith QArith Reals Qreals Lia Lra Ring.
From Verif Require Import Coeff ComplexR MatSpec MatLemmas OpSpec FockSpec PauliModel PauliProofs OperatorModel OperatorProofs TransformModel TwoTerm JWProofs TransformLin
  CircuitSpec CircuitModel CircuitProofs CircuitProofs2 TomoModel TomoProofs CountsProofs RdmModel RdmSpec RdmEnum RdmFock RdmBuild RdmProofs HamModel HamSpec HamProofs HamProofs3 QuantProofs3
  ItModel ItProofs FermiModel PlanModel PlanSpec PlanProofs PlanProofs2 PlanProofs3 PlanProofs4 PlanProofs5 ShotSpec ShotModel ShotProofs.
Import ListNotations.
Local Open Scope R_scope.

Lemma means_ext N n ps : forall f g, (forall ws, samples N n (length ps) ws -> f ws = g ws) -> means N n ps f = means N n ps g.
Proof.
  induction ps as [|p ps IH]; intros f g H; cbn [means]; [apply H; split; [reflexivity|intros l []]|].
  apply mean_ext. intros l Hl. apply IH. intros ws [L Hw]. apply H. split; [cbn [length]; rewrite L; reflexivity|]. intros x [<-|Hx]; [exact Hl|apply Hw; exact Hx].
Qed.
Lemma means_plus N n ps : forall f g, means N n ps (fun w => f w + g w) = means N n ps f + means N n ps g.
Proof.
  induction ps as [|p ps IH]; intros f g; cbn [means]; [reflexivity|]. rewrite <- mean_plus. apply mean_ext. intros l _.
  apply (IH (fun ls => f (l :: ls)) (fun ls => g (l :: ls))).
Qed.
Lemma means_scal N n ps a : forall f, means N n ps (fun w => a * f w) = a * means N n ps f.
Proof.
  induction ps as [|p ps IH]; intros f; cbn [means]; [reflexivity|]. rewrite <- mean_scal. apply mean_ext. intros l _.
  apply (IH (fun ls => f (l :: ls))).
Qed.
Lemma means_const N n ps c : (forall p, In p ps -> distribution N p) -> means N n ps (fun _ => c) = c.
Proof.
  intro H. induction ps as [|p ps IH]; cbn [means]; [reflexivity|]. rewrite IH by (intros; apply H; right; assumption).
  apply mean_const. apply H. left. reflexivity.
Qed.
Lemma means_coord N n ps : (forall p, In p ps -> distribution N p) -> forall i p f, nth_error ps i = Some p -> means N n ps (fun w => f (nth i w [])) = mean N n p f.
Proof.
  induction ps as [|p' ps IH]; intros H i p f E; [destruct i; discriminate|]. destruct i as [|i]; cbn [nth_error] in E; cbn [means nth].
  - injection E as <-. apply mean_ext. intros l _. apply means_const. intros; apply H; right; assumption.
  - rewrite (mean_ext N n p' _ (fun _ => mean N n p f)).
    + apply mean_const. apply H. left. reflexivity.
    + intros l _. apply IH; [intros; apply H; right; assumption|exact E].
Qed.

(** ** Means of complex quantities *)
Section CM.
  Variables (N n : nat) (ps : list (list bool -> R)).
  Notation L := (cmeans N n ps).
  Lemma L_ext f g : (forall ws, samples N n (length ps) ws -> f ws = g ws) -> L f = L g.
  Proof. intro H. unfold cmeans. f_equal; apply means_ext; intros ws Hw; rewrite (H ws Hw); reflexivity. Qed.
  Lemma L_plus f g : L (fun w => cadd (f w) (g w)) = cadd (L f) (L g).
  Proof. apply C_eq; cbn [cmeans fst snd Cx cadd Cadd]; apply means_plus. Qed.
  Lemma L_scal (c : Cx) f : L (fun w => cmul c (f w)) = cmul c (L f).
  Proof.
    apply C_eq; cbn [cmeans fst snd Cx cmul Cmul].
    - rewrite <- !means_scal. replace (means N n ps (fun w => fst c * fst (f w)) - means N n ps (fun w => snd c * snd (f w)))
        with (means N n ps (fun w => fst c * fst (f w)) + (-1) * means N n ps (fun w => snd c * snd (f w))) by ring.
      rewrite <- means_scal, <- means_plus. apply means_ext. intros. ring.
    - rewrite <- !means_scal, <- means_plus. reflexivity.
  Qed.
  Lemma L_conj f : L (fun w => cconj (f w)) = cconj (L f).
  Proof.
    apply C_eq; cbn [cmeans fst snd Cx cconj Cconj]; [reflexivity|].
    replace (- means N n ps (fun w => snd (f w))) with ((-1) * means N n ps (fun w => snd (f w))) by ring. rewrite <- means_scal. apply means_ext. intros. ring.
  Qed.
  Hypothesis D : forall p, In p ps -> distribution N p.
  Lemma L_const (c : Cx) : L (fun _ => c) = c.
  Proof. apply C_eq; cbn [cmeans fst snd]; apply means_const; exact D. Qed.

  (** The array is linear in the values of the elements. *)
  Lemma L_tadd ind v T T' : (forall x, T' x = L (fun w => T w x)) -> forall x, tadd ind (L v) T' x = L (fun w => tadd ind (v w) (T w) x).
  Proof. intros H x. unfold tadd. destruct (ind_eqb x ind); [rewrite L_plus, H; reflexivity|apply H]. Qed.
  Lemma L_fold {A} (g : A -> Cx -> tensor Cx -> tensor Cx) (l : list A) v :
    (forall a T T', In a l -> (forall x, T' x = L (fun w => T w x)) -> forall x, g a (L v) T' x = L (fun w => g a (v w) (T w) x)) ->
    forall T T', (forall x, T' x = L (fun w => T w x)) ->
    forall x, fold_left (fun t a => g a (L v) t) l T' x = L (fun w => fold_left (fun t a => g a (v w) t) l (T w) x).
  Proof.
    induction l as [|a l IH]; intros H T T' E x; cbn [fold_left]; [apply E|].
    apply (IH (fun b T1 T2 I => H b T1 T2 (or_intror I)) (fun w => g a (v w) (T w))). intro y. apply H; [left; reflexivity|exact E].
  Qed.
  Lemma L_times (v : list (list (list bool)) -> Cx) (c : Cx) : cmul (L v) c = L (fun w => cmul (v w) c).
  Proof.
    transitivity (cmul c (L v)); [apply C_eq; cbn [Cx cmul Cmul fst snd]; ring|]. rewrite <- L_scal. apply L_ext. intros.
    apply C_eq; cbn [Cx cmul Cmul fst snd]; ring.
  Qed.
  Lemma L_element p r v T T' : (forall x, T' x = L (fun w => T w x)) -> forall x, add_element p r (L v) T' x = L (fun w => add_element p r (v w) (T w) x).
  Proof.
    intros E.
    assert (G : forall x, add_element_p p r (L v) T' x = L (fun w => add_element_p p r (v w) (T w) x)).
    { unfold add_element_p.
      refine (L_fold (fun i v t => fold_left (fun t j => let s := sgn (xorb (snd i) (snd j)) in let t := tadd (fst j ++ fst i) (cmul v s) t in
        if same_set (fst i) (fst j) then t else tadd (fst i ++ fst j) (cmul (cconj v) s) t) (unordered_permute (firstn p r)) t) _ v _ T T' E).
      intros i T1 T1' _ E1.
      refine (L_fold (fun j v t => let s := sgn (xorb (snd i) (snd j)) in let t := tadd (fst j ++ fst i) (cmul v s) t in
        if same_set (fst i) (fst j) then t else tadd (fst i ++ fst j) (cmul (cconj v) s) t) _ v _ T1 T1' E1).
      intros j T2 T2' _ E2 x. cbv zeta.
      assert (E3 : forall x, tadd (fst j ++ fst i) (cmul (L v) (sgn (xorb (snd i) (snd j)))) T2' x = L (fun w => tadd (fst j ++ fst i) (cmul (v w) (sgn (xorb (snd i) (snd j)))) (T2 w) x)).
      { rewrite L_times. apply L_tadd. exact E2. }
      destruct (same_set (fst i) (fst j)); [apply E3|]. rewrite <- L_conj, L_times. apply L_tadd. exact E3. }
    destruct p as [|[|p]]; [exact G| |exact G]. intro x. unfold add_element, add_element_1.
    destruct (nodupb r); [rewrite <- L_conj; apply L_tadd; apply L_tadd; exact E|apply L_tadd; exact E].
  Qed.
  Lemma L_array p els : forall (vals : list (list (list bool)) -> list Cx) (vs : list Cx),
    (forall k v, nth_error vs k = Some v -> exists u, v = L u /\ forall w, samples N n (length ps) w -> nth_error (vals w) k = Some (u w)) ->
    (forall w, samples N n (length ps) w -> length (vals w) = length vs) ->
    forall T T', (forall x, T' x = L (fun w => T w x)) ->
    forall x, fold_left (fun t e => add_element p (fst e) (snd e) t) (combine els vs) T' x =
      L (fun w => fold_left (fun t e => add_element p (fst e) (snd e) t) (combine els (vals w)) (T w) x).
  Proof.
    induction els as [|r els IH]; intros vals vs H HL T T' E x; [cbn [combine fold_left]; apply E|].
    destruct vs as [|v vs].
    - cbn [combine fold_left]. rewrite E. apply L_ext. intros w Hw. specialize (HL w Hw). destruct (vals w); [reflexivity|discriminate].
    - destruct (H 0%nat v eq_refl) as [u [-> Hu]]. cbn [combine fold_left fst snd].
      rewrite (IH (fun w => tl (vals w)) vs) with (T := fun w => add_element p r (u w) (T w)).
      + apply L_ext. intros w Hw. specialize (Hu w Hw). destruct (vals w) as [|y l]; [discriminate|]. cbn [nth_error] in Hu. injection Hu as ->. reflexivity.
      + intros k z Ez. destruct (H (S k) z Ez) as [u' [E1 E2]]. exists u'. split; [exact E1|]. intros w Hw. specialize (E2 w Hw). destruct (vals w); [discriminate|exact E2].
      + intros w Hw. specialize (HL w Hw). destruct (vals w); [discriminate|]. cbn in *. lia.
      + apply L_element. exact E.
  Qed.
  Lemma L_lin {key} (f : list (list (list bool)) -> key -> Cx) (o : list (key * Cx)) : L (fun w => lin (f w) o) = lin (fun s => L (fun w => f w s)) o.
  Proof. induction o as [|[s c] o IH]; cbn [lin]; [apply L_const|]. rewrite L_plus, L_scal, IH. reflexivity. Qed.
  Lemma L_sum {A} (f : list (list (list bool)) -> A -> Cx) l : L (fun w => fold_right cadd c0 (map (f w) l)) = fold_right cadd c0 (map (fun a => L (fun w => f w a)) l).
  Proof. induction l as [|a l IH]; cbn [map fold_right]; [apply L_const|]. rewrite L_plus, IH. reflexivity. Qed.
  Lemma L_evaluate r H en_c (t : list (list (list bool)) -> tensor Cx) : L (fun w => evaluate r H en_c (t w)) = evaluate r H en_c (fun x => L (fun w => t w x)).
  Proof.
    unfold evaluate. rewrite L_plus, L_const. f_equal. unfold observable.
    assert (F : forall (D : nat -> nat -> nat -> nat -> Cx), flat_map (fun i => flat_map (fun k => flat_map (fun j => map (fun l => cmul (H i k j l) (D j l i k)) (seq 0 r)) (seq 0 r)) (seq 0 r)) (seq 0 r)
      = map (fun q : nat * nat * nat * nat => let '(i, k, j, l) := q in cmul (H i k j l) (D j l i k))
          (flat_map (fun i => flat_map (fun k => flat_map (fun j => map (fun l => (i, k, j, l)) (seq 0 r)) (seq 0 r)) (seq 0 r)) (seq 0 r))).
    { intro D0. rewrite flat_map_concat_map, flat_map_concat_map, concat_map, map_map. f_equal. apply map_ext. intro i.
      rewrite flat_map_concat_map, flat_map_concat_map, concat_map, map_map. f_equal. apply map_ext. intro k.
      rewrite flat_map_concat_map, flat_map_concat_map, concat_map, map_map. f_equal. apply map_ext. intro j. rewrite map_map. reflexivity. }
    rewrite F. rewrite (L_ext _ (fun w => fold_right cadd c0 (map (fun q : nat * nat * nat * nat => let '(i, k, j, l) := q in cmul (H i k j l) (t w [j; l; i; k]))
          (flat_map (fun i => flat_map (fun k => flat_map (fun j => map (fun l => (i, k, j, l)) (seq 0 r)) (seq 0 r)) (seq 0 r)) (seq 0 r))))) by (intros; rewrite F; reflexivity).
    rewrite (L_sum (fun w (q : nat * nat * nat * nat) => let '(i, k, j, l) := q in cmul (H i k j l) (t w [j; l; i; k]))). f_equal. apply map_ext.
    intros [[[i k] j] l]. apply L_scal.
  Qed.
End CM.

(** ** The setting of a string *)
Fixpoint last_idx (c : list pauli) (settings : list (list pauli)) : option nat :=
  match settings with
  | [] => None
  | k :: s => match last_idx c s with Some i => Some (S i) | None => if pauli_list_eqb k c then Some O else None end
  end.
Lemma last_idx_In c settings : In c settings -> exists i, last_idx c settings = Some i /\ nth_error settings i = Some c.
Proof.
  assert (G : forall i, last_idx c settings = Some i -> nth_error settings i = Some c).
  { induction settings as [|k s IH]; intros i H; [discriminate|]. cbn [last_idx] in H. destruct (last_idx c s) as [j|].
    - injection H as <-. apply (IH j). reflexivity.
    - destruct (pauli_list_eqb k c) eqn:E; [|discriminate]. injection H as <-. apply pauli_list_eqb_spec in E. subst. reflexivity. }
  intro I. assert (X : last_idx c settings <> None).
  { clear G. induction settings as [|k s IH]; [destruct I|]. cbn [last_idx]. destruct I as [->|I].
    - destruct (last_idx c s); [discriminate|]. rewrite (proj2 (pauli_list_eqb_spec c c) eq_refl). discriminate.
    - specialize (IH I). destruct (last_idx c s); [discriminate|contradiction]. }
  destruct (last_idx c settings) as [i|] eqn:E; [|contradiction X; reflexivity]. exists i. split; [reflexivity|apply G; reflexivity].
Qed.
Lemma last_counts_idx c settings : forall counts, length counts = length settings ->
  last_counts c (combine settings counts) = match last_idx c settings with Some i => nth_error counts i | None => None end.
Proof.
  induction settings as [|k s IH]; intros counts HL; [reflexivity|]. destruct counts as [|d counts]; [discriminate|]. injection HL as HL.
  cbn [combine last_counts last_idx]. rewrite (IH counts HL). destruct (last_idx c s) as [i|] eqn:E; cbn [nth_error].
  - destruct (nth_error counts i) eqn:X; [reflexivity|]. exfalso. apply nth_error_None in X.
    assert (i < length s)%nat; [|lia]. clear - E. revert i E. induction s as [|k s IH]; intros i E; [discriminate|]. cbn [last_idx] in E.
    destruct (last_idx c s) as [j|]; [injection E as <-; specialize (IH j eq_refl); cbn [length]; lia|].
    destruct (pauli_list_eqb k c); [injection E as <-; cbn [length]; lia|discriminate].
  - destruct (pauli_list_eqb k c); reflexivity.
Qed.
Lemma basis_valid N : forall m n0, (n0 + length m <= N)%nat -> forall g, In g (basis_gates (K := Cx) n0 m) -> valid N g.
Proof.
  induction m as [|x m IH]; intros n0 H g I; [destruct I|]. cbn [length] in H. cbn [basis_gates] in I. apply in_app_or in I. destruct I as [I|I]; [|apply (IH (S n0)); [lia|exact I]].
  destruct x; cbn in I; repeat (destruct I as [<-|I]; [split; [cbn; lia|exact Logic.I]|]); destruct I.
Qed.

Lemma outcomes_distribution N prep m : length m = N -> (forall g, In g prep -> valid N g) -> distribution N (outcomes N prep m).
Proof.
  intros HL Va. apply born_distribution. apply (prepared_norm Cx Crt Crt_sq Crt_real N). intros g I. apply in_app_or in I. destruct I as [I|I]; [apply Va; exact I|].
  apply (basis_valid N m 0); [lia|exact I].
Qed.
Lemma osum_snd N : forall (f : bits -> Cx), snd (sumbits N f) = osum N (fun b => snd (f b)).
Proof. induction N as [|N IH]; intro f; cbn [sumbits osum]; [reflexivity|]. rewrite <- !IH. reflexivity. Qed.
Lemma osum_zero N : osum N (fun _ => 0) = 0.
Proof. induction N as [|N IH]; cbn [osum]; [reflexivity|]. rewrite IH. ring. Qed.
Lemma expect_real m p (psi : bits -> Cx) : agrees p m -> snd (expect (length m) (pmat p) psi) = 0.
Proof.
  intro A. pose proof (basis_average Cx Crt Crt_sq Crt_real m p psi A) as B. cbv zeta in B. rewrite <- B. clear B.
  rewrite osum_snd. rewrite (osum_ext _ _ (fun _ => 0)); [apply osum_zero|]. intros b _. unfold sgn. destruct (outcome_parity p b); cbn; ring.
Qed.
Lemma outcomes_average N prep m p : length m = N -> agrees p m -> ((average N (outcomes N prep m) p, 0) : Cx) = expect N (pmat p) (prepared Crt N prep).
Proof.
  intros <- A. apply C_eq; cbn [fst snd]; [|symmetry; apply expect_real; exact A]. rewrite <- (born_average m p _ A).
  unfold average. apply osum_ext. intros b Hb. f_equal. unfold outcomes, born.
  assert (E : prepared Crt (length m) (prep ++ basis_gates 0 m) (rev b) = mvec (length m) (cmat (Crt : Cx) (length m) (basis_gates 0 m)) (prepared Crt (length m) prep) (rev b)).
  { unfold prepared. rewrite (mvec_meq Cx (length m) _ _ _ (rev b) (cmat_app Cx Crt (length m) prep (basis_gates 0 m))) by (rewrite rev_length; exact Hb). apply mvec_mmul. }
  rewrite E. reflexivity.
Qed.

(** ** Elements *)
Section Elem.
  Variables (N n : nat) (prep : list (gate Cx)) (settings : list (list pauli)) (mapping : pdict).
  Hypothesis Hn : (0 < n)%nat.
  Hypothesis Va : forall g, In g prep -> valid N g.
  Hypothesis SL : forall m, In m settings -> length m = N.
  Let ps := map (outcomes N prep) settings.
  Definition idx (s : list pauli) : nat := match pget s mapping with Some m => match last_idx m settings with Some i => i | None => O end | None => O end.
  Definition zval (w : list (list (list bool))) (s : list pauli) : Cx :=
    if forallb (fun p => pauli_eqb p PI) s then c1 else (/ INR n * IZR (total s (nth (idx s) w [])), 0).
  Lemma ps_dist : forall p, In p ps -> distribution N p.
  Proof. intros p I. apply in_map_iff in I. destruct I as [m [<- I]]. apply outcomes_distribution; [apply SL; exact I|exact Va]. Qed.
  Lemma zval_mean s : length s = N -> (exists m, pget s mapping = Some m /\ In m settings /\ agrees s m) ->
    cmeans N n ps (fun w => zval w s) = expect N (pmat s) (prepared Crt N prep).
  Proof.
    intros Ls [m [M1 [M2 M3]]]. unfold zval. destruct (forallb (fun p => pauli_eqb p PI) s) eqn:F.
    - rewrite (L_const N n ps ps_dist). apply all_identity in F. rewrite Ls in F. rewrite F.
      rewrite (expect_meq Cx N _ _ _ (pmat_identity Cx N)), expect_mone. symmetry. apply (prepared_norm Cx Crt Crt_sq Crt_real N prep Va).
    - rewrite <- (outcomes_average N prep m s (SL m M2) M3). apply C_eq; cbn [cmeans fst snd].
      + destruct (last_idx_In m settings M2) as [i [I1 I2]]. unfold idx. rewrite M1, I1.
        rewrite (means_coord N n ps ps_dist i (outcomes N prep m) (fun l => / INR n * IZR (total s l))).
        * rewrite mean_scal, (first_moment N _ s (outcomes_distribution N prep m (SL m M2) Va)). field. apply Rgt_not_eq, n_pos. exact Hn.
        * unfold ps. apply map_nth_error. exact I2.
      + apply means_const. exact ps_dist.
  Qed.
  Lemma element_counts_value w counts op : samples N n (length settings) w -> Forall2 tallies w counts ->
    (forall e, In e op -> length (fst e) = N /\ exists m, pget (fst e) mapping = Some m /\ In m settings /\ agrees (fst e) m) ->
    forall temp, element_counts N mapping (combine settings counts) op temp = Some (cadd temp (lin (zval w) op)).
  Proof.
    intros [Lw Hw] T. induction op as [|[s c] op IH]; intros H temp; cbn [element_counts lin].
    - f_equal. apply C_eq; cbn; ring.
    - destruct (H (s, c) (or_introl eq_refl)) as [Ls [m [M1 [M2 M3]]]]. cbn [fst] in *.
      specialize (IH (fun e I => H e (or_intror I))).
      assert (Z : forall x, zval w s = x -> Some (cadd (cadd temp (cmul x c)) (lin (zval w) op)) = Some (cadd temp (cadd (cmul c (zval w s)) (lin (zval w) op)))).
      { intros x <-. f_equal. apply C_eq; cbn [Cx cadd cmul Cadd Cmul fst snd]; ring. }
      destruct (forallb (fun p => pauli_eqb p PI) s) eqn:F.
      + rewrite IH. rewrite <- (Z c1); [|unfold zval; rewrite F; reflexivity]. f_equal. apply C_eq; cbn; ring.
      + rewrite M1. assert (LC : length counts = length settings) by (rewrite <- Lw; clear - T; induction T as [|? ? ? ? ? ? IHT]; [reflexivity|cbn [length]; rewrite IHT; reflexivity]).
        rewrite (last_counts_idx m settings counts LC). destruct (last_idx_In m settings M2) as [i [I1 I2]]. rewrite I1.
        assert (Li : (i < length settings)%nat) by (apply nth_error_Some; congruence).
        destruct (nth_error counts i) as [d|] eqn:Ed; [|apply nth_error_None in Ed; lia].
        assert (Td : tallies (nth i w []) d).
        { clear - T Ed. revert i Ed. induction T as [|a b w counts H T IH]; intros i Ed; [destruct i; discriminate|]. destruct i as [|i]; cbn in *; [injection Ed as <-; exact H|apply IH; exact Ed]. }
        assert (Hi : sample N n (nth i w [])) by (apply Hw, nth_In; lia).
        destruct (counts_value N n s (nth i w []) d Hn ltac:(lia) Hi Td) as [q [Q1 Q2]]. rewrite Q1, IH.
        apply Z. unfold zval. rewrite F. unfold idx. rewrite M1, I1, Q2. unfold Rdiv. f_equal. ring.
  Qed.
  Lemma element_mean (op : list (list pauli * Cx)) :
    (forall e, In e op -> length (fst e) = N /\ exists m, pget (fst e) mapping = Some m /\ In m settings /\ agrees (fst e) m) ->
    cmeans N n ps (fun w => lin (zval w) op) = expect N (omat op) (prepared Crt N prep).
  Proof.
    intro H. rewrite (L_lin N n ps ps_dist zval op), expect_lin. induction op as [|[s c] op IH]; [reflexivity|]. cbn [lin].
    rewrite IH by (intros; apply H; right; assumption). destruct (H (s, c) (or_introl eq_refl)) as [Ls Hm]. cbn [fst] in *. rewrite (zval_mean s Ls Hm). reflexivity.
  Qed.
End Elem.

(** ** Runs *)
Section Runs.
  Variables (simp : simplify_option) (p : nat) (real imag : bool) (N n : nat) (prep : list (gate Cx)).
  Hypothesis Hp : (1 <= p <= 3)%nat.
  Hypothesis RI : real || imag = true.
  Hypothesis Sz : sized simp.
  Hypothesis Va : forall g, In g prep -> valid (2 * N) g.
  Hypothesis Hn : (0 < n)%nat.
  Let R := (2 * N)%nat.
  Let els := rdm_elements p real imag (seq 0 N) (seq N N).
  Let psi := prepared Crt R prep.

  Lemma plan_facts qops settings mapping : plan_of jw_operator simp p real imag N = Some (qops, (settings, mapping)) ->
    exists ops : list (list (fstr * Cx)), map (fun r => generate_rdme r real imag R) els = map Some ops /\ qops = map jw_operator ops /\ (forall op, In op ops -> meq R (omat (jw_operator op)) (fop_mat op)) /\ (forall m, In m settings -> length m = R) /\ (forall op, In op ops -> forall e, In e (jw_operator op) -> length (fst e) = R /\ exists m, pget (fst e) mapping = Some m /\ In m settings /\ agrees (fst e) m).
  Proof.
    unfold plan_of. fold R els.
    destruct (option_seq (map (fun r => generate_rdme r real imag R) els)) as [ops|] eqn:EO; [|discriminate].
    match goal with |- match ?x with _ => _ end = _ -> _ => destruct x as [[st mp]|] eqn:EM end; [|discriminate]. intro H. injection H as E1 E2 E3; subst qops st mp.
    apply option_seq_some in EO.
    assert (GS : forall r, In r els -> exists op : list (fstr * Cx), generate_rdme r real imag R = Some op /\ (forall e, In e op -> length (fst e) = R /\ dyadic 1 (snd e) /\ (count_ops (fst e) + 1 <= 7)%nat)).
    { intros r Hr. destruct (elements_listed p N real imag Hp RI r Hr) as [c [a [-> [L [L3 [F1 [F2 _]]]]]]].
      assert (Sh : shortens (listed c a) = false).
      { pose proof (in_map (fun r => @generate_rdme Cx r real imag R) _ _ Hr) as I. rewrite EO in I. apply in_map_iff in I. destruct I as [op [I _]]. exact (generate_rdme_kept Cx _ _ _ _ _ (eq_sym I)). }
      destruct (generate_rdme_mat Cx c a real imag R L F1 F2 RI Sh) as [op [E [H _]]]. exists op. split; [exact E|]. intros e He. split; [apply H; exact He|].
      apply (generate_rdme_within Cx c a real imag R op L ltac:(lia) F1 F2 E e He). }
    assert (EX : forall op, In op ops -> meq R (omat (jw_operator op)) (fop_mat op) /\ (forall e, In e (jw_operator op) -> length (fst e) = R)).
    { intros op Ho. assert (X : In (Some op) (map Some ops)) by (apply in_map; exact Ho). rewrite <- EO in X. apply in_map_iff in X. destruct X as [r [X1 X2]].
      destruct (GS r X2) as [op' [H3 H4]]. rewrite X1 in H3. injection H3 as <-. apply (jw_operator_exact Cx 7 cx_exact R op 1). exact H4. }
    assert (CL : forall s, In s (collect (map jw_operator ops)) -> length s = R).
    { intros s Hs. apply collect_In in Hs. destruct Hs as [q [Hq Hs]]. apply in_map_iff in Hq. destruct Hq as [op [<- Ho]]. apply in_map_iff in Hs. destruct Hs as [e [<- He]]. apply (EX op Ho). exact He. }
    destruct (plan_covers _ _ _ _ _ _ Sz CL EM) as [SL CV]. exists ops. split; [exact EO|]. split; [reflexivity|]. split; [intros op Ho; apply (EX op Ho)|]. split; [exact SL|].
    intros op Ho e He. split; [apply (EX op Ho); exact He|]. apply CV. apply collect_In. exists (jw_operator op). split; apply in_map; assumption.
  Qed.

  Lemma run_value qops settings mapping w counts : plan_of jw_operator simp p real imag N = Some (qops, (settings, mapping)) ->
    samples R n (length settings) w -> Forall2 tallies w counts ->
    tomography_counts jw_operator simp p real imag N counts =
      Some (fold_left (fun t e => add_element p (fst e) (snd e) t) (combine els (map (lin (zval n settings mapping w)) qops)) (tzero (K := Cx))).
  Proof.
    intros PL W T. unfold tomography_counts. rewrite PL. destruct (plan_facts qops settings mapping PL) as [ops [_ [-> [_ [SL HM]]]]]. fold R els.
    match goal with |- match ?x with _ => _ end = _ => replace x with (Some (map (lin (zval n settings mapping w)) (map jw_operator ops))) end; [reflexivity|].
    symmetry. apply option_seq_some. rewrite !map_map. apply map_ext_in. intros op Ho.
    rewrite (element_counts_value R n settings mapping Hn w counts (jw_operator op) W T (HM op Ho)). f_equal. apply C_eq; cbn; ring.
  Qed.

  Theorem counts_return settings w counts : settings_of jw_operator simp p real imag N = Some settings -> samples R n (length settings) w -> Forall2 tallies w counts ->
    exists t, tomography_counts jw_operator simp p real imag N counts = Some t.
  Proof.
    unfold settings_of. destruct (plan_of jw_operator simp p real imag N) as [[qops [st mapping]]|] eqn:PL; [|discriminate]. intro H. injection H as ->. intros W T.
    eexists. apply (run_value qops settings mapping w counts PL W T).
  Qed.

  Variable settings : list (list pauli).
  Variable est : list (list (list bool)) -> tensor Cx.
  Hypothesis St : settings_of jw_operator simp p real imag N = Some settings.
  Hypothesis Est : forall w, samples R n (length settings) w -> exists counts, Forall2 tallies w counts /\ tomography_counts jw_operator simp p real imag N counts = Some (est w).

  Theorem counts_rdm nu : has_up R N nu psi ->
    forall c a, length c = p -> length a = p -> Forall (fun x => x < R)%nat c -> Forall (fun x => x < R)%nat a ->
      cmeans R n (map (outcomes R prep) settings) (fun w => est w (c ++ a)) = part real imag (rdm_of R psi c a).
  Proof.
    intros Up c a Lc La Fc Fa. unfold settings_of in St.
    destruct (plan_of jw_operator simp p real imag N) as [[qops [st mapping]]|] eqn:PL; [|discriminate]. injection St as ->.
    destruct (plan_facts qops settings mapping PL) as [ops [EO [EQ [EX [SL HM]]]]].
    set (ps := map (outcomes R prep) settings). assert (Lps : length ps = length settings) by apply map_length.
    assert (D : forall q, In q ps -> distribution R q) by (apply ps_dist; assumption).
    rewrite (L_ext R n ps _ (fun w => fold_left (fun t e => add_element p (fst e) (snd e) t) (combine els (map (lin (zval n settings mapping w)) qops)) (tzero (K := Cx)) (c ++ a))).
    2:{ intros w W. rewrite Lps in W. destruct (Est w W) as [counts [T1 T2]]. rewrite (run_value qops settings mapping w counts PL W T1) in T2. injection T2 as <-. reflexivity. }
    set (value := fun r => match generate_rdme r real imag R with Some op => expect R (fop_mat op) psi | None => c0 end).
    assert (Val : forall r, In r els -> exists op, generate_rdme r real imag R = Some op /\ value r = expect R (fop_mat op) psi).
    { intros r Hr. assert (X : In (generate_rdme r real imag R) (map Some ops)) by (rewrite <- EO; exact (in_map (fun r => generate_rdme r real imag R) els r Hr)).
      apply in_map_iff in X. destruct X as [op [X _]]. exists op. split; [symmetry; exact X|unfold value; rewrite <- X; reflexivity]. }
    transitivity (build_rdm p els value (c ++ a)); [|exact (reconstruction Cx p N nu psi real imag value Hp RI Up Val c a Lc La Fc Fa)].
    assert (EV : map (fun op => expect R (fop_mat op) psi) ops = map value els).
    { assert (X : map Some (map (fun op => expect R (fop_mat op) psi) ops) = map Some (map value els)).
      { rewrite !map_map. transitivity (map (fun o => match o with Some op => Some (expect R (fop_mat op) psi) | None => Some c0 end) (map Some ops)); [rewrite map_map; reflexivity|].
        rewrite <- EO, map_map. apply map_ext. intro r. unfold value. destruct (generate_rdme r real imag R); reflexivity. }
      revert X. generalize (map value els). generalize (map (fun op => expect R (fop_mat op) psi) ops). clear.
      induction l as [|x l IH]; intros [|y l0] X; try discriminate; [reflexivity|]. injection X as -> X. f_equal. apply IH. exact X. }
    unfold build_rdm. rewrite <- (build_values Cx p value els _ (tzero (K := Cx)) EV). symmetry.
    apply (L_array R n ps p els (fun w => map (lin (zval n settings mapping w)) qops) (map (fun op => expect R (fop_mat op) psi) ops)) with (T := fun _ => tzero (K := Cx)).
    - intros k v E. rewrite nth_error_map in E. destruct (nth_error ops k) as [op|] eqn:Ek; [|discriminate]. injection E as <-.
      exists (fun w => lin (zval n settings mapping w) (jw_operator op)). split.
      + unfold ps. rewrite (element_mean R n prep settings mapping Hn Va SL (jw_operator op)); [|apply HM; eapply nth_error_In; exact Ek].
        symmetry. apply expect_meq. apply EX. eapply nth_error_In. exact Ek.
      + intros w _. rewrite EQ. apply map_nth_error. apply (map_nth_error jw_operator). exact Ek.
    - intros w _. rewrite EQ, !map_length. reflexivity.
    - intro x. symmetry. apply L_const. exact D.
  Qed.
End Runs.

(** The energy of an array of the entries of the RDM. *)
Lemma array_energy imag N Ne w h V en_c (psi : bits -> Cx) (t : tensor Cx) : has_particles (2 * N) Ne psi ->
  cmul (cmul (cadd (cadd (cadd c1 c1) c1) c1) w) (ofnat (Ne - 1)) = c1 ->
  (imag = true \/ cconj w = w /\ (forall i j, cconj (h i j) = h i j) /\ (forall p q s t, cconj (V p q s t) = V p q s t)) ->
  (forall c a, length c = 2%nat -> length a = 2%nat -> Forall (fun x => x < 2 * N)%nat c -> Forall (fun x => x < 2 * N)%nat a -> t (c ++ a) = part true imag (rdm_of (2 * N) psi c a)) ->
  evaluate (2 * N) (build_K2 (2 * N) w h V) en_c t =
    cadd (part true imag (expect (2 * N) (ham (2 * N) (fun p q => h q p) (fun p t q s => V q s p t)) psi)) en_c.
Proof.
  intros Pa Hw HI T. unfold evaluate. f_equal. rewrite <- (K2_energy Cx (2 * N) Ne w h V _ Pa Hw).
  set (D := fun a b c d => rdm_of (2 * N) psi [a; b] [c; d]).
  transitivity (observable (2 * N) (build_K2 (2 * N) w h V) (fun a b c d => part true imag (D a b c d))).
  { apply observable_ext. intros a b c d Ha Hb Hc Hd. apply (T [a; b] [c; d] eq_refl eq_refl); repeat constructor; assumption. }
  destruct imag; [reflexivity|]. destruct HI as [HI|[Cw [Ch CV]]]; [discriminate|].
  cbn [part]. rewrite observable_part, (observable_conj Cx _ _ D (K2_real Cx _ w h V Cw Ch CV)). reflexivity.
Qed.
Theorem counts_energy simp imag N n Ne nu prep settings est w h V en_c : sized simp -> (forall g, In g prep -> valid (2 * N) g) -> (0 < n)%nat ->
  settings_of jw_operator simp 2 true imag N = Some settings ->
  (forall ws, samples (2 * N) n (length settings) ws -> exists counts, Forall2 tallies ws counts /\ tomography_counts jw_operator simp 2 true imag N counts = Some (est ws)) ->
  has_up (2 * N) N nu (prepared Crt (2 * N) prep) -> has_particles (2 * N) Ne (prepared Crt (2 * N) prep) ->
  cmul (cmul (cadd (cadd (cadd c1 c1) c1) c1) w) (ofnat (Ne - 1)) = c1 -> cconj w = w ->
  (forall i j, cconj (h i j) = h i j) -> (forall i j, h i j = h j i) ->
  (forall p q s t, cconj (V p q s t) = V p q s t) -> (forall p q s t, V p q s t = V q p t s) -> (forall p q s t, V p q s t = V s t p q) ->
  cmeans (2 * N) n (map (outcomes (2 * N) prep) settings) (fun ws => evaluate (2 * N) (build_K2 (2 * N) w h V) en_c (est ws)) =
    cadd (expect (2 * N) (ham (2 * N) h V) (prepared Crt (2 * N) prep)) en_c.
Proof.
  intros Sz Va Hn St Est Up Pa Hw Cw Ch Sh CV S1 S2. assert (P2 : (1 <= 2 <= 3)%nat) by lia.
  assert (D : forall q, In q (map (outcomes (2 * N) prep) settings) -> distribution (2 * N) q).
  { unfold settings_of in St. destruct (plan_of jw_operator simp 2 true imag N) as [[qops [st mapping]]|] eqn:PL; [|discriminate]. injection St as ->.
    destruct (plan_facts simp 2 true imag N n P2 eq_refl Sz Hn qops settings mapping PL) as [ops [_ [_ [_ [SL _]]]]]. apply ps_dist; assumption. }
  rewrite (L_evaluate _ _ _ D). set (psi := prepared Crt (2 * N) prep) in *.
  rewrite (array_energy imag N Ne w h V en_c psi _ Pa Hw (or_intror (conj Cw (conj Ch CV)))).
  2:{ intros c a Lc La Fc Fa. apply (counts_rdm simp 2 true imag N n prep P2 eq_refl Sz Va Hn settings est St Est nu Up c a Lc La Fc Fa). }
  assert (E : expect (2 * N) (ham (2 * N) h V) psi = expect (2 * N) (ham (2 * N) (fun p q => h q p) (fun p t q s => V q s p t)) psi).
  { apply expect_meq. intros x y _ _. unfold ham.
    assert (U : forall n f g, (forall i, f i = g i) -> @upto Cx n f = upto n g) by (intros; apply upto_ext; auto).
    f_equal; [|f_equal]; repeat (apply U; intro); [rewrite Sh|rewrite S2]; reflexivity. }
  assert (R0 : cconj (expect (2 * N) (ham (2 * N) h V) psi) = expect (2 * N) (ham (2 * N) h V) psi).
  { rewrite E, <- (K2_energy Cx (2 * N) Ne w h V _ Pa Hw). apply observable_real. apply K2_symmetric; assumption. }
  rewrite <- E. destruct imag; cbn [part]; [reflexivity|]. rewrite R0. f_equal. apply C_eq; cbn; field.
Qed.

(** With a proper colouring, or without grouping, there is a plan. *)
Theorem settings_exist simp p real imag N : (2 <= p <= 3)%nat -> real || imag = true -> proper simp -> exists settings, settings_of jw_operator simp p real imag N = Some settings.
Proof.
  intros Hp2 RI P. assert (Hp : (1 <= p <= 3)%nat) by lia. unfold settings_of, plan_of. set (els := rdm_elements p real imag (seq 0 N) (seq N N)). set (R := (2 * N)%nat).
  assert (GS : forall r, In r els -> exists op : list (fstr * Cx), generate_rdme r real imag R = Some op /\ (forall e, In e op -> length (fst e) = R /\ dyadic 1 (snd e) /\ (count_ops (fst e) + 1 <= 7)%nat)).
  { intros r Hr. destruct (elements_listed p N real imag Hp RI r Hr) as [c [a [-> [L [L3 [F1 [F2 Sh]]]]]]]. specialize (Sh (or_introl (proj1 Hp2))).
    destruct (generate_rdme_mat Cx c a real imag R L F1 F2 RI Sh) as [op [E [H _]]]. exists op. split; [exact E|]. intros e He. split; [apply H; exact He|].
    apply (generate_rdme_within Cx c a real imag R op L ltac:(lia) F1 F2 E e He). }
  destruct (option_seq_all (fun r => @generate_rdme Cx r real imag R) els) as [ops EO].
  { intros r Hr. destruct (GS r Hr) as [op [H _]]. exists op. exact H. }
  rewrite EO. apply option_seq_some in EO.
  assert (EX : forall op, In op ops -> (forall e, In e (jw_operator op) -> length (fst e) = R)).
  { intros op Ho. assert (X : In (Some op) (map Some ops)) by (apply in_map; exact Ho). rewrite <- EO in X. apply in_map_iff in X. destruct X as [r [X1 X2]].
    destruct (GS r X2) as [op' [H3 H4]]. rewrite X1 in H3. injection H3 as <-. apply (jw_operator_exact Cx 7 cx_exact R op 1). exact H4. }
  assert (CL : forall s, In s (collect (map jw_operator ops)) -> length s = R).
  { intros s Hs. apply collect_In in Hs. destruct Hs as [q [Hq Hs]]. apply in_map_iff in Hq. destruct Hq as [op [<- Ho]]. apply in_map_iff in Hs. destruct Hs as [e [<- He]]. apply (EX op Ho). exact He. }
  destruct (plan_returns simp real R (collect (map jw_operator ops)) P CL) as [settings [mapping [EM _]]].
  match goal with |- exists _, match match ?x with _ => _ end with _ => _ end = _ => replace x with (Some (settings, mapping)) by (symmetry; exact EM) end. exists settings. reflexivity.
Qed.

(** Every list of shots has a dictionary of counts. *)
Definition tally (l : list (list bool)) : list (list bool * Z) :=
  map (fun d => (d, Z.of_nat (count_occ (list_eq_dec bool_dec) l d))) (nodup (list_eq_dec bool_dec) l).
Lemma tally_ok l : tallies l (tally l).
Proof.
  unfold tally. split.
  - rewrite map_map. cbn [fst]. rewrite map_id. apply NoDup_nodup.
  - intros d k. rewrite in_map_iff. split.
    + intros [x [E I]]. injection E as -> <-. apply nodup_In in I. split; [reflexivity|]. apply (count_occ_In (list_eq_dec bool_dec)) in I. lia.
    + intros [-> H]. exists d. split; [reflexivity|]. apply nodup_In. apply (count_occ_In (list_eq_dec bool_dec)). lia.
Qed.
