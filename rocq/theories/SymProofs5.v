(** Symmetry-projected RDM elements. *)
From Coq Require Import Bool List Arith ZArith Lia Ring Permutation.
From Verif Require Import Coeff MatSpec MatLemmas PauliModel PauliProofs OpSpec OperatorModel OperatorProofs FockSpec FermiModel FermiProofs TransformModel TwoTerm JWProofs AdjProofs
  HamSpec HamProofs HamProofs4 CircuitSpec RdmSpec RdmModel RdmFock RdmProofs SymSpec SymModel SymProofs1 SymProofs2 SymProofs3 SymProofs4 InvProofs.
Import ListNotations.

(** * What sorting and merging keep *)
Section Keep.
  Variable M : Type.
  Variable op : M -> M -> M.
  Variable u : M.
  Variable g : fop * nat -> M.
  Hypothesis op_assoc : forall a b c, op a (op b c) = op (op a b) c.
  Hypothesis op_comm : forall a b, op a b = op b a.
  Hypothesis g_merge : forall a b o i, merge_table a b = Some o -> g (o, i) = op (g (a, i)) (g (b, i)).
  Definition fold_g (l : list (fop * nat)) : M := fold_right (fun e acc => op (g e) acc) u l.
  Lemma fold_g_perm l l' : Permutation l l' -> fold_g l = fold_g l'.
  Proof. unfold fold_g. induction 1; cbn; [reflexivity|now rewrite IHPermutation| |congruence]. rewrite !op_assoc. f_equal. apply op_comm. Qed.
  Lemma fold_g_pass l : forall l', merge_pass l = MCont l' -> fold_g l' = fold_g l.
  Proof.
    induction l as [|[a i] t IH]; intros l'; cbn [merge_pass]; [discriminate|]. destruct t as [|[b j] t']; [discriminate|]. destruct (i =? j) eqn:E.
    - apply Nat.eqb_eq in E. subst j. destruct (merge_table a b) as [o|] eqn:Mt; [|discriminate]. intros H. injection H as <-. cbn [fold_g fold_right]. rewrite (g_merge a b o i Mt). now rewrite op_assoc.
    - destruct (merge_pass ((b, j) :: t')) as [| |l1]; try discriminate. intros H. injection H as <-. cbn [fold_g fold_right]. f_equal. exact (IH l1 eq_refl).
  Qed.
  Lemma fold_g_loop fuel : forall l l', merge_loop fuel l = Some (Some l') -> fold_g l' = fold_g l.
  Proof.
    induction fuel as [|f IH]; intros l l'; cbn [merge_loop]; [discriminate|]. destruct (merge_pass l) as [| |l1] eqn:E; [intros H; now injection H as <-|discriminate|].
    intros H. rewrite (IH l1 l' H). now apply fold_g_pass.
  Qed.
  Lemma fold_g_stage l l' : merge_stage l = Some (Some l') -> fold_g l' = fold_g l.
  Proof. unfold merge_stage. destruct (nodup_inds l); [intros H; now injection H as <-|apply fold_g_loop]. Qed.
End Keep.
Lemma pass_length l : forall l', merge_pass l = MCont l' -> length l' <= length l.
Proof.
  induction l as [|[a i] t IH]; intros l'; cbn [merge_pass]; [discriminate|]. destruct t as [|[b j] t']; [discriminate|]. destruct (i =? j).
  - destruct (merge_table a b); [|discriminate]. intros H. injection H as <-. cbn. lia.
  - destruct (merge_pass ((b, j) :: t')) as [| |l1]; try discriminate. intros H. injection H as <-. specialize (IH l1 eq_refl). cbn in *. lia.
Qed.
Lemma stage_length l l' : merge_stage l = Some (Some l') -> length l' <= length l.
Proof.
  unfold merge_stage. destruct (nodup_inds l); [intros H; now injection H as <-|]. generalize (S (length l)) as fuel. intros fuel. revert l. induction fuel as [|f IH]; intros l; cbn [merge_loop]; [discriminate|].
  destruct (merge_pass l) as [| |l1] eqn:E; [intros H; now injection H as <-|discriminate|]. intros H. apply IH in H. apply pass_length in E. lia.
Qed.
(** Parity of the ladder letters at a site, whether there is a letter, and created minus annihilated particles. *)
Definition par_at (i : nat) := fold_g bool xorb false (fun e => (snd e =? i) && ladder (fst e)).
Definition any_at (i : nat) := fold_g bool Datatypes.orb false (fun e => snd e =? i).
Definition net_on (sel : nat -> bool) := fold_g Z Z.add 0%Z (fun e => if sel (snd e) then match fst e with Cre => 1 | Ann => -1 | _ => 0 end else 0)%Z.
Definition alike (l l' : list (fop * nat)) : Prop := (forall i, par_at i l = par_at i l') /\ (forall i, any_at i l = any_at i l') /\ (forall sel, net_on sel l = net_on sel l') /\ length l' <= length l.
Lemma sym_xorb_assoc a b c : xorb a (xorb b c) = xorb (xorb a b) c. Proof. symmetry. apply xorb_assoc. Qed.
Lemma alike_perm l l' : Permutation l l' -> alike l l'.
Proof.
  intros H. split; [|split; [|split]].
  - intros i. apply fold_g_perm; [apply sym_xorb_assoc|apply xorb_comm|exact H].
  - intros i. apply fold_g_perm; [apply orb_assoc|apply orb_comm|exact H].
  - intros i. apply fold_g_perm; [apply Z.add_assoc|apply Z.add_comm|exact H].
  - rewrite (Permutation_length H). lia.
Qed.
Lemma alike_stage l l' : merge_stage l = Some (Some l') -> alike l l'.
Proof.
  intros H. split; [|split; [|split]].
  - intros i. symmetry. apply fold_g_stage; [apply sym_xorb_assoc| |exact H]. intros a b o j E. cbn. destruct (j =? i); [|reflexivity]. destruct a, b; try discriminate; injection E as <-; reflexivity.
  - intros i. symmetry. apply fold_g_stage; [apply orb_assoc| |exact H]. intros a b o j E. cbn. now rewrite orb_diag.
  - intros sel. symmetry. apply fold_g_stage; [apply Z.add_assoc| |exact H]. intros a b o j E. cbn. destruct (sel j); [|reflexivity]. destruct a, b; try discriminate; injection E as <-; reflexivity.
  - now apply stage_length.
Qed.
Lemma alike_trans a b c : alike a b -> alike b c -> alike a c.
Proof. intros [A1 [A2 [A3 A4]]] [B1 [B2 [B3 B4]]]. split; [|split; [|split]]; intros; try congruence. lia. Qed.
(** Strings with alike letters are of one kind. *)
Lemma fold_shift {M} op u (g g' : fop * nat -> M) l : (forall e, g (fst e, S (snd e)) = g' e) -> fold_g M op u g (map (fun e => (fst e, S (snd e))) l) = fold_g M op u g' l.
Proof. intros H. unfold fold_g in *. induction l as [|e l IH]; cbn [map fold_right]; [reflexivity|]. now rewrite H, IH. Qed.
Lemma fold_unit {M} op u (g : fop * nat -> M) l : (forall e, In e l -> g e = u) -> op u u = u -> fold_g M op u g l = u.
Proof. intros H U. unfold fold_g in *. induction l as [|e l IH]; cbn [fold_right]; [reflexivity|]. rewrite H by now left. rewrite IH; [exact U|]. intros; apply H; now right. Qed.
Lemma kind_alike s : forall t, length s = length t -> (forall i, par_at i (flat 0 s) = par_at i (flat 0 t)) -> (forall i, any_at i (flat 0 s) = any_at i (flat 0 t)) -> same_kind s t = true.
Proof.
  assert (PS : forall i l, par_at (S i) (map (fun e => (fst e, S (snd e))) l) = par_at i l) by (intros; apply fold_shift; intros [o j]; reflexivity).
  assert (AS : forall i l, any_at (S i) (map (fun e => (fst e, S (snd e))) l) = any_at i l) by (intros; apply fold_shift; intros [o j]; reflexivity).
  assert (P0 : forall l, par_at 0 (map (fun e => (fst e, S (snd e))) l) = false) by (intros; apply fold_unit; [|reflexivity]; intros e He; apply in_map_iff in He; destruct He as [x [<- _]]; reflexivity).
  assert (A0 : forall l, any_at 0 (map (fun e => (fst e, S (snd e))) l) = false) by (intros; apply fold_unit; [|reflexivity]; intros e He; apply in_map_iff in He; destruct He as [x [<- _]]; reflexivity).
  assert (PC : forall i o j l, par_at i ((o, j) :: l) = xorb ((j =? i) && ladder o) (par_at i l)) by reflexivity.
  assert (AC : forall i o j l, any_at i ((o, j) :: l) = Datatypes.orb (j =? i) (any_at i l)) by reflexivity.
  induction s as [|[a|] s IH]; intros [|[b|] t] L P A; try discriminate; cbn [same_kind flat] in *.
  - reflexivity.
  - injection L as L. rewrite (flat_shift s 0), (flat_shift t 0) in *. apply andb_true_iff. split.
    + specialize (P 0). rewrite !PC, !P0, !xorb_false_r in P. cbn in P. rewrite P. apply eqb_reflx.
    + apply IH; [exact L| |]; intros i; [specialize (P (S i)); rewrite !PC, !PS in P; cbn [Nat.eqb andb] in P; rewrite !xorb_false_l in P; exact P|specialize (A (S i)); rewrite !AC, !AS in A; cbn [Nat.eqb] in A; rewrite !orb_false_l in A; exact A].
  - exfalso. specialize (A 0). rewrite AC, (flat_shift t 0), A0 in A. discriminate.
  - exfalso. specialize (A 0). rewrite AC, (flat_shift s 0), A0 in A. discriminate.
  - injection L as L. rewrite (flat_shift s 0), (flat_shift t 0) in *. apply IH; [exact L| |]; intros i; [specialize (P (S i)); rewrite !PS in P; exact P|specialize (A (S i)); rewrite !AS in A; exact A].
Qed.
Lemma balanced_net sel t : balanced sel t <-> net_on sel (flat 0 t) = 0%Z.
Proof.
  unfold balanced, letters_on. generalize (flat 0 t). intros l.
  assert (H : net_on sel l = (Z.of_nat (length (filter (fun e => match fst e with Cre => sel (snd e) | _ => false end) l)) - Z.of_nat (length (filter (fun e => match fst e with Ann => sel (snd e) | _ => false end) l)))%Z).
  { induction l as [|[o i] l IH]; [reflexivity|]. unfold net_on in *. cbn [fold_g fold_right fst snd filter]. unfold fold_g in IH. rewrite IH. destruct (sel i), o; cbn [length]; lia. }
  rewrite H. lia.
Qed.

Section Sym5.
  Variable K : CoefRing.
  Add Ring KRing : (c_ring K).
  Local Open Scope coef_scope.
  (** The string made from a product of letters. *)
  Lemma fermi_new_kind (c : K) l N s x : (forall e, In e l -> snd e < N)%nat -> fermi_new true c l N = Some (s, x) -> (s = repeat None N /\ x = 0) \/ alike l (flat 0 s).
  Proof.
    intros H. destruct l as [|e0 l0] eqn:El.
    - intros E. injection E as <- <-. right. rewrite flat_repeat_None'. apply alike_perm. constructor.
    - rewrite <- El in *. assert (Hne : l <> []) by (subst; discriminate). replace (fermi_new true c l N) with (generate true c l N) by (subst; reflexivity). clear El. unfold generate.
      destruct (sort_loop_spec K true (S (length l * length l)%nat) c l) as [sg [l1 [E [R [P S1]]]]]; [pose proof (inversions_le l); lia|].
      rewrite E. destruct (merge_stage l1) as [[l2|]|] eqn:M; [| |discriminate].
      + cbv zeta. match goal with |- context[ceqb ?v 0] => destruct (ceqb v 0) eqn:Ec end.
        * intros G. injection G as <- <-. left. apply ceqb_spec in Ec. auto.
        * destruct l2 as [|e2 l2]; [discriminate|]. intros G. assert (s = assemble (e2 :: l2) N) as -> by congruence. right.
          destruct (merge_stage_spec l1 S1) as [[M' _]|[l3 [M' [_ [S2 [I2 _]]]]]]; rewrite M in M'; [discriminate|]. injection M' as <-.
          destruct (assemble_spec (e2 :: l2) N) as [F _]; [discriminate|exact S2| |].
          { intros e He. destruct (I2 e He) as [o Ho]. apply Permutation_sym in P. apply (Permutation_in _ P) in Ho. apply H in Ho. exact Ho. }
          rewrite F. apply alike_trans with l1; [now apply alike_perm|now apply alike_stage].
      + cbv zeta. rewrite (proj2 (ceqb_spec K 0 0) eq_refl). intros G. injection G as <- <-. left. auto.
  Qed.
  (** Letters of an RDM element. *)
  Lemma ladders_at i l : (forall e, In e l -> ladder (fst e) = true) -> par_at i l = par_at i (map (fun j => (Cre, j)) (map snd l)).
  Proof. intros H. unfold par_at. induction l as [|[o j] l IH]; [reflexivity|]. cbn [map snd fold_g fold_right fst ladder]. unfold fold_g in IH. rewrite IH by (intros; apply H; now right). pose proof (H (o, j) ltac:(now left)) as Ho; cbn in Ho; now rewrite Ho. Qed.
  Lemma sites_at i l : any_at i l = any_at i (map (fun j => (Cre, j)) (map snd l)).
  Proof. unfold any_at. induction l as [|[o j] l IH]; [reflexivity|]. cbn [map snd fold_g fold_right]. unfold fold_g in IH. now rewrite IH. Qed.
  Lemma letters_snd c a : map snd (rdm_letters c a) = c ++ rev a.
  Proof. unfold rdm_letters. rewrite map_app, !map_map. cbn [snd]. now rewrite !map_id. Qed.
  Lemma letters_ladder c a e : In e (rdm_letters c a) -> ladder (fst e) = true.
  Proof. unfold rdm_letters. rewrite in_app_iff, !in_map_iff. intros [[i [<- _]]|[i [<- _]]]; reflexivity. Qed.
  Lemma letters_swap c a : (forall i, par_at i (rdm_letters c a) = par_at i (rdm_letters a c)) /\ (forall i, any_at i (rdm_letters c a) = any_at i (rdm_letters a c)).
  Proof.
    assert (P : Permutation (map (fun j : nat => (Cre, j)) (c ++ rev a)) (map (fun j => (Cre, j)) (a ++ rev c))).
    { apply Permutation_map. rewrite <- (Permutation_rev a), <- (Permutation_rev c). apply Permutation_app_comm. }
    apply alike_perm in P. destruct P as [P1 [P2 _]]. split; intros i.
    - rewrite (ladders_at i (rdm_letters c a)), (ladders_at i (rdm_letters a c)) by apply letters_ladder. rewrite !letters_snd. apply P1.
    - rewrite (sites_at i (rdm_letters c a)), (sites_at i (rdm_letters a c)), !letters_snd. apply P2.
  Qed.
  Lemma net_letters sel c a : net_on sel (rdm_letters c a) = (Z.of_nat (length (filter sel c)) - Z.of_nat (length (filter sel a)))%Z.
  Proof.
    assert (A : forall l z, fold_right (fun e acc => ((if sel (snd e) then match fst e with Cre => 1 | Ann => -1 | _ => 0 end else 0) + acc)%Z) z (map (fun i => (Ann, i)) l) = (z - Z.of_nat (length (filter sel l)))%Z).
    { induction l as [|i l IH]; intros z; cbn [map fold_right filter fst snd length]; [lia|]. rewrite IH. destruct (sel i); cbn [length]; lia. }
    assert (C : forall l z, fold_right (fun e acc => ((if sel (snd e) then match fst e with Cre => 1 | Ann => -1 | _ => 0 end else 0) + acc)%Z) z (map (fun i => (Cre, i)) l) = (z + Z.of_nat (length (filter sel l)))%Z).
    { induction l as [|i l IH]; intros z; cbn [map fold_right filter fst snd length]; [lia|]. rewrite IH. destruct (sel i); cbn [length]; lia. }
    unfold net_on, fold_g, rdm_letters. rewrite fold_right_app, A, C.
    assert (R : length (filter sel (rev a)) = length (filter sel a)).
    { clear. induction a as [|x a IH]; [reflexivity|]. cbn [rev filter]. rewrite filter_app, app_length, IH. cbn [filter]. destruct (sel x); cbn [length]; lia. }
    rewrite R. lia.
  Qed.

  (** ** Coefficients *)
  Definition good (v : K) : Prop := v = 0 \/ v = 1 \/ v = - (1) \/ v = chalf \/ v = - chalf.
  Lemma small_neg (v : K) : small (- v) = small v.
  Proof. apply small_opp. Qed.
  Lemma pow_small a b : (a <= b)%nat -> small (cpow (chalf : K) b) = false -> small (cpow (chalf : K) a) = false.
  Proof.
    intros H. induction H as [|b H IH]; [auto|]. intros S. apply IH. destruct (small (cpow (chalf : K) b)) eqn:E; [|reflexivity]. apply small_half_mul in E. cbn [cpow] in S. congruence.
  Qed.
  Lemma good_keeps s v p : good v -> (count_ops s <= p)%nat -> small (cpow (chalf : K) (S p)) = false -> keeps K (s, v).
  Proof.
    intros G L S. unfold keeps. cbn [fst snd]. assert (S0 : small (cpow (chalf : K) (count_ops s)) = false) by (apply (pow_small _ (Datatypes.S p)); [lia|exact S]).
    assert (S1 : small (cpow (chalf : K) (Datatypes.S (count_ops s))) = false) by (apply (pow_small _ (Datatypes.S p)); [lia|exact S]). cbn [cpow] in S1.
    destruct G as [->|[->|[->|[->| ->]]]]; [right; right; reflexivity| | | |]; left.
    - rewrite <- S0. f_equal. ring.
    - rewrite <- S0, <- (small_neg (cpow chalf (count_ops s))). f_equal. ring.
    - rewrite <- S1. f_equal. ring.
    - rewrite <- S1, <- (small_neg (chalf * cpow chalf (count_ops s))). f_equal. ring.
  Qed.
  Lemma good_sum real imag (x y : K) : real || imag = true -> (x = @half_of K real + @half_of K imag \/ x = - (@half_of K real + @half_of K imag) \/ x = 0) ->
    (y = @half_of K real - @half_of K imag \/ y = - (@half_of K real - @half_of K imag) \/ y = 0) -> good x /\ good y /\ good (x + y).
  Proof.
    assert (H1 : (chalf + chalf : K) = 1) by apply chalf_dbl. intros RI. unfold good, half_of. destruct real, imag; try discriminate; rewrite ?H1;
      intros [->|[->| ->]] [->|[->| ->]]; (split; [|split]);
      first [left; ring | right; left; ring | right; right; left; ring | right; right; right; left; ring | right; right; right; right; ring
            | right; left; transitivity (chalf + chalf : K); [ring|exact H1] | right; right; left; transitivity (- (chalf + chalf) : K); [ring|now rewrite H1]].
  Qed.
  Lemma repeat_none_balanced sel N : balanced sel (repeat None N).
  Proof. apply balanced_net. now rewrite flat_repeat_None'. Qed.
  Lemma occ_all x : occ_on (fun _ => true) x = popcount x.
  Proof. unfold popcount. induction x as [|[|] x IH]; cbn; auto. Qed.

  (** ** The element *)
  Lemma rdme_op c a real imag N p alp : length c = p -> length a = p -> Forall (fun x => x < N)%nat c -> Forall (fun x => x < N)%nat a -> real || imag = true -> shortens (listed c a) = false ->
    small (cpow (chalf : K) (S (2 * p))) = false -> length (filter alp c) = length (filter alp a) ->
    exists first c0 rest, generate_rdme (listed c a) real imag N = Some ((first, c0) :: rest) /\ NoDup (map fst ((first, c0) :: rest)) /\
      (forall e, In e ((first, c0) :: rest) -> length (fst e) = N /\ keeps K e) /\ balanced (fun _ => true) first /\ balanced alp first /\
      (str_E first <> [] -> forall e, In e ((first, c0) :: rest) -> snd e <> 0 -> same_kind first (fst e) = true /\ balanced (fun _ => true) (fst e) /\ balanced alp (fst e)).
  Proof.
    intros Lc La Fc Fa RI Sh S Ha. unfold generate_rdme. rewrite RI, Sh, listed_rev, !rdme_letters_listed by congruence.
    assert (Bc : forall e, In e (rdm_letters c a) -> (snd e < N)%nat) by (intros e; apply letters_bound; assumption).
    assert (Bd : forall e, In e (rdm_letters a c) -> (snd e < N)%nat) by (intros e; apply letters_bound; assumption).
    destruct (fermi_new_spec K (@half_of K real + @half_of K imag) (rdm_letters c a) N Bc) as [s1 [x1 [E1 [L1 [_ V1]]]]].
    destruct (fermi_new_spec K (@half_of K real - @half_of K imag) (rdm_letters a c) N Bd) as [s2 [x2 [E2 [L2 [_ V2]]]]].
    pose proof (fermi_new_kind _ _ _ _ _ Bc E1) as K1. pose proof (fermi_new_kind _ _ _ _ _ Bd E2) as K2. rewrite E1, E2.
    destruct (good_sum real imag x1 x2 RI V1 V2) as [G1 [G2 G3]].
    assert (N1 : forall sel, length (filter sel c) = length (filter sel a) -> net_on sel (rdm_letters c a) = 0%Z /\ net_on sel (rdm_letters a c) = 0%Z) by (intros sel E; rewrite !net_letters, E; lia).
    assert (T : length (filter (fun _ : nat => true) c) = length (filter (fun _ => true) a)).
    { assert (X : forall l : list nat, filter (fun _ => true) l = l) by (induction l as [|y l IH]; cbn; congruence). rewrite !X. congruence. }
    assert (LL : forall u v : list nat, length u = p -> length v = p -> length (rdm_letters u v) = (2 * p)%nat) by (intros u v Hu Hv; unfold rdm_letters; rewrite app_length, !map_length, rev_length; lia).
    assert (C1 : (count_ops s1 <= 2 * p)%nat).
    { destruct K1 as [[-> _]|[_ [_ [_ A]]]]; unfold count_ops; [rewrite flat_repeat_None'; cbn; lia|rewrite <- (LL c a) by assumption; exact A]. }
    assert (C2 : (count_ops s2 <= 2 * p)%nat).
    { destruct K2 as [[-> _]|[_ [_ [_ A]]]]; unfold count_ops; [rewrite flat_repeat_None'; cbn; lia|rewrite <- (LL a c) by assumption; exact A]. }
    assert (B1 : forall sel, length (filter sel c) = length (filter sel a) -> balanced sel s1).
    { intros sel E. destruct K1 as [[-> _]|[_ [_ [A _]]]]; [apply repeat_none_balanced|]. apply balanced_net. rewrite <- A. now apply N1. }
    assert (B2 : forall sel, length (filter sel c) = length (filter sel a) -> balanced sel s2).
    { intros sel E. destruct K2 as [[-> _]|[_ [_ [A _]]]]; [apply repeat_none_balanced|]. apply balanced_net. rewrite <- A. now apply N1. }
    unfold op_add_string. cbn [op_get op_set fst snd]. destruct (fstr_eqb s2 s1) eqn:Es.
    - apply fstr_eqb_spec' in Es. subst s2. cbn [op_set]. try rewrite (proj2 (fstr_eqb_spec' s1 s1) eq_refl). exists s1, (x1 + x2), []. split; [reflexivity|]. split; [constructor; [tauto|constructor]|]. split.
      { intros e [<-|[]]. split; [exact L1|]. now apply good_keeps with (p := (2 * p)%nat). }
      split; [now apply B1|]. split; [now apply B1|]. intros _ e [<-|[]] _. split; [apply kind_refl|split; now apply B1].
    - cbn [op_set]. try rewrite Es. exists s1, x1, [(s2, x2)]. split; [reflexivity|]. split.
      { cbn. constructor; [intros [E|[]]; subst; rewrite (proj2 (fstr_eqb_spec' s1 s1) eq_refl) in Es; discriminate|constructor; [tauto|constructor]]. }
      split.
      { intros e [<-|[<-|[]]]; (split; [assumption|]); apply good_keeps with (p := (2 * p)%nat); assumption. }
      split; [now apply B1|]. split; [now apply B1|]. intros NE e [<-|[<-|[]]] NZ; [split; [apply kind_refl|split; now apply B1]|]. cbn [fst snd] in *. split; [|split; now apply B2].
      destruct K1 as [[-> _]|[P1 [A1 _]]]; [exfalso; apply NE; unfold str_E, str_ops; now rewrite flat_repeat_None'|]. destruct K2 as [[_ Z]|[P2 [A2 _]]]; [contradiction|].
      destruct (letters_swap c a) as [X Y]. apply kind_alike; [congruence| |]; intros i; [rewrite <- P1, <- P2; apply X|rewrite <- A1, <- A2; apply Y].
  Qed.

  Variable tiny : K -> bool.
  Hypothesis tiny_unit : forall z, tiny (ipow z) = false.
  Variable rank_ok : list (list K) -> bool.
  Variable solve : list (list K) -> list K -> option (list K).
  Theorem sp_rdme_spec c a real imag N p alp Ne na psi Q : solves solve ->
    length c = p -> length a = p -> Forall (fun x => x < N)%nat c -> Forall (fun x => x < N)%nat a ->
    small (cpow (chalf : K) (S (2 * p))) = false -> length (filter alp c) = length (filter alp a) ->
    has_particles N Ne psi -> has_on N alp na psi ->
    generate_sp_rdme tiny rank_ok solve (listed c a) real imag alp N = Some Q ->
    exists D : opv K (list pauli), (forall e, In e D -> small (snd e) = true \/ tiny (snd e) = true) /\ (forall e, In e (Q ++ D) -> length (fst e) = N) /\
      expect N (omat Q) psi + expect N (omat D) psi = part real imag (rdm_of N psi c a).
  Proof.
    intros Hs Lc La Fc Fa S Ha Hn Hp HQ. unfold generate_sp_rdme in HQ. destruct (real || imag) eqn:RI; [|unfold generate_rdme in HQ; rewrite RI in HQ; discriminate].
    assert (Sh : shortens (listed c a) = false).
    { destruct (generate_rdme (listed c a) real imag N) as [op|] eqn:G; [|discriminate]. exact (generate_rdme_kept K _ _ _ _ _ G). }
    destruct (rdme_op c a real imag N p alp Lc La Fc Fa RI Sh S Ha) as [first [c0 [rest [E [ND [Hk [B [Ba Kd]]]]]]]].
    destruct (generate_rdme_spec K c a real imag N psi) as [op [E' X]]; auto; [congruence|now apply shortens_spec|]. rewrite E in E'. injection E' as <-. rewrite E in HQ.
    rewrite <- X. apply (sym_project_spec K tiny tiny_unit rank_ok solve Hs N alp _ first c0 rest Ne na psi Q); auto.
    - intros NE e He NZ. now apply Kd.
    - intros x Lx. rewrite occ_all. now apply Hn.
  Qed.
End Sym5.
