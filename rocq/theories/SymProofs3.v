(** Conservation of particle numbers by fermionic strings, and the enumeration of the conserving strings of one kind. *)
From Coq Require Import Bool List Arith ZArith Lia Ring Permutation.
From Verif Require Import Coeff MatSpec MatLemmas OpSpec FockSpec FermiModel FermiProofs HamSpec HamProofs HamProofs4 CircuitSpec CircuitProofs2 RdmSpec RdmFock QRdmProofs1
  SymSpec SymModel SymProofs1.
Import ListNotations.

(** * Counting letters *)
Definition letters_on (o : fop) (sel : nat -> bool) (t : fstr) : nat :=
  length (filter (fun e => match o, fst e with Cre, Cre | Ann, Ann => sel (snd e) | _, _ => false end) (flat 0 t)).
Definition balanced (sel : nat -> bool) (t : fstr) : Prop := letters_on Cre sel t = letters_on Ann sel t.
Lemma filter_map_len {A B} (f : B -> A) (p : A -> bool) l : length (filter p (map f l)) = length (filter (fun x => p (f x)) l).
Proof. induction l as [|x l IH]; cbn; [reflexivity|]. destruct (p (f x)); cbn; now rewrite IH. Qed.
Lemma letters_none o sel t : letters_on o sel (None :: t) = letters_on o (fun i => sel (S i)) t.
Proof. unfold letters_on. cbn [flat]. rewrite flat_shift, filter_map_len. reflexivity. Qed.
Lemma letters_some o sel x t : letters_on o sel (Some x :: t) =
  (match o, x with Cre, Cre | Ann, Ann => if sel 0 then 1 else 0 | _, _ => 0 end) + letters_on o (fun i => sel (S i)) t.
Proof.
  unfold letters_on. cbn [flat]. rewrite flat_shift. cbn [filter fst snd]. destruct o, x; try destruct (sel 0); cbn [length plus]; rewrite filter_map_len; reflexivity.
Qed.

Section Sym3.
  Variable K : CoefRing.
  Add Ring KRing : (c_ring K).
  Local Open Scope coef_scope.
  Notation F := (@fstr_mat K).
  Lemma string_shift t : forall sel r c, length r = length t -> length c = length t ->
    (occ_on sel r + letters_on Ann sel t <> occ_on sel c + letters_on Cre sel t)%nat -> F t r c = 0.
  Proof.
    induction t as [|[o|] t IH]; intros sel [|a r] [|b c] Lr Lc H; try discriminate.
    - cbn in H. lia.
    - injection Lr as Lr. injection Lc as Lc. rewrite fstr_mat_some. rewrite !letters_some in H. cbn [occ_on] in H.
      specialize (IH (fun i => sel (S i)) r c Lr Lc). destruct o, a, b; unfold local2; cbn; try ring; (rewrite IH; [ring|]); destruct (sel O); cbn in H; lia.
    - injection Lr as Lr. injection Lc as Lc. rewrite fstr_mat_none. rewrite !letters_none in H. cbn [occ_on] in H.
      specialize (IH (fun i => sel (S i)) r c Lr Lc). destruct a, b; cbn; try ring; (rewrite IH; [ring|]); destruct (sel O); cbn in H; lia.
  Qed.
  Lemma unbalanced_expect R t sel n (psi : bits -> K) : length t = R -> has_on R sel n psi -> ~ balanced sel t -> expect R (F t) psi = 0.
  Proof.
    intros L H B. unfold expect, mvec. rewrite <- (sumbits_0 K R). apply sumbits_ext. intros r Lr.
    destruct (Nat.eq_dec (occ_on sel r) n) as [Er|Nr]; [|rewrite (H r Lr Nr), cconj_0; ring].
    transitivity (cconj (psi r) * 0); [|ring]. f_equal. rewrite <- (sumbits_0 K R). apply sumbits_ext. intros c Lc.
    destruct (Nat.eq_dec (occ_on sel c) n) as [Ec|Nc]; [|rewrite (H c Lc Nc); ring].
    rewrite (string_shift t sel r c); [ring|congruence|congruence|]. unfold balanced in B. lia.
  Qed.
  (** ** Sums over part of a list *)
  Lemma over_perm {A} (l l' : list A) (f : A -> K) : Permutation l l' -> over l f = over l' f.
  Proof. unfold over. induction 1; cbn [fold_right]; [reflexivity|now rewrite IHPermutation|ring|congruence]. Qed.
  Lemma over_filter {A} (p : A -> bool) (l : list A) (f : A -> K) : (forall x, In x l -> p x = false -> f x = 0) -> over l f = over (filter p l) f.
  Proof.
    induction l as [|x l IH]; intros H; [reflexivity|]. cbn [filter]. assert (IH' : over l f = over (filter p l) f) by (apply IH; intros; apply H; [now right|assumption]).
    destruct (p x) eqn:E; unfold over in *; cbn [fold_right]; rewrite IH'; [reflexivity|]. rewrite (H x); [ring|now left|exact E].
  Qed.
  Lemma over_restrict {A} (eqd : forall a b : A, {a = b} + {a <> b}) (l m : list A) (f : A -> K) : NoDup l -> NoDup m -> incl m l ->
    (forall x, In x l -> ~ In x m -> f x = 0) -> over l f = over m f.
  Proof.
    intros N1 N2 I Z. rewrite (over_filter (fun x => if in_dec eqd x m then true else false)).
    - apply over_perm. apply NoDup_Permutation; [now apply NoDup_filter|exact N2|]. intros x. rewrite filter_In. destruct (in_dec eqd x m); split; [tauto| |intros [_ E]; discriminate|tauto].
      intros _. split; [now apply I|reflexivity].
    - intros x Hx E. apply Z; [exact Hx|]. destruct (in_dec eqd x m); [discriminate|assumption].
  Qed.
End Sym3.

(** * Choices *)
Lemma fop_dec (a b : fop) : {a = b} + {a <> b}.
Proof. decide equality. Defined.
Lemma fstr_dec (a b : fstr) : {a = b} + {a <> b}.
Proof. decide equality. decide equality. apply fop_dec. Defined.
Lemma ops_eqb_spec a b : ops_eqb a b = true <-> a = b.
Proof.
  unfold ops_eqb. revert b. induction a as [|x a IH]; intros [|y b]; cbn; split; intros H; try discriminate; try reflexivity.
  - apply andb_true_iff in H. destruct H as [H1 H2]. apply IH in H2. subst. destruct x, y; try discriminate; reflexivity.
  - injection H as <- <-. apply andb_true_iff. split; [destruct x; reflexivity|now apply IH].
Qed.
Lemma choose_perm l : forall n p, length l = n -> (In p (choose n l) <-> Permutation p l).
Proof.
  intros n. revert l. induction n as [|n IH]; intros l p L.
  - destruct l; [|discriminate]. cbn. split; [intros [<-|[]]; constructor|intros H; left; apply Permutation_sym, Permutation_nil in H; now subst].
  - cbn [choose]. rewrite in_flat_map. split.
    + intros [m [Hm Hp]]. apply in_rev, in_seq in Hm. apply in_map_iff in Hp. destruct Hp as [p' [<- Hp]]. apply IH in Hp.
      2:{ rewrite app_length, firstn_length, skipn_length. lia. }
      rewrite Hp. rewrite <- (firstn_skipn m l) at 4. assert (E : skipn m l = nth m l Cre :: skipn (S m) l).
      { assert (Hml : m < length l) by lia. clear - Hml. revert l Hml. induction m as [|m IHm]; intros [|x l] H; cbn in *; try lia; [reflexivity|]. apply IHm. lia. }
      rewrite E. apply Permutation_middle.
    + intros H. destruct p as [|x p]; [apply Permutation_length in H; cbn in H; lia|].
      assert (Hx : In x l) by (apply (Permutation_in _ H); now left). apply (In_nth _ _ Cre) in Hx. destruct Hx as [m [Hm Ex]].
      exists m. split; [apply -> in_rev; apply in_seq; lia|]. apply in_map_iff. exists p. split; [now rewrite Ex|]. apply IH; [rewrite app_length, firstn_length, skipn_length; lia|].
      apply Permutation_cons_inv with (a := x). rewrite H. rewrite <- (firstn_skipn m l) at 1.
      assert (E : skipn m l = nth m l Cre :: skipn (S m) l).
      { clear - Hm. revert l Hm. induction m as [|m IHm]; intros [|y l] H; cbn in *; try lia; [reflexivity|]. apply IHm. lia. }
      rewrite E, Ex. apply Permutation_sym, Permutation_middle.
Qed.
Lemma simplify_aux total : forall acc, NoDup acc ->
  NoDup (fold_left (fun new r => if existsb (ops_eqb r) new then new else new ++ [r]) total acc) /\
  forall x, In x (fold_left (fun new r => if existsb (ops_eqb r) new then new else new ++ [r]) total acc) <-> In x acc \/ In x total.
Proof.
  induction total as [|r total IH]; intros acc H; cbn [fold_left]; [split; [exact H|cbn; tauto]|].
  destruct (existsb (ops_eqb r) acc) eqn:E.
  - destruct (IH acc H) as [N I]. split; [exact N|]. intros x. rewrite I. cbn [In]. apply existsb_exists in E. destruct E as [y [Hy E]]. apply ops_eqb_spec in E. subst y. intuition congruence.
  - assert (N' : NoDup (acc ++ [r])).
    { apply Permutation_NoDup with (l := r :: acc); [apply Permutation_cons_append|]. constructor; [|exact H]. intros Hr. assert (existsb (ops_eqb r) acc = true) by (apply existsb_exists; exists r; split; [exact Hr|now apply ops_eqb_spec]). congruence. }
    destruct (IH _ N') as [N I]. split; [exact N|]. intros x. rewrite I, in_app_iff. cbn [In]. tauto.
Qed.
Lemma simplify_nodup l : NoDup (simplify l). Proof. apply simplify_aux. constructor. Qed.
Lemma simplify_in l x : In x (simplify l) <-> In x l.
Proof. unfold simplify. rewrite (proj2 (simplify_aux l [] ltac:(constructor)) x). cbn; tauto. Qed.
Lemma ph_nodup n : NoDup (ph_choices n).
Proof. induction n as [|n IH]; cbn; [constructor; [tauto|constructor]|]. apply nodup_two; [discriminate|exact IH]. Qed.
Lemma ph_in n q : In q (ph_choices n) <-> length q = n /\ Forall (fun o => ladder o = false) q.
Proof.
  revert q. induction n as [|n IH]; intros q; cbn [ph_choices].
  - cbn. split; [intros [<-|[]]; auto|intros [H _]; destruct q; [now left|discriminate]].
  - rewrite in_app_iff, !in_map_iff. split.
    + intros [[x [<- H]]|[x [<- H]]]; apply IH in H; destruct H as [H1 H2]; cbn; auto.
    + intros [H1 H2]. destruct q as [|o q]; [discriminate|]. injection H1 as H1. inversion H2; subst. destruct o; try discriminate; [left|right]; exists q; (split; [reflexivity|]); apply IH; auto.
Qed.
(** * Letters of a string *)
Lemma E_none t : str_E (None :: t) = str_E t.
Proof. unfold str_E, str_ops. cbn [flat]. rewrite flat_shift, map_map. reflexivity. Qed.
Lemma E_some o t : str_E (Some o :: t) = if ladder o then o :: str_E t else str_E t.
Proof. unfold str_E, str_ops. cbn [flat map fst filter]. rewrite flat_shift, map_map. reflexivity. Qed.
Lemma C_none t : str_C (None :: t) = str_C t.
Proof. unfold str_C, str_ops. cbn [flat]. rewrite flat_shift, map_map. reflexivity. Qed.
Lemma C_some o t : str_C (Some o :: t) = if ladder o then str_C t else o :: str_C t.
Proof. unfold str_C, str_ops. cbn [flat map fst filter]. rewrite flat_shift, map_map. destruct (ladder o); reflexivity. Qed.
Lemma ops_none t : str_ops (None :: t) = str_ops t.
Proof. unfold str_ops. cbn [flat]. rewrite flat_shift, map_map. reflexivity. Qed.
Lemma ops_some o t : str_ops (Some o :: t) = o :: str_ops t.
Proof. unfold str_ops. cbn [flat map fst]. rewrite flat_shift, map_map. reflexivity. Qed.
Lemma kind_EC s : forall t, same_kind s t = true -> length (str_E s) = length (str_E t) /\ length (str_C s) = length (str_C t) /\ length (str_ops s) = length (str_ops t) /\ length s = length t.
Proof.
  induction s as [|[a|] s IH]; intros [|[b|] t]; cbn [same_kind]; intros H; try discriminate; auto.
  - apply andb_true_iff in H. destruct H as [H1 H2]. apply eqb_prop in H1. destruct (IH t H2) as [A [B [C D]]]. rewrite !E_some, !C_some, !ops_some, H1. destruct (ladder b); cbn; auto.
  - rewrite !E_none, !C_none, !ops_none. destruct (IH t H) as [A [B [C D]]]. cbn; auto.
Qed.
Lemma kind_ops s : forall t, same_kind s t = true -> str_ops s = str_ops t -> s = t.
Proof.
  induction s as [|[a|] s IH]; intros [|[b|] t]; cbn [same_kind]; intros H E; try discriminate; auto.
  - apply andb_true_iff in H. destruct H as [H1 H2]. rewrite !ops_some in E. injection E as -> E. f_equal. now apply IH.
  - rewrite !ops_none in E. f_equal. now apply IH.
Qed.
Lemma kind_sym s : forall t, same_kind s t = true -> same_kind t s = true.
Proof. induction s as [|[a|] s IH]; intros [|[b|] t]; cbn; intros H; try discriminate; auto. apply andb_true_iff in H. destruct H as [H1 H2]. apply eqb_prop in H1. rewrite H1, eqb_reflx. now apply IH. Qed.
Lemma kind_trans s : forall t u, same_kind s t = true -> same_kind t u = true -> same_kind s u = true.
Proof. induction s as [|[a|] s IH]; intros [|[b|] t] [|[c|] u]; cbn; intros H G; try discriminate; auto.
  - apply andb_true_iff in H, G. destruct H as [H1 H2], G as [G1 G2]. apply eqb_prop in H1, G1. rewrite H1, G1, eqb_reflx. now apply (IH t).
  - now apply (IH t).
Qed.
(** [fill] makes the string of the kind with the given letters. *)
Lemma fill_kind s : forall p q, length p = length (str_E s) -> length q = length (str_C s) -> Forall (fun o => ladder o = true) p -> Forall (fun o => ladder o = false) q ->
  same_kind s (fill s p q) = true /\ str_E (fill s p q) = p /\ str_C (fill s p q) = q.
Proof.
  induction s as [|[a|] s IH]; intros p q Lp Lq Hp Hq; cbn [fill].
  - destruct p, q; try discriminate. auto.
  - rewrite E_some in Lp. rewrite C_some in Lq. destruct (ladder a) eqn:La.
    + destruct p as [|x p]; [discriminate|]. injection Lp as Lp. inversion Hp; subst. destruct (IH p q Lp Lq ltac:(assumption) Hq) as [A [B C]]. cbn [same_kind]. rewrite E_some, C_some, H1, La, A, B, C. auto.
    + destruct q as [|x q]; [discriminate|]. injection Lq as Lq. inversion Hq; subst. destruct (IH p q Lp Lq Hp ltac:(assumption)) as [A [B C]]. cbn [same_kind]. rewrite E_some, C_some, H1, La, A, B, C. auto.
  - rewrite E_none in Lp. rewrite C_none in Lq. destruct (IH p q Lp Lq Hp Hq) as [A [B C]]. cbn [same_kind]. rewrite E_none, C_none. auto.
Qed.
Lemma fill_back s : forall t, same_kind s t = true -> fill s (str_E t) (str_C t) = t.
Proof.
  induction s as [|[a|] s IH]; intros [|[b|] t]; cbn [same_kind]; intros H; try discriminate; auto.
  - apply andb_true_iff in H. destruct H as [H1 H2]. apply eqb_prop in H1. rewrite E_some, C_some, <- H1. cbn [fill]. destruct (ladder a); now rewrite IH.
  - rewrite E_none, C_none. cbn [fill]. now rewrite IH.
Qed.
Lemma E_ladder t : Forall (fun o => ladder o = true) (str_E t).
Proof. apply Forall_forall. intros o H. apply filter_In in H. tauto. Qed.
Lemma C_ladder t : Forall (fun o => ladder o = false) (str_C t).
Proof. apply Forall_forall. intros o H. apply filter_In in H. destruct H as [_ H]. now apply negb_true_iff in H. Qed.
Lemma kind_sites s : forall t, same_kind s t = true -> str_sites s = str_sites t.
Proof.
  assert (SN : forall t, str_sites (None :: t) = map S (str_sites t)).
  { intros t. unfold str_sites. cbn [flat]. rewrite flat_shift. generalize (flat 0 t). intros l. induction l as [|[o i] l IH]; [reflexivity|]. cbn [map filter fst snd]. destruct (ladder o); cbn [map snd]; now rewrite IH. }
  assert (SS : forall o t, str_sites (Some o :: t) = if ladder o then 0 :: map S (str_sites t) else map S (str_sites t)).
  { intros o t. rewrite <- SN. unfold str_sites. cbn [flat filter fst]. destruct (ladder o); reflexivity. }
  induction s as [|[a|] s IH]; intros [|[b|] t]; cbn [same_kind]; intros H; try discriminate; auto.
  - apply andb_true_iff in H. destruct H as [H1 H2]. apply eqb_prop in H1. now rewrite !SS, H1, (IH t H2).
  - now rewrite !SN, (IH t H).
Qed.
Lemma combine_E t : combine (str_E t) (str_sites t) = filter (fun e => ladder (fst e)) (flat 0 t).
Proof. unfold str_E, str_ops, str_sites. generalize (flat 0 t). intros l. induction l as [|[o i] l IH]; [reflexivity|]. cbn [map filter fst snd]. destruct (ladder o); cbn [map combine fst snd]; now rewrite IH. Qed.
Lemma balance_spec sel t : balance sel (str_E t) (str_sites t) = true <-> balanced sel t.
Proof.
  unfold balance, balanced, letters_on. rewrite combine_E, Nat.eqb_eq. generalize (flat 0 t). intros l.
  assert (A : forall l, length (filter (fun e : fop * nat => is_cre (fst e)) (filter (fun e => sel (snd e)) (filter (fun e => ladder (fst e)) l))) = length (filter (fun e => match fst e with Cre => sel (snd e) | _ => false end) l)).
  { clear. induction l as [|[o i] l IH]; [reflexivity|]. cbn [filter fst snd]. destruct o; cbn [ladder]; try exact IH; cbn [filter snd]; destruct (sel i); cbn [filter fst is_cre length]; now rewrite IH. }
  assert (B : forall l, length (filter (fun e : fop * nat => negb (is_cre (fst e))) (filter (fun e => sel (snd e)) (filter (fun e => ladder (fst e)) l))) = length (filter (fun e => match fst e with Ann => sel (snd e) | _ => false end) l)).
  { clear. induction l as [|[o i] l IH]; [reflexivity|]. cbn [filter fst snd]. destruct o; cbn [ladder]; try exact IH; cbn [filter snd]; destruct (sel i); cbn [filter fst is_cre negb length]; now rewrite IH. }
  rewrite A, B. reflexivity.
Qed.
Lemma letters_split o sel t : letters_on o (fun _ => true) t = letters_on o sel t + letters_on o (fun i => negb (sel i)) t.
Proof.
  unfold letters_on. generalize (flat 0 t). intros l. induction l as [|[x i] l IH]; [reflexivity|]. cbn [filter fst snd]. destruct o, x; try exact IH; destruct (sel i); cbn [negb length]; lia.
Qed.
Lemma letters_E o t : ladder o = true -> letters_on o (fun _ => true) t = count_occ fop_dec (str_E t) o.
Proof.
  intros L. unfold letters_on, str_E, str_ops. generalize (flat 0 t). intros l. induction l as [|[x i] l IH]; [reflexivity|]. cbn [map filter fst snd]. destruct o; try discriminate; destruct x; cbn [ladder count_occ]; try exact IH;
    (repeat match goal with |- context[fop_dec ?a ?b] => destruct (fop_dec a b); try congruence end); cbn [length]; congruence.
Qed.
Lemma count_ladders p : Forall (fun o => ladder o = true) p -> length p = count_occ fop_dec p Cre + count_occ fop_dec p Ann.
Proof. induction 1 as [|o p H _ IH]; [reflexivity|]. destruct o; try discriminate; cbn [length count_occ]; [destruct (fop_dec Cre Cre), (fop_dec Cre Ann)|destruct (fop_dec Ann Cre), (fop_dec Ann Ann)]; try congruence; lia. Qed.
Lemma ladders_perm p p' : Forall (fun o => ladder o = true) p -> Forall (fun o => ladder o = true) p' -> length p = length p' ->
  count_occ fop_dec p Cre = count_occ fop_dec p Ann -> count_occ fop_dec p' Cre = count_occ fop_dec p' Ann -> Permutation p p'.
Proof.
  intros H H' L E E'. apply (Permutation_count_occ fop_dec). intros o. pose proof (count_ladders p H). pose proof (count_ladders p' H').
  assert (Z : forall q, Forall (fun o => ladder o = true) q -> ladder o = false -> count_occ fop_dec q o = 0).
  { intros q Hq Lo. apply count_occ_not_In. intros I. rewrite Forall_forall in Hq. apply Hq in I. congruence. }
  destruct o; try lia; rewrite !Z by (auto; reflexivity); reflexivity.
Qed.

(** The strings the projection runs over. *)
Definition tops (alp : nat -> bool) (first : fstr) : list fstr :=
  flat_map (fun p => map (fill first p) (ph_choices (length (str_C first)))) (filter (conserving alp (str_sites first)) (simplify (choose (length (str_E first)) (str_E first)))).
Section Tops.
  Variables (alp : nat -> bool) (first : fstr).
  Lemma perms_in p : In p (filter (conserving alp (str_sites first)) (simplify (choose (length (str_E first)) (str_E first)))) <->
    Permutation p (str_E first) /\ conserving alp (str_sites first) p = true.
  Proof. rewrite filter_In, simplify_in, choose_perm by reflexivity. tauto. Qed.
  Lemma perm_ladder p : Permutation p (str_E first) -> length p = length (str_E first) /\ Forall (fun o => ladder o = true) p.
  Proof. intros H. split; [now apply Permutation_length|]. apply Permutation_sym in H. eapply Permutation_Forall; [exact H|apply E_ladder]. Qed.
  Lemma tops_in t : In t (tops alp first) -> same_kind first t = true.
  Proof.
    unfold tops. rewrite in_flat_map. intros [p [Hp Ht]]. apply perms_in in Hp. destruct Hp as [Hp _]. apply in_map_iff in Ht. destruct Ht as [q [<- Hq]]. apply ph_in in Hq.
    destruct (perm_ladder p Hp). apply fill_kind; tauto.
  Qed.
  Lemma tops_nodup : NoDup (tops alp first).
  Proof.
    unfold tops. assert (N : NoDup (filter (conserving alp (str_sites first)) (simplify (choose (length (str_E first)) (str_E first))))) by (apply NoDup_filter, simplify_nodup).
    assert (H : forall p, In p (filter (conserving alp (str_sites first)) (simplify (choose (length (str_E first)) (str_E first)))) -> length p = length (str_E first) /\ Forall (fun o => ladder o = true) p)
      by (intros p Hp; apply perms_in in Hp; now apply perm_ladder).
    revert N H. generalize (filter (conserving alp (str_sites first)) (simplify (choose (length (str_E first)) (str_E first)))). intros l N H.
    induction N as [|p l Hp N IH]; cbn [flat_map]; [constructor|]. 
    assert (D : forall x, In x (map (fill first p) (ph_choices (length (str_C first)))) -> ~ In x (flat_map (fun p => map (fill first p) (ph_choices (length (str_C first)))) l)).
    { intros x H1 H2. apply in_map_iff in H1. destruct H1 as [q [<- Hq]]. apply in_flat_map in H2. destruct H2 as [p' [Hp' H2]]. apply in_map_iff in H2. destruct H2 as [q' [E Hq']]. apply ph_in in Hq, Hq'.
      destruct (H p ltac:(now left)) as [A1 A2]. destruct (H p' ltac:(now right)) as [B1 B2].
      destruct (fill_kind first p q) as [_ [X _]]; try tauto. destruct (fill_kind first p' q') as [_ [Y _]]; try tauto. rewrite E in Y. apply Hp. congruence. }
    assert (M : NoDup (map (fill first p) (ph_choices (length (str_C first))))).
    { destruct (H p ltac:(now left)) as [A1 A2]. assert (HH : forall q, In q (ph_choices (length (str_C first))) -> str_C (fill first p q) = q) by (intros q Hq; apply ph_in in Hq; apply fill_kind; tauto).
      pose proof (ph_nodup (length (str_C first))) as PN. revert HH PN. generalize (ph_choices (length (str_C first))). intros m HH PN. induction PN as [|q m Hq PN IHm]; cbn; constructor.
      - intros I. apply in_map_iff in I. destruct I as [q' [E I]]. apply Hq. rewrite <- (HH q) by now left. rewrite <- E. rewrite HH by now right. exact I.
      - apply IHm. intros q' Hq'. apply HH. now right. }
    specialize (IH ltac:(intros p' Hp'; apply H; now right)). revert D M IH. generalize (map (fill first p) (ph_choices (length (str_C first)))), (flat_map (fun p0 => map (fill first p0) (ph_choices (length (str_C first)))) l). clear. intros u v D U V.
    induction U as [|a u Ha U IH]; [exact V|]. cbn [app]. constructor; [rewrite in_app_iff; intros [I|I]; [tauto|apply (D a); [now left|exact I]]|apply IH; intros b Hb; apply D; now right].
  Qed.
  (** A string of the kind is among them, or it is unbalanced. *)
  Lemma tops_or t : same_kind first t = true -> balanced (fun _ => true) first -> In t (tops alp first) \/ ~ balanced (fun _ => true) t \/ ~ balanced alp t.
  Proof.
    intros Hk B. destruct (Nat.eq_dec (letters_on Cre (fun _ => true) t) (letters_on Ann (fun _ => true) t)) as [Bt|Bt]; [|right; left; exact Bt].
    destruct (Nat.eq_dec (letters_on Cre alp t) (letters_on Ann alp t)) as [Ba|Ba]; [|right; right; exact Ba]. left.
    unfold tops. rewrite in_flat_map. exists (str_E t). destruct (kind_EC first t Hk) as [LE [LC _]]. split.
    - apply perms_in. split.
      + apply ladders_perm; [apply E_ladder|apply E_ladder|congruence| |]; unfold balanced in B; rewrite <- !letters_E by reflexivity; assumption.
      + unfold conserving. rewrite (kind_sites first t Hk). assert (balance alp (str_E t) (str_sites t) = true) as -> by now apply balance_spec. reflexivity.
    - apply in_map_iff. exists (str_C t). split; [now apply fill_back|]. apply ph_in. split; [congruence|apply C_ladder].
  Qed.
End Tops.
