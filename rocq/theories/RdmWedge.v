(** The product of two RDMs. *)
From Coq Require Import Bool List Arith Permutation Sorted ListDec Lia Ring.
From Verif Require Import Coeff MatSpec MatLemmas OpSpec FockSpec CircuitProofs RdmModel RdmSpec RdmEnum RdmPerm RdmFock RdmBuild RdmProofs.
Import ListNotations.

Lemma tuples_inds r n : all_inds r n = tuples r n.
Proof. induction n as [|n IH]; [reflexivity|]. cbn [all_inds tuples]. rewrite IH. reflexivity. Qed.
Lemma tuples_In r n l : In l (tuples r n) <-> length l = n /\ Forall (fun x => x < r) l.
Proof.
  revert l. induction n as [|n IH]; intro l; cbn [tuples].
  - split; [intros [<-|[]]; auto|]. intros [L _]. destruct l; [left; reflexivity|discriminate].
  - rewrite in_flat_map. split.
    + intros [x [Hx H]]. apply in_seq in Hx. apply in_map_iff in H as [t [<- H]]. apply IH in H as [L F].
      split; [simpl; lia|]. constructor; [lia|exact F].
    + intros [L F]. destruct l as [|x l]; [discriminate|]. inversion_clear F as [|? ? Fx Fl]. exists x. split; [apply in_seq; lia|].
      apply in_map. apply IH. auto.
Qed.
Lemma tuples_NoDup r n : NoDup (tuples r n).
Proof.
  induction n as [|n IH]; cbn [tuples]; [repeat constructor; auto|].
  apply (NoDup_flat_map_key (fun l => hd 0 l)).
  - apply seq_NoDup.
  - intros x _. apply FinFun.Injective_map_NoDup; [intros u v E; injection E; auto|exact IH].
  - intros x l _ H. apply in_map_iff in H as [t [<- _]]. reflexivity.
Qed.
Lemma has_descent_sorted l : NoDup l -> has_descent l = false <-> StronglySorted lt l.
Proof.
  intro N. split.
  - intro H. apply Sorted_StronglySorted; [intros ? ? ?; lia|]. induction l as [|x [|y l] IH]; [constructor|repeat constructor|].
    inversion_clear N as [|? ? Nx Nl]. change (has_descent (x :: y :: l)) with ((y <? x) || has_descent (y :: l)) in H.
    apply orb_false_iff in H as [H1 H2].
    constructor; [apply IH; assumption|]. constructor. apply Nat.ltb_ge in H1.
    assert (x <> y) by (intros ->; apply Nx; left; reflexivity). lia.
  - intro S. induction l as [|x [|y l] IH]; [reflexivity|reflexivity|]. inversion_clear S as [|? ? S1 F].
    change (has_descent (x :: y :: l)) with ((y <? x) || has_descent (y :: l)). apply orb_false_iff. split.
    + apply Nat.ltb_ge. inversion_clear F. lia.
    + apply IH; [inversion_clear N; assumption|exact S1].
Qed.

Lemma wedge_terms_In xs ys n : In n (wedge_terms xs ys) <->
  exists c s, In c xs /\ In s ys /\ n = c ++ s /\ existsb (fun x => existsb (Nat.eqb x) s) c = false /\ has_descent n = false.
Proof.
  unfold wedge_terms.
  set (step := fun (c : list nat) acc s => if existsb (fun x => existsb (Nat.eqb x) s) c || has_descent (c ++ s) || existsb (ind_eqb (c ++ s)) acc
      then acc else acc ++ [c ++ s]).
  assert (S1 : forall c ys acc, In n (fold_left (step c) ys acc) <-> In n acc \/
     exists s, In s ys /\ n = c ++ s /\ existsb (fun x => existsb (Nat.eqb x) s) c = false /\ has_descent n = false).
  { intros c zs. induction zs as [|s zs IH]; intro acc; cbn [fold_left].
    - split; [auto|]. intros [H|[s [[] _]]]. exact H.
    - rewrite IH. assert (Q : In n (step c acc s) <-> In n acc \/ (n = c ++ s /\ existsb (fun x => existsb (Nat.eqb x) s) c = false /\ has_descent n = false)).
      { unfold step. destruct (existsb (fun x => existsb (Nat.eqb x) s) c) eqn:E1; cbn [orb]; [intuition congruence|].
        destruct (has_descent (c ++ s)) eqn:E2; cbn [orb].
        { split; [auto|]. intros [H|[-> [_ H]]]; [exact H|congruence]. }
        destruct (existsb (ind_eqb (c ++ s)) acc) eqn:E3.
        - split; [auto|]. intros [H|[-> _]]; [exact H|]. apply existsb_exists in E3 as [y [Hy E]]. apply ind_eqb_spec in E. subst y. exact Hy.
        - rewrite in_app_iff. cbn [In]. split; [intros [H|[<-|[]]]; auto|]. intros [H|[-> _]]; auto. }
      rewrite Q. split.
      + intros [[H|H]|[s' [H1 H2]]]; [auto|right; exists s; split; [left; reflexivity|exact H]|right; exists s'; split; [right; exact H1|exact H2]].
      + intros [H|[s' [[<-|H1] H2]]]; [auto|auto|right; exists s'; auto]. }
  assert (S2 : forall xs acc, In n (fold_left (fun acc c => fold_left (step c) ys acc) xs acc) <-> In n acc \/
     exists c s, In c xs /\ In s ys /\ n = c ++ s /\ existsb (fun x => existsb (Nat.eqb x) s) c = false /\ has_descent n = false).
  { intro zs. induction zs as [|c zs IH]; intro acc; cbn [fold_left].
    - split; [auto|]. intros [H|[c [s [[] _]]]]. exact H.
    - rewrite IH, S1. split.
      + intros [[H|[s H]]|[c' [s [H1 H2]]]]; [auto|right; exists c, s; split; [left; reflexivity|exact H]|right; exists c', s; split; [right; exact H1|exact H2]].
      + intros [H|[c' [s [[<-|H1] H2]]]]; [auto|left; right; exists s; exact H2|right; exists c', s; auto]. }
  specialize (S2 xs []). split; [intro H; apply S2 in H as [[]|H]; exact H|]. intro H. apply S2. right. exact H.
Qed.

Lemma disj_existsb (c s : list nat) : existsb (fun x => existsb (Nat.eqb x) s) c = false <-> forall x, In x c -> ~ In x s.
Proof.
  split.
  - intros H x Hc Hs. assert (X : existsb (fun x => existsb (Nat.eqb x) s) c = true); [|congruence].
    apply existsb_exists. exists x. split; [exact Hc|]. apply existsb_eqb_In. exact Hs.
  - intro H. destruct (existsb _ c) eqn:E; [|reflexivity]. apply existsb_exists in E as [x [Hc Hs]].
    apply existsb_eqb_In in Hs. exfalso. apply (H x Hc Hs).
Qed.
Lemma NoDup_app_iff {A} (c s : list A) : NoDup c -> NoDup s -> (forall x, In x c -> ~ In x s) -> NoDup (c ++ s).
Proof.
  induction c as [|x c IH]; intros Nc Ns D; [exact Ns|]. inversion_clear Nc as [|? ? Nx N]. simpl. constructor.
  - rewrite in_app_iff. intros [H|H]; [contradiction|]. apply (D x); [left; reflexivity|exact H].
  - apply IH; auto. intros y Hy. apply D. right. exact Hy.
Qed.

Section Wedge.
  Variable K : CoefRing.
  Add Ring KRing : (c_ring K).
  Local Open Scope coef_scope.

  Lemma lsum_sumK {A} (l : list A) (f : A -> K) : lsum l f = sumK (map f l).
  Proof. induction l as [|x l IH]; simpl; [reflexivity|]. rewrite IH. reflexivity. Qed.
  Lemma lsum_swap {A B} (l : list A) (m : list B) (f : A -> B -> K) :
    lsum l (fun x => lsum m (f x)) = lsum m (fun y => lsum l (fun x => f x y)).
  Proof.
    induction l as [|x l IH]; simpl; [symmetry; apply lsum_0|]. rewrite IH. symmetry. apply lsum_add.
  Qed.
  Lemma fold_lsum {A} (l : list A) (f : A -> K) : forall s, fold_left (fun s x => s + f x) l s = s + lsum l f.
  Proof. induction l as [|x l IH]; intro s; simpl; [ring|]. rewrite IH. ring. Qed.

  (** * Generalised delta *)
  Definition at_len (n : nat) (f : list nat -> K) (c : list nat) : K := if length c =? n then f c else 0.
  Definition dl (x y : nat) : K := if Nat.eqb x y then 1 else 0.
  Lemma gdelta_cons i c x : @gdelta K (i :: c) x = altsum (map (fun e => dl i (fst e) * gdelta c (snd e)) (removes x)).
  Proof.
    cbn [gdelta]. f_equal. apply map_ext. intro e. unfold dl. destruct (i =? fst e); ring.
  Qed.
  Lemma gdelta1 i x : @gdelta K [i] [x] = dl i x.
  Proof. rewrite gdelta_cons. cbn [gdelta removes map altsum fst snd]. ring. Qed.
  Lemma gdelta2 i j x y : @gdelta K [i; j] [x; y] = dl i x * dl j y - dl i y * dl j x.
  Proof. rewrite gdelta_cons. cbn [removes map altsum fst snd]. rewrite !gdelta1. ring. Qed.
  Lemma gdelta3 i j k x y z : @gdelta K [i; j; k] [x; y; z] =
    dl i x * (dl j y * dl k z - dl j z * dl k y) - dl i y * (dl j x * dl k z - dl j z * dl k x)
    + dl i z * (dl j x * dl k y - dl j y * dl k x).
  Proof. rewrite gdelta_cons. cbn [removes map altsum fst snd]. rewrite !gdelta2. ring. Qed.
  Lemma gdelta_antisym n x : (n <= 3)%nat -> length x = n -> antisym K (at_len n (fun c => gdelta c x)).
  Proof.
    intros Hn L l u v l'. unfold at_len. rewrite !app_length. cbn [length]. destruct (Nat.eqb_spec (length l + S (S (length l'))) n) as [E|E]; [|ring].
    destruct l as [|l0 [|l1 l]]; cbn [length app] in *.
    - destruct l' as [|m [|m' l']]; cbn [length] in *; [| |lia].
      + destruct x as [|x0 [|x1 [|? ?]]]; cbn [length] in *; try lia. rewrite !gdelta2. ring.
      + destruct x as [|x0 [|x1 [|x2 [|? ?]]]]; cbn [length] in *; try lia. rewrite !gdelta3. ring.
    - destruct l' as [|m l']; cbn [length] in *; [|lia].
      destruct x as [|x0 [|x1 [|x2 [|? ?]]]]; cbn [length] in *; try lia. rewrite !gdelta3. ring.
    - lia.
  Qed.
  Lemma del1 x a : del K [x] [a] = dl a x.
  Proof. unfold del, dl. cbn [ind_eqb]. rewrite andb_true_r, Nat.eqb_sym. reflexivity. Qed.
  Lemma del_cons x a l m : del K (x :: l) (a :: m) = dl a x * del K l m.
  Proof. unfold del, dl. cbn [ind_eqb]. rewrite (Nat.eqb_sym a x). destruct (x =? a); cbn [andb]; destruct (ind_eqb l m); ring. Qed.
  Lemma gdelta_ps n s x : (1 <= n <= 3)%nat -> length s = n -> length x = n -> gdelta s x = ps K s x.
  Proof.
    intros Hn Ls Lx. unfold ps.
    destruct s as [|a [|b [|c [|? ?]]]]; cbn [length] in *; try lia;
      destruct x as [|x0 [|x1 [|x2 [|? ?]]]]; cbn [length] in *; try lia.
    - rewrite uperm1, gdelta1. cbn [lsum fold_right fst snd sgn]. rewrite del1. ring.
    - rewrite uperm2, gdelta2. cbn [lsum fold_right fst snd sgn]. rewrite !del_cons. unfold del; cbn [ind_eqb]. ring.
    - rewrite uperm3, gdelta3. cbn [lsum fold_right fst snd sgn]. rewrite !del_cons. unfold del; cbn [ind_eqb]. ring.
  Qed.
  Lemma gdelta_uperm n s q b x : (1 <= n <= 3)%nat -> length s = n -> length x = n -> In (q, b) (unordered_permute s) ->
    gdelta q x = sgn b * @gdelta K s x.
  Proof.
    intros Hn Ls Lx H. pose proof (anti_uperm K _ s q b (gdelta_antisym n x ltac:(lia) Lx) ltac:(lia) H) as E.
    unfold at_len in E. rewrite <- (Permutation_length (uperm_Perm s q b H)), Ls, Nat.eqb_refl in E. exact E.
  Qed.
  Lemma gdelta_dup n c x : (n <= 3)%nat -> length c = n -> length x = n -> ~ NoDup c -> @gdelta K c x = 0.
  Proof.
    intros Hn Lc Lx H. pose proof (anti_dup K _ c (gdelta_antisym n x Hn Lx) ltac:(lia) H) as E.
    unfold at_len in E. rewrite Lc, Nat.eqb_refl in E. exact E.
  Qed.
  Lemma sum_gdelta r n s (f : list nat -> K) : (1 <= n <= 3)%nat -> length s = n -> Forall (fun x => x < r)%nat s ->
    lsum (tuples r n) (fun x => gdelta s x * f x) = lsum (unordered_permute s) (fun e => sgn (snd e) * f (fst e)).
  Proof.
    intros Hn Ls F.
    transitivity (lsum (tuples r n) (fun x => lsum (unordered_permute s) (fun e => del K x (fst e) * sgn (snd e) * f (fst e)))).
    - apply lsum_ext. intros x Hx. apply tuples_In in Hx as [Lx _]. rewrite (gdelta_ps n) by assumption. unfold ps.
      rewrite <- (Rmul_comm (c_ring K)), <- lsum_scal. apply lsum_ext. intros e _. unfold del. destruct (ind_eqb x (fst e)) eqn:E; [|ring].
      apply ind_eqb_spec in E. subst x. ring.
    - rewrite lsum_swap. apply lsum_ext. intros [q b] Hq. cbn [fst snd]. apply uperm_Perm in Hq as P.
      rewrite (lsum_single K _ _ q (tuples_NoDup r n)).
      + unfold del. rewrite ind_eqb_refl. ring.
      + apply tuples_In. split; [rewrite <- (Permutation_length P); exact Ls|]. rewrite Forall_forall in *. intros x Hx. apply F.
        apply (Permutation_in x (Permutation_sym P) Hx).
      + intros x _ D. unfold del. destruct (ind_eqb x q) eqn:E; [|ring]. apply ind_eqb_spec in E. contradiction.
  Qed.

  (** * The code's sum *)
  Definition wsum (p : nat) (A B : tensor K) (i j : list nat) : K :=
    lsum (unordered_permute i) (fun c => lsum (unordered_permute j) (fun a =>
      A (firstn p (fst c) ++ firstn p (fst a)) * B (skipn p (fst c) ++ skipn p (fst a)) * sgn (xorb (snd c) (snd a)))).
  Lemma wsum_fold p A B i j :
    fold_left (fun s c => fold_left (fun s a =>
          s + A (firstn p (fst c) ++ firstn p (fst a)) * B (skipn p (fst c) ++ skipn p (fst a))
              * sgn (xorb (snd c) (snd a))) (unordered_permute j) s) (unordered_permute i) 0 = wsum p A B i j.
  Proof.
    unfold wsum.
    assert (G : forall (U : list (list nat * bool)) s0, fold_left (fun s c => fold_left (fun s a =>
          s + A (firstn p (fst c) ++ firstn p (fst a)) * B (skipn p (fst c) ++ skipn p (fst a))
              * sgn (xorb (snd c) (snd a))) (unordered_permute j) s) U s0
      = s0 + lsum U (fun c => lsum (unordered_permute j) (fun a =>
      A (firstn p (fst c) ++ firstn p (fst a)) * B (skipn p (fst c) ++ skipn p (fst a)) * sgn (xorb (snd c) (snd a))))).
    { induction U as [|e U IH]; intro s0; cbn [fold_left lsum fold_right]; [ring|]. rewrite IH, fold_lsum. unfold lsum. ring. }
    rewrite G. ring.
  Qed.
  Lemma wedge_of_perm r p q w (A B : tensor K) s t c a sc sa : (1 <= p + q <= 3)%nat -> length s = (p + q)%nat -> length t = (p + q)%nat ->
    In (c, sc) (unordered_permute s) -> In (a, sa) (unordered_permute t) ->
    wedge_of r p q w A B c a = sgn (xorb sc sa) * wedge_of r p q w A B s t.
  Proof.
    intros Hn Ls Lt Hc Ha. unfold wedge_of. rewrite <- !lsum_sumK.
    assert (G : forall c a, lsum (tuples r (p + q)) (fun x => sumK (map (fun y => gdelta c x * gdelta a y *
        (A (firstn p x ++ firstn p y) * B (skipn p x ++ skipn p y))) (tuples r (p + q))))
      = lsum (tuples r (p + q)) (fun x => lsum (tuples r (p + q)) (fun y => gdelta c x * gdelta a y *
        (A (firstn p x ++ firstn p y) * B (skipn p x ++ skipn p y))))).
    { intros. apply lsum_ext. intros. symmetry. apply lsum_sumK. }
    rewrite !G.
    transitivity (w * (sgn (xorb sc sa) * lsum (tuples r (p + q)) (fun x => lsum (tuples r (p + q)) (fun y => gdelta s x * gdelta t y *
        (A (firstn p x ++ firstn p y) * B (skipn p x ++ skipn p y)))))); [|ring].
    f_equal. rewrite <- lsum_scal. apply lsum_ext. intros x Hx. rewrite <- lsum_scal. apply lsum_ext. intros y Hy.
    apply tuples_In in Hx as [Lx _]. apply tuples_In in Hy as [Ly _].
    rewrite (gdelta_uperm (p + q) s c sc x Hn Ls Lx Hc), (gdelta_uperm (p + q) t a sa y Hn Lt Ly Ha), sgn_xorb. ring.
  Qed.
  Lemma wedge_of_wsum r p q w (A B : tensor K) s t : (1 <= p + q <= 3)%nat -> length s = (p + q)%nat -> length t = (p + q)%nat ->
    Forall (fun x => x < r)%nat s -> Forall (fun x => x < r)%nat t ->
    wedge_of r p q w A B s t = wsum p A B s t * w.
  Proof.
    intros Hn Ls Lt Fs Ft. unfold wedge_of, wsum. rewrite (Rmul_comm (c_ring K)). f_equal. rewrite <- lsum_sumK.
    transitivity (lsum (tuples r (p + q)) (fun x => gdelta s x * lsum (unordered_permute t) (fun a => sgn (snd a) *
      (A (firstn p x ++ firstn p (fst a)) * B (skipn p x ++ skipn p (fst a)))))).
    - apply lsum_ext. intros x Hx. rewrite <- lsum_sumK.
      rewrite <- (sum_gdelta r (p + q) t (fun y => A (firstn p x ++ firstn p y) * B (skipn p x ++ skipn p y)) Hn Lt Ft).
      rewrite <- lsum_scal. apply lsum_ext. intros y _. ring.
    - rewrite (sum_gdelta r (p + q) s (fun x => lsum (unordered_permute t) (fun a => sgn (snd a) *
      (A (firstn p x ++ firstn p (fst a)) * B (skipn p x ++ skipn p (fst a))))) Hn Ls Fs).
      apply lsum_ext. intros c _. rewrite <- lsum_scal. apply lsum_ext. intros a _. rewrite sgn_xorb. ring.
  Qed.
  Lemma wedge_of_dup r p q w (A B : tensor K) c a : (p + q <= 3)%nat -> length c = (p + q)%nat -> length a = (p + q)%nat ->
    ~ NoDup c \/ ~ NoDup a -> wedge_of r p q w A B c a = 0.
  Proof.
    intros Hn Lc La D. unfold wedge_of. rewrite <- lsum_sumK. rewrite lsum_none; [ring|].
    intros x Hx. rewrite <- lsum_sumK. apply lsum_none. intros y Hy. apply tuples_In in Hx as [Lx _]. apply tuples_In in Hy as [Ly _].
    destruct D as [D|D]; [rewrite (gdelta_dup (p + q) c x) by assumption|rewrite (gdelta_dup (p + q) a y) by assumption]; ring.
  Qed.

  (** * Which terms the code keeps *)
  Lemma nonzero_In r p (t : tensor K) x : In x (nonzero r p t) <-> length x = (2 * p)%nat /\ Forall (fun i => i < r)%nat x /\ t x <> 0.
  Proof.
    unfold nonzero. rewrite filter_In, tuples_inds, tuples_In. destruct (ceqb (t x) 0) eqn:E; cbn [negb].
    - apply ceqb_spec in E. rewrite E. intuition congruence.
    - assert (t x <> 0) by (intro X; apply (ceqb_spec K) in X; congruence). intuition.
  Qed.
  Definition sup_cre (r p : nat) (A : tensor K) (c : list nat) : Prop := length c = p /\ Forall (fun i => i < r)%nat c /\
    exists a, length a = p /\ Forall (fun i => i < r)%nat a /\ A (c ++ a) <> 0.
  Definition sup_ann (r p : nat) (A : tensor K) (a : list nat) : Prop := length a = p /\ Forall (fun i => i < r)%nat a /\
    exists c, length c = p /\ Forall (fun i => i < r)%nat c /\ A (c ++ a) <> 0.
  Lemma cre_In r p (A : tensor K) c : In c (map (firstn p) (nonzero r p A)) <-> sup_cre r p A c.
  Proof.
    rewrite in_map_iff. split.
    - intros [x [<- H]]. apply nonzero_In in H as [L [F N]]. split; [rewrite firstn_length; lia|].
      rewrite <- (firstn_skipn p x), Forall_app in F. destruct F as [F1 F2].
      split; [exact F1|]. exists (skipn p x). rewrite firstn_skipn. split; [rewrite skipn_length; lia|]. auto.
    - intros [L [F [a [La [Fa N]]]]]. exists (c ++ a). split; [apply firstn_app_l; exact L|]. apply nonzero_In.
      split; [rewrite app_length; lia|]. split; [apply Forall_app; auto|exact N].
  Qed.
  Lemma ann_In r p (A : tensor K) c : In c (map (skipn p) (nonzero r p A)) <-> sup_ann r p A c.
  Proof.
    rewrite in_map_iff. split.
    - intros [x [<- H]]. apply nonzero_In in H as [L [F N]]. split; [rewrite skipn_length; lia|].
      rewrite <- (firstn_skipn p x), Forall_app in F. destruct F as [F1 F2].
      split; [exact F2|]. exists (firstn p x). rewrite firstn_skipn. split; [rewrite firstn_length; lia|]. auto.
    - intros [L [F [a [La [Fa N]]]]]. exists (a ++ c). split; [apply skipn_app_l; exact La|]. apply nonzero_In.
      split; [rewrite app_length; lia|]. split; [apply Forall_app; auto|exact N].
  Qed.
  Lemma terms_spec (Px Py : list nat -> Prop) xs ys p q n :
    (forall c, In c xs <-> Px c) -> (forall c, In c ys <-> Py c) ->
    (forall c, Px c -> length c = p /\ NoDup c) -> (forall c, Py c -> length c = q /\ NoDup c) ->
    (In n (wedge_terms xs ys) <-> length n = (p + q)%nat /\ StronglySorted lt n /\ Px (firstn p n) /\ Py (skipn p n)).
  Proof.
    intros X Y Hx Hy. rewrite wedge_terms_In. split.
    - intros [c [s [Hc [Hs [-> [D G]]]]]]. apply X in Hc. apply Y in Hs. destruct (Hx c Hc) as [Lc Nc]. destruct (Hy s Hs) as [Ls Ns].
      rewrite firstn_app_l, skipn_app_l by exact Lc. split; [rewrite app_length; lia|]. split; [|auto].
      apply has_descent_sorted; [|exact G]. apply NoDup_app_iff; auto. apply disj_existsb. exact D.
    - intros [L [S [H1 H2]]]. exists (firstn p n), (skipn p n). split; [apply X; exact H1|]. split; [apply Y; exact H2|].
      split; [symmetry; apply firstn_skipn|]. pose proof (sorted_NoDup n S) as N. split; [|apply has_descent_sorted; assumption].
      apply disj_existsb. intros x A1 A2. rewrite <- (firstn_skipn p n) in N.
      clear - N A1 A2. revert N A1. generalize (firstn p n). intro l. induction l as [|y l IH]; intros N A1; [destruct A1|].
      simpl in N. inversion_clear N as [|? ? Ny Nl]. destruct A1 as [->|A1]; [|apply IH; assumption].
      apply Ny. apply in_or_app. right. exact A2.
  Qed.
  Lemma sup_cre_ok r p (A : tensor K) c : alternating p A -> sup_cre r p A c -> length c = p /\ NoDup c.
  Proof. intros H [L [_ [a [La [_ N]]]]]. split; [exact L|]. destruct (H c a L La N); auto. Qed.
  Lemma sup_ann_ok r p (A : tensor K) c : alternating p A -> sup_ann r p A c -> length c = p /\ NoDup c.
  Proof. intros H [L [_ [a [La [_ N]]]]]. split; [exact L|]. destruct (H a c La L N); auto. Qed.

  (** The condition under which nothing is missed. *)
  Definition covers (r p q : nat) (w : K) (A B : tensor K) : Prop :=
    forall s t, StronglySorted lt s -> StronglySorted lt t -> length s = (p + q)%nat -> length t = (p + q)%nat ->
    Forall (fun x => x < r)%nat s -> Forall (fun x => x < r)%nat t -> wedge_of r p q w A B s t <> 0 ->
    sup_cre r p A (firstn p s) /\ sup_cre r q B (skipn p s) /\ sup_ann r p A (firstn p t) /\ sup_ann r q B (skipn p t).

  Theorem wedge_spec r p q w (A B : tensor K) c a : (1 <= p)%nat -> (p + q <= 3)%nat ->
    alternating p A -> alternating q B -> covers r p q w A B ->
    length c = (p + q)%nat -> length a = (p + q)%nat -> Forall (fun x => x < r)%nat c -> Forall (fun x => x < r)%nat a ->
    wedge r p q w A B (c ++ a) = wedge_of r p q w A B c a.
  Proof.
    intros Hp Hn HA HB Cov Lc La Fc Fa. unfold wedge.
    set (cre := wedge_terms (map (firstn p) (nonzero r p A)) (map (firstn q) (nonzero r q B))).
    set (ann := wedge_terms (map (skipn p) (nonzero r p A)) (map (skipn q) (nonzero r q B))).
    assert (Cre : forall n, In n cre <-> length n = (p + q)%nat /\ StronglySorted lt n /\ sup_cre r p A (firstn p n) /\ sup_cre r q B (skipn p n)).
    { intro n. apply (terms_spec (sup_cre r p A) (sup_cre r q B)); intro; [apply cre_In|apply cre_In|apply sup_cre_ok; exact HA|apply sup_cre_ok; exact HB]. }
    assert (Ann : forall n, In n ann <-> length n = (p + q)%nat /\ StronglySorted lt n /\ sup_ann r p A (firstn p n) /\ sup_ann r q B (skipn p n)).
    { intro n. apply (terms_spec (sup_ann r p A) (sup_ann r q B)); intro; [apply ann_In|apply ann_In|apply sup_ann_ok; exact HA|apply sup_ann_ok; exact HB]. }
    assert (Ne : forall l : list nat, length l = (p + q)%nat -> l <> []) by (intros [|? ?] Hl; [simpl in Hl; lia|discriminate]).
    set (blk := fun (i : list nat) (t : tensor K) (j : list nat) =>
      fold_left (fun t c => fold_left (fun t a =>
        tset (fst c ++ fst a) (wsum p A B i j * w * sgn (xorb (snd c) (snd a))) t) (unordered_permute j) t) (unordered_permute i) t).
    transitivity (fold_left (fun t i => fold_left (fun t j => blk i t j) ann t) cre tzero (c ++ a)).
    { assert (G : forall i (m : list (list nat)) (t : tensor K), fold_left (fun t j =>
        fold_left (fun t c => fold_left (fun t a => tset (fst c ++ fst a)
          (fold_left (fun s c => fold_left (fun s a => s + A (firstn p (fst c) ++ firstn p (fst a)) * B (skipn p (fst c) ++ skipn p (fst a))
              * sgn (xorb (snd c) (snd a))) (unordered_permute j) s) (unordered_permute i) 0 * w * sgn (xorb (snd c) (snd a))) t)
          (unordered_permute j) t) (unordered_permute i) t) m t = fold_left (fun t j => blk i t j) m t).
      { intros i m. induction m as [|j m IH]; intro t; cbn [fold_left]; [reflexivity|]. rewrite IH, wsum_fold. reflexivity. }
      cbv zeta. assert (G2 : forall l (t : tensor K), fold_left (fun t i => fold_left (fun t j =>
        fold_left (fun t c => fold_left (fun t a => tset (fst c ++ fst a)
          (fold_left (fun s c => fold_left (fun s a => s + A (firstn p (fst c) ++ firstn p (fst a)) * B (skipn p (fst c) ++ skipn p (fst a))
              * sgn (xorb (snd c) (snd a))) (unordered_permute j) s) (unordered_permute i) 0 * w * sgn (xorb (snd c) (snd a))) t)
          (unordered_permute j) t) (unordered_permute i) t) ann t) l t = fold_left (fun t i => fold_left (fun t j => blk i t j) ann t) l t).
      { intro l. induction l as [|i l IH]; intro t; cbn [fold_left]; [reflexivity|]. rewrite IH, G. reflexivity. }
      rewrite G2. reflexivity. }
    (* what a matching write implies *)
    assert (M : forall i j cc aa, length i = (p + q)%nat -> In cc (unordered_permute i) -> In aa (unordered_permute j) ->
       fst cc ++ fst aa = c ++ a -> fst cc = c /\ fst aa = a /\ Permutation i c /\ Permutation j a).
    { intros i j [c' s1] [a' s2] Li H1 H2 E. cbn [fst] in *.
      apply uperm_Perm in H1 as P1. apply uperm_Perm in H2 as P2.
      apply app_inj_len in E; [|rewrite <- (Permutation_length P1); lia]. destruct E as [-> ->]. auto. }
    assert (Keep : forall i j (t : tensor K), length i = (p + q)%nat -> ~ (Permutation i c /\ Permutation j a) -> blk i t j (c ++ a) = t (c ++ a)).
    { intros i j t Li D. unfold blk.
      apply (fold_keep K (fun c t => fold_left (fun t a => tset (fst c ++ fst a) (wsum p A B i j * w * sgn (xorb (snd c) (snd a))) t) (unordered_permute j) t)).
      intros cc t1 Hcc. apply (fold_keep K (fun a t => tset (fst cc ++ fst a) (wsum p A B i j * w * sgn (xorb (snd cc) (snd a))) t)).
      intros aa t2 Haa. apply tset_miss. intro E. symmetry in E. apply D. destruct (M i j cc aa Li Hcc Haa E) as [_ [_ X]]. exact X. }
    assert (None : (forall i j, In i cre -> In j ann -> ~ (Permutation i c /\ Permutation j a)) ->
      fold_left (fun t i => fold_left (fun t j => blk i t j) ann t) cre tzero (c ++ a) = 0).
    { intro D. apply (fold_keep K (fun i t => fold_left (fun t j => blk i t j) ann t)).
      intros i t Hi. apply (fold_keep K (fun j t => blk i t j)). intros j t1 Hj. apply Keep; [apply Cre in Hi; tauto|]. apply D; assumption. }
    destruct (NoDup_dec Nat.eq_dec c) as [Nc|Nc];
      [destruct (NoDup_dec Nat.eq_dec a) as [Na|Na]|].
    2:{ rewrite (wedge_of_dup r p q w A B c a) by auto. apply None. intros i j Hi Hj [P1 P2]. apply Na.
        apply (Permutation_NoDup P2). apply sorted_NoDup. apply Ann in Hj. tauto. }
    2:{ rewrite (wedge_of_dup r p q w A B c a) by auto. apply None. intros i j Hi Hj [P1 P2]. apply Nc.
        apply (Permutation_NoDup P1). apply sorted_NoDup. apply Cre in Hi. tauto. }
    destruct (sort_exists c Nc) as [s [Ss Ps]]. destruct (sort_exists a Na) as [t [St Pt]].
    assert (Ls : length s = (p + q)%nat) by (rewrite (Permutation_length Ps); exact Lc).
    assert (Lt : length t = (p + q)%nat) by (rewrite (Permutation_length Pt); exact La).
    assert (Fs : Forall (fun x => x < r)%nat s) by (rewrite Forall_forall in *; intros x Hx; apply Fc; apply (Permutation_in x Ps Hx)).
    assert (Ft : Forall (fun x => x < r)%nat t) by (rewrite Forall_forall in *; intros x Hx; apply Fa; apply (Permutation_in x Pt Hx)).
    destruct (perm_listed s c (Ne s Ls) Ps) as [sc Hc]. destruct (perm_listed t a (Ne t Lt) Pt) as [sa Ha].
    assert (NDs := sorted_NoDup s Ss). assert (NDt := sorted_NoDup t St).
    rewrite (wedge_of_perm r p q w A B s t c a sc sa) by (auto; lia).
    destruct (in_dec (list_eq_dec Nat.eq_dec) s cre) as [Hs|Hs]; [destruct (in_dec (list_eq_dec Nat.eq_dec) t ann) as [Ht|Ht]|].
    - rewrite (wedge_of_wsum r p q w A B s t) by (auto; lia).
      set (v := sgn (xorb sc sa) * (wsum p A B s t * w)).
      assert (U : forall cc aa (u : tensor K), In cc (unordered_permute s) -> In aa (unordered_permute t) ->
           u (c ++ a) = v -> tset (fst cc ++ fst aa) (wsum p A B s t * w * sgn (xorb (snd cc) (snd aa))) u (c ++ a) = v).
      { intros [c' s1] [a' s2] u H1 H2 Hu. cbn [fst snd].
        destruct (list_eq_dec Nat.eq_dec (c' ++ a') (c ++ a)) as [E|D]; [|rewrite tset_miss by congruence; exact Hu].
        destruct (M s t (c', s1) (a', s2) Ls H1 H2 E) as [E1 [E2 _]]. cbn [fst] in E1, E2. subst c' a'.
        rewrite tset_hit, (uperm_fun K s c s1 sc NDs H1 Hc), (uperm_fun K t a s2 sa NDt H2 Ha). unfold v. ring. }
      assert (Stay : forall i j (u : tensor K), In i cre -> In j ann -> u (c ++ a) = v -> blk i u j (c ++ a) = v).
      { intros i j u Hi Hj Hu. apply Cre in Hi as Ci. apply Ann in Hj as Aj.
        destruct (list_eq_dec Nat.eq_dec i s) as [->|Di]; [destruct (list_eq_dec Nat.eq_dec j t) as [->|Dj]|].
        - unfold blk. apply (fold_stay K (fun c t0 => fold_left (fun t0 a => tset (fst c ++ fst a) (wsum p A B s t * w * sgn (xorb (snd c) (snd a))) t0) (unordered_permute t) t0)); [|exact Hu].
          intros cc t1 Hcc Ht1. apply (fold_stay K (fun a t0 => tset (fst cc ++ fst a) (wsum p A B s t * w * sgn (xorb (snd cc) (snd a))) t0)); [|exact Ht1].
          intros aa t2 Haa Ht2. apply U; assumption.
        - rewrite Keep; [exact Hu|exact Ls|]. intros [_ P]. apply Dj. apply sorted_perm_eq; [tauto|exact St|]. rewrite P. symmetry. exact Pt.
        - rewrite Keep; [exact Hu|tauto|]. intros [P _]. apply Di. apply sorted_perm_eq; [tauto|exact Ss|]. rewrite P. symmetry. exact Ps. }
      apply (fold_hit K (fun i t0 => fold_left (fun t0 j => blk i t0 j) ann t0) (c ++ a) v cre s); [|exact Hs|].
      + intros i u Hi Hu. apply (fold_stay K (fun j t0 => blk i t0 j)); [|exact Hu]. intros j u1 Hj Hu1. apply Stay; assumption.
      + intro u. apply (fold_hit K (fun j t0 => blk s t0 j) (c ++ a) v ann t); [|exact Ht|].
        * intros j u1 Hj Hu1. apply Stay; assumption.
        * intro u1. unfold blk.
          apply (fold_hit K (fun c t0 => fold_left (fun t0 a => tset (fst c ++ fst a) (wsum p A B s t * w * sgn (xorb (snd c) (snd a))) t0) (unordered_permute t) t0) (c ++ a) _ _ (c, sc)); [|exact Hc|].
          -- intros cc t1 Hcc Ht1. apply (fold_stay K (fun a t0 => tset (fst cc ++ fst a) (wsum p A B s t * w * sgn (xorb (snd cc) (snd a))) t0)); [|exact Ht1].
             intros aa t2 Haa Ht2. apply U; assumption.
          -- intro t1. apply (fold_hit K (fun a t0 => tset (fst (c, sc) ++ fst a) (wsum p A B s t * w * sgn (xorb (snd (c, sc)) (snd a))) t0) (c ++ a) _ _ (a, sa)); [|exact Ha|].
             ++ intros aa t2 Haa Ht2. apply (U (c, sc) aa); assumption.
             ++ intro t2. cbn [fst snd]. rewrite tset_hit. unfold v. ring.
    - rewrite None.
      + destruct (ceqb (wedge_of r p q w A B s t) 0) eqn:E; [apply ceqb_spec in E; rewrite E; ring|]. exfalso. apply Ht. apply Ann.
        assert (Nz : wedge_of r p q w A B s t <> 0) by (intro X; apply (ceqb_spec K) in X; congruence).
        destruct (Cov s t Ss St Ls Lt Fs Ft Nz) as [_ [_ [H1 H2]]]. auto.
      + intros i j Hi Hj [_ P]. apply Ht. apply Ann in Hj as Aj. replace t with j; [exact Hj|].
        apply sorted_perm_eq; [tauto|exact St|]. rewrite P. symmetry. exact Pt.
    - rewrite None.
      + destruct (ceqb (wedge_of r p q w A B s t) 0) eqn:E; [apply ceqb_spec in E; rewrite E; ring|]. exfalso. apply Hs. apply Cre.
        assert (Nz : wedge_of r p q w A B s t <> 0) by (intro X; apply (ceqb_spec K) in X; congruence).
        destruct (Cov s t Ss St Ls Lt Fs Ft Nz) as [H1 [H2 _]]. auto.
      + intros i j Hi Hj [P _]. apply Hs. apply Cre in Hi as Ci. replace s with i; [exact Hi|].
        apply sorted_perm_eq; [tauto|exact Ss|]. rewrite P. symmetry. exact Ps.
  Qed.

  (** * One-body RDM with itself, as used for the cumulant *)
  Lemma alternating1 (A : tensor K) : alternating 1 A.
  Proof.
    intros c a Lc La _. destruct c as [|i [|? ?]]; try discriminate. destruct a as [|j [|? ?]]; try discriminate.
    split; repeat constructor; auto.
  Qed.
  Lemma wsum11 (A B : tensor K) i k j l : wsum 1 A B [i; k] [j; l] =
    A [i; j] * B [k; l] - A [i; l] * B [k; j] - A [k; j] * B [i; l] + A [k; l] * B [i; j].
  Proof. unfold wsum. rewrite !uperm2. cbn [lsum fold_right fst snd firstn skipn app xorb sgn]. ring. Qed.
  Lemma sup_cre_dec r (A : tensor K) i : (i < r)%nat -> sup_cre r 1 A [i] \/ forall j, (j < r)%nat -> A [i; j] = 0.
  Proof.
    intro Hi. destruct (in_dec (list_eq_dec Nat.eq_dec) [i] (map (firstn 1) (nonzero r 1 A))) as [H|H]; [left; apply cre_In; exact H|].
    right. intros j Hj. destruct (ceqb (A [i; j]) 0) eqn:E; [apply ceqb_spec in E; exact E|]. exfalso. apply H. apply cre_In.
    split; [reflexivity|]. split; [repeat constructor; exact Hi|]. exists [j]. split; [reflexivity|]. split; [repeat constructor; exact Hj|].
    cbn [app]. intro X. apply (ceqb_spec K) in X. congruence.
  Qed.
  Lemma sup_ann_dec r (A : tensor K) i : (i < r)%nat -> sup_ann r 1 A [i] \/ forall j, (j < r)%nat -> A [j; i] = 0.
  Proof.
    intro Hi. destruct (in_dec (list_eq_dec Nat.eq_dec) [i] (map (skipn 1) (nonzero r 1 A))) as [H|H]; [left; apply ann_In; exact H|].
    right. intros j Hj. destruct (ceqb (A [j; i]) 0) eqn:E; [apply ceqb_spec in E; exact E|]. exfalso. apply H. apply ann_In.
    split; [reflexivity|]. split; [repeat constructor; exact Hi|]. exists [j]. split; [reflexivity|]. split; [repeat constructor; exact Hj|].
    cbn [app]. intro X. apply (ceqb_spec K) in X. congruence.
  Qed.
  Lemma covers11 r w (A : tensor K) : covers r 1 1 w A A.
  Proof.
    intros s t _ _ Ls Lt Fs Ft Nz. rewrite wedge_of_wsum in Nz by (auto; lia).
    destruct s as [|i [|k [|? ?]]]; try discriminate. destruct t as [|j [|l [|? ?]]]; try discriminate.
    inversion_clear Fs as [|? ? Hi Fs']. inversion_clear Fs' as [|? ? Hk _]. inversion_clear Ft as [|? ? Hj Ft']. inversion_clear Ft' as [|? ? Hl _].
    rewrite wsum11 in Nz. cbn [firstn skipn].
    destruct (sup_cre_dec r A i Hi) as [H1|H1]; [|exfalso; apply Nz; rewrite (H1 j Hj), (H1 l Hl); ring].
    destruct (sup_cre_dec r A k Hk) as [H2|H2]; [|exfalso; apply Nz; rewrite (H2 j Hj), (H2 l Hl); ring].
    destruct (sup_ann_dec r A j Hj) as [H3|H3]; [|exfalso; apply Nz; rewrite (H3 i Hi), (H3 k Hk); ring].
    destruct (sup_ann_dec r A l Hl) as [H4|H4]; [|exfalso; apply Nz; rewrite (H4 i Hi), (H4 k Hk); ring].
    auto.
  Qed.
  Theorem wedge_square r w (A : tensor K) i k j l : (i < r)%nat -> (k < r)%nat -> (j < r)%nat -> (l < r)%nat ->
    w * (1 + 1) = 1 -> wedge r 1 1 w A A [i; k; j; l] = A [i; j] * A [k; l] - A [i; l] * A [k; j].
  Proof.
    intros Hi Hk Hj Hl W. assert (F1 : Forall (fun x => x < r)%nat [i; k]) by (repeat constructor; assumption).
    assert (F2 : Forall (fun x => x < r)%nat [j; l]) by (repeat constructor; assumption).
    pose proof (wedge_spec r 1 1 w A A [i; k] [j; l] ltac:(lia) ltac:(lia) (alternating1 A) (alternating1 A) (covers11 r w A) eq_refl eq_refl F1 F2) as E.
    cbn [app] in E. rewrite E, wedge_of_wsum by (auto; lia). rewrite wsum11.
    transitivity (w * (1 + 1) * (A [i; j] * A [k; l] - A [i; l] * A [k; j])); [ring|]. rewrite W. ring.
  Qed.
End Wedge.

Section RdmMore.
  Variable K : CoefRing.
  Add Ring KRing2 : (c_ring K).
  Local Open Scope coef_scope.

  Theorem hf_trace_sum p na nb alp bet R : (1 <= p <= 3)%nat ->
    NoDup (firstn na alp ++ firstn nb bet) -> (forall z, In z (firstn na alp ++ firstn nb bet) -> (z < R)%nat) ->
    (p <= length (firstn na alp ++ firstn nb bet))%nat ->
    ofnat (Factorial.fact (length (firstn na alp ++ firstn nb bet) - p))
      * sumK (map (fun l => build_hf p na nb alp bet (l ++ l)) (tuples R p))
    = @ofnat K (Factorial.fact (length (firstn na alp ++ firstn nb bet))).
  Proof.
    intros Hp N H L. pose proof (hf_trace K p na nb alp bet R Hp N H L) as T. rewrite lsum_sumK in T. exact T.
  Qed.
  Theorem rdm_trace_sum R Ne p (psi : bits -> K) : has_particles R Ne psi -> (p <= Ne)%nat ->
    ofnat (Factorial.fact (Ne - p)) * sumK (map (fun l => rdm_of R psi l l) (tuples R p))
    = ofnat (Factorial.fact Ne) * rdm_of R psi [] [].
  Proof. intros H L. pose proof (rdm_trace K R Ne p psi H L) as T. rewrite lsum_sumK in T. exact T. Qed.

  Theorem reduce_hf p na nb alp bet R (w : K) : p = 2%nat \/ p = 3%nat ->
    NoDup (firstn na alp ++ firstn nb bet) -> (forall z, In z (firstn na alp ++ firstn nb bet) -> (z < R)%nat) ->
    (p <= length (firstn na alp ++ firstn nb bet))%nat ->
    ofnat (length (firstn na alp ++ firstn nb bet) - p + 1) * w = 1 ->
    forall c a, length c = (p - 1)%nat -> length a = (p - 1)%nat ->
    reduce_order p R w (build_hf p na nb alp bet) (c ++ a) = build_hf (p - 1) na nb alp bet (c ++ a).
  Proof.
    intros Hp N H L W c a Lc La. set (occ := firstn na alp ++ firstn nb bet) in *.
    rewrite (hf_is_determinant K (p - 1) na nb alp bet R c a) by (auto; lia). fold occ.
    apply (reduce_order_spec K p R (length occ) w); auto.
    - rewrite <- (popcount_det R occ N H). apply basis_particles, det_state_length.
    - intros c' a' Lc' La'. apply hf_is_determinant; auto. lia.
  Qed.

  Lemma sumK_ext {A} (l : list A) (f g : A -> K) : (forall x, In x l -> f x = g x) -> sumK (map f l) = sumK (map g l).
  Proof. intro H. rewrite <- !lsum_sumK. apply lsum_ext. exact H. Qed.
  Lemma sumK_opp {A} (l : list A) (f : A -> K) : sumK (map (fun x => - f x) l) = - sumK (map f l).
  Proof. rewrite <- !lsum_sumK. induction l as [|x l IH]; simpl; [ring|]. rewrite IH. ring. Qed.
  Lemma sumK_conj {A} (l : list A) (f : A -> K) : sumK (map (fun x => cconj (f x)) l) = cconj (sumK (map f l)).
  Proof. rewrite <- !lsum_sumK. induction l as [|x l IH]; simpl; [symmetry; apply cconj_0|]. rewrite IH, cconj_add. reflexivity. Qed.

  Theorem reduce_antisym p R (w : K) (t : tensor K) : p = 2%nat \/ p = 3%nat ->
    (forall l x y l' a, length (l ++ x :: y :: l') = p -> length a = p ->
       t ((l ++ x :: y :: l') ++ a) = - t ((l ++ y :: x :: l') ++ a)
       /\ t (a ++ l ++ x :: y :: l') = - t (a ++ l ++ y :: x :: l')) ->
    forall l x y l' a, length (l ++ x :: y :: l') = (p - 1)%nat -> length a = (p - 1)%nat ->
       reduce_order p R w t ((l ++ x :: y :: l') ++ a) = - reduce_order p R w t ((l ++ y :: x :: l') ++ a)
       /\ reduce_order p R w t (a ++ l ++ x :: y :: l') = - reduce_order p R w t (a ++ l ++ y :: x :: l').
  Proof.
    intros Hp H l x y l' a Ll La.
    assert (Ll' : length (l ++ y :: x :: l') = (p - 1)%nat) by (rewrite app_length in *; simpl in *; exact Ll).
    split; rewrite !(reduce_order_contract K p) by assumption.
    - transitivity (w * (- sumK (map (fun z => t (((l ++ y :: x :: l') ++ [z]) ++ a ++ [z])) (seq 0 R)))); [|ring]. f_equal.
      rewrite <- sumK_opp. apply sumK_ext. intros z _. 
      replace ((l ++ x :: y :: l') ++ [z]) with (l ++ x :: y :: l' ++ [z]) by (rewrite <- app_assoc; reflexivity).
      replace ((l ++ y :: x :: l') ++ [z]) with (l ++ y :: x :: l' ++ [z]) by (rewrite <- app_assoc; reflexivity).
      apply (H l x y (l' ++ [z]) (a ++ [z])); rewrite !app_length in *; simpl in *; rewrite ?app_length; simpl; lia.
    - transitivity (w * (- sumK (map (fun z => t ((a ++ [z]) ++ (l ++ y :: x :: l') ++ [z])) (seq 0 R)))); [|ring]. f_equal.
      rewrite <- sumK_opp. apply sumK_ext. intros z _. 
      replace ((l ++ x :: y :: l') ++ [z]) with (l ++ x :: y :: l' ++ [z]) by (rewrite <- app_assoc; reflexivity).
      replace ((l ++ y :: x :: l') ++ [z]) with (l ++ y :: x :: l' ++ [z]) by (rewrite <- app_assoc; reflexivity).
      apply (H l x y (l' ++ [z]) (a ++ [z])); rewrite !app_length in *; simpl in *; rewrite ?app_length; simpl; lia.
  Qed.
  Theorem reduce_hermitian p R (w : K) (t : tensor K) : p = 2%nat \/ p = 3%nat -> cconj w = w ->
    (forall c a, length c = p -> length a = p -> t (a ++ c) = cconj (t (c ++ a))) ->
    forall c a, length c = (p - 1)%nat -> length a = (p - 1)%nat ->
      reduce_order p R w t (a ++ c) = cconj (reduce_order p R w t (c ++ a)).
  Proof.
    intros Hp W H c a Lc La. rewrite !(reduce_order_contract K p) by assumption. rewrite cconj_mul, W, <- sumK_conj. f_equal.
    apply sumK_ext. intros z _. apply H; rewrite app_length; simpl; lia.
  Qed.
  Theorem hf_antisym p na nb alp bet l x y l' a : (1 <= p <= 3)%nat ->
    length (l ++ x :: y :: l') = p -> length a = p ->
    build_hf p na nb alp bet ((l ++ x :: y :: l') ++ a) = - @build_hf K p na nb alp bet ((l ++ y :: x :: l') ++ a)
    /\ build_hf p na nb alp bet (a ++ l ++ x :: y :: l') = - @build_hf K p na nb alp bet (a ++ l ++ y :: x :: l').
  Proof.
    intros Hp Ll La. assert (Ll' : length (l ++ y :: x :: l') = p) by (rewrite app_length in *; simpl in *; exact Ll).
    set (R := S (list_max (firstn na alp ++ firstn nb bet))).
    assert (HR : forall z, In z (firstn na alp ++ firstn nb bet) -> (z < R)%nat).
    { intros z Hz. unfold R. pose proof (proj1 (list_max_le (firstn na alp ++ firstn nb bet) _) (le_n _)) as F.
      rewrite Forall_forall in F. specialize (F z Hz). lia. }
    rewrite !(hf_is_determinant K p na nb alp bet R) by assumption. split; [apply rdm_antisym_cre|apply rdm_antisym_ann].
  Qed.
End RdmMore.
