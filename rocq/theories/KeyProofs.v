(** The support of a fermionic string determines the string; the normal form of a two-body word and of its adjoint. *)
From Coq Require Import Bool List Arith Lia.
From Verif Require Import Coeff MatSpec MatLemmas FockSpec CircuitSpec FermiModel FermiProofs AdjProofs OpSpec OperatorModel TransformModel TwoTerm JWProofs HamSpec HamProofs RdmFock SymProofs1 ResSpec.
Import ListNotations.

Definition site (x : option fop) (a b : bool) : bool :=
  match x with
  | None => Bool.eqb a b
  | Some o => match local o b with Some d => Bool.eqb a d | None => false end
  end.
Fixpoint supp (s : fstr) (r c : bits) : bool :=
  match s, r, c with
  | [], [], [] => true
  | x :: s', a :: r', b :: c' => site x a b && supp s' r' c'
  | _, _, _ => false
  end.
Definition adjs (s : fstr) : fstr := map (option_map fadj) s.
Lemma adjs_adjs s : adjs (adjs s) = s.
Proof. unfold adjs. rewrite map_map. rewrite <- (map_id s) at 2. apply map_ext. intros [o|]; cbn; [now rewrite fadj_fadj|reflexivity]. Qed.
Lemma adjs_length s : length (adjs s) = length s.
Proof. apply map_length. Qed.
Lemma site_adj x a b : site (option_map fadj x) a b = site x b a.
Proof. destruct x as [[]|], a, b; reflexivity. Qed.
Lemma supp_adj s : forall r c, supp (adjs s) r c = supp s c r.
Proof. induction s as [|x s IH]; intros [|a r] [|b c]; try reflexivity. cbn [adjs map supp]. fold (adjs s). now rewrite site_adj, IH. Qed.
Lemma site_some x : exists a b, site x a b = true.
Proof. destruct x as [[]|]; [exists true, false|exists false, true|exists true, true|exists false, false|exists true, true]; reflexivity. Qed.
Lemma site_inj x y : (forall a b, site x a b = site y a b) -> x = y.
Proof.
  intro H. pose proof (H true true) as H1. pose proof (H true false) as H2. pose proof (H false true) as H3. pose proof (H false false) as H4.
  destruct x as [[]|], y as [[]|]; cbn in *; try reflexivity; discriminate.
Qed.
Lemma supp_some s : exists r c, length r = length s /\ length c = length s /\ supp s r c = true.
Proof.
  induction s as [|x s [r [c [Lr [Lc H]]]]]; [exists [], []; auto|]. destruct (site_some x) as [a [b S]].
  exists (a :: r), (b :: c). cbn [length supp]. rewrite S, H, Lr, Lc. auto.
Qed.
Lemma supp_inj s : forall t, length s = length t -> (forall r c, length r = length s -> length c = length s -> supp s r c = supp t r c) -> s = t.
Proof.
  induction s as [|x s IH]; intros [|y t] L H; try discriminate; [reflexivity|]. cbn [length] in *. injection L as L.
  assert (XY : x = y).
  { apply site_inj. intros a b.
    destruct (supp_some s) as [r [c [Lr [Lc S]]]]. destruct (supp_some t) as [r' [c' [Lr' [Lc' S']]]].
    pose proof (H (a :: r) (b :: c) ltac:(cbn; lia) ltac:(cbn; lia)) as H1. pose proof (H (a :: r') (b :: c') ltac:(cbn; lia) ltac:(cbn; lia)) as H2.
    cbn [supp] in H1, H2. rewrite S, andb_true_r in H1. rewrite S', andb_true_r in H2.
    destruct (site x a b), (site y a b); cbn [andb] in *; congruence. }
  subst y. f_equal. apply IH; [exact L|]. intros r c Lr Lc. destruct (site_some x) as [a [b S]].
  pose proof (H (a :: r) (b :: c) ltac:(cbn; lia) ltac:(cbn; lia)) as H1. cbn [supp] in H1. now rewrite S in H1.
Qed.

Section KeyProofs.
  Variable K : CoefRing.
  Add Ring KRing : (c_ring K).
  Local Open Scope coef_scope.
  Notation F s := (@fstr_mat K s).
  Definition pm (x : K) : Prop := x = 1 \/ x = - (1).
  Lemma pm_sq (x : K) : pm x -> x * x = 1.
  Proof. intros [-> | ->]; ring. Qed.
  Lemma pm_ne (x : K) : pm x -> x <> 0.
  Proof. intros H E. apply (c1_neq0 K). rewrite <- (pm_sq x H), E. ring. Qed.
  Lemma pm_mul (x y : K) : pm x -> pm y -> pm (x * y).
  Proof. intros [-> | ->] [-> | ->]; [left|right|right|left]; ring. Qed.
  Lemma pm_conj (x : K) : pm x -> cconj x = x.
  Proof. intros [-> | ->]; rewrite ?cconj_opp, cconj_1; reflexivity. Qed.
  Lemma pm_sgn b : pm (sgn b : K).
  Proof. destruct b; [right|left]; reflexivity. Qed.
  Lemma pm_1 : pm 1. Proof. now left. Qed.

  Lemma supp_mat s : forall r c, length r = length s -> length c = length s -> if supp s r c then pm (F s r c) else F s r c = 0.
  Proof.
    induction s as [|x s IH]; intros [|a r] [|b c] Lr Lc; try discriminate; [left; reflexivity|].
    cbn [length supp] in *. injection Lr as Lr. injection Lc as Lc. specialize (IH r c Lr Lc).
    assert (G : exists u, F (x :: s) (a :: r) (b :: c) = u * F s r c /\ if site x a b then pm u else u = 0).
    { destruct x as [o|].
      - rewrite fstr_mat_some. eexists. split; [reflexivity|]. unfold local2. cbn [site]. destruct (local o b) as [d|]; [|ring].
        destruct a, d; cbn [Bool.eqb]; try ring; destruct (odd_ladders s && b); cbn [sgn]; first [left; ring|right; ring].
      - rewrite fstr_mat_none. eexists. split; [reflexivity|]. cbn [site]. destruct (Bool.eqb a b); [apply pm_sgn|reflexivity]. }
    destruct G as [u [-> G]]. destruct (site x a b); cbn [andb]; [|rewrite G; ring].
    destruct (supp s r c); [now apply pm_mul|rewrite IH; ring].
  Qed.
  Lemma supp_iff s r c : length r = length s -> length c = length s -> supp s r c = true <-> F s r c <> 0.
  Proof.
    intros Lr Lc. pose proof (supp_mat s r c Lr Lc) as H. destruct (supp s r c).
    - split; auto. intros _. now apply pm_ne.
    - split; [discriminate|]. intro H'. contradiction.
  Qed.
  (** Strings whose matrices agree up to a sign are equal. *)
  Lemma mat_inj N s t u v : length s = N -> length t = N -> pm u -> pm v ->
    (forall r c, length r = N -> length c = N -> u * F s r c = v * F t r c) -> s = t /\ u = v.
  Proof.
    intros Ls Lt Hu Hv H.
    assert (E : s = t).
    { apply supp_inj; [congruence|]. intros r c Lr Lc. rewrite Ls in Lr, Lc. specialize (H r c Lr Lc).
      pose proof (supp_mat s r c ltac:(congruence) ltac:(congruence)) as A. pose proof (supp_mat t r c ltac:(congruence) ltac:(congruence)) as B.
      destruct (supp s r c), (supp t r c); try reflexivity; exfalso.
      - rewrite B in H. assert (Z : u * F s r c = 0) by (rewrite H; ring). revert Z. apply pm_ne. now apply pm_mul.
      - rewrite A in H. assert (Z : v * F t r c = 0) by (rewrite <- H; ring). revert Z. apply pm_ne. now apply pm_mul. }
    split; [exact E|]. subst t. destruct (supp_some s) as [r [c [Lr [Lc S]]]]. pose proof (supp_mat s r c Lr Lc) as A. rewrite S in A.
    rewrite Ls in Lr, Lc. specialize (H r c Lr Lc). transitivity (u * F s r c * F s r c); [rewrite <- (pm_sq _ A) at 1 || idtac|].
    - replace (u * F s r c * F s r c) with (u * (F s r c * F s r c)) by ring. rewrite (pm_sq _ A). ring.
    - rewrite H. replace (v * F s r c * F s r c) with (v * (F s r c * F s r c)) by ring. rewrite (pm_sq _ A). ring.
  Qed.
  (** The adjoint of a string is the string of the adjoint letters up to a sign. *)
  Lemma adjs_mat N s : length s = N -> exists t, pm t /\ forall r c, length r = N -> length c = N -> F (adjs s) r c = t * cconj (F s c r).
  Proof.
    intro L. assert (G : exists t, pm t /\ forall r c, length r = length s -> length c = length s -> F (adjs s) r c = t * cconj (F s c r)); [|now rewrite L in G].
    clear L N. induction s as [|x s [t [P IH]]].
    - exists 1. split; [left; reflexivity|]. intros [|? ?] [|? ?] Lr Lc; try discriminate. cbn. rewrite cconj_1. ring.
    - assert (O : odd_ladders (adjs s) = odd_ladders s). { clear. induction s as [|[o|] s IH]; [reflexivity| |exact IH]. cbn [adjs map option_map odd_ladders]. fold (adjs s). now rewrite ladder_fadj, IH. }
      exists (match x with Some o => if ladder o && odd_ladders s then - t else t | None => t end). split.
      + destruct x as [o|]; [|exact P]. destruct (ladder o && odd_ladders s); [|exact P]. destruct P as [-> | ->]; [right|left]; ring.
      + intros [|a r] [|b c] Lr Lc; try discriminate. cbn [length] in *. injection Lr as Lr. injection Lc as Lc. cbn [adjs map]. fold (adjs s).
        destruct x as [o|]; cbn [option_map].
        * rewrite !fstr_mat_some, O, (IH r c Lr Lc), !cconj_mul, (pm_conj _ (pm_sgn _)).
          destruct o, a, b, (odd_ladders s); cbn; rewrite ?cconj_0, ?cconj_1; ring.
        * rewrite !fstr_mat_none, O, (IH r c Lr Lc), cconj_mul. destruct a, b, (odd_ladders s); cbn; rewrite ?cconj_0, ?cconj_opp, ?cconj_1; ring.
  Qed.

  (** ** The string of a two-body word. *)
  Definition is_key (N i k j l : nat) (s : fstr) (u : K) : Prop :=
    length s = N /\ pm u /\ forall r c, length r = N -> length c = N -> excitation i k j l r c = u * F s r c.
  Lemma key_unique N i k j l s u s' u' : is_key N i k j l s u -> is_key N i k j l s' u' -> s = s' /\ u = u'.
  Proof. intros [L [P H]] [L' [P' H']]. apply (mat_inj N); auto. intros r c Lr Lc. now rewrite <- H, <- H'. Qed.
  Lemma exc_adj N i k j l r c : length r = N -> length c = N -> excitation j l i k r c = cconj (@excitation K i k j l c r).
  Proof.
    intros Lr Lc. unfold excitation. assert (A := fock_mat_adj K [(Cre, i); (Cre, k); (Ann, l); (Ann, j)] N r c Lr Lc).
    cbn [map rev app cadj fst snd fadj] in A. exact A.
  Qed.
  Lemma key_adj N i k j l s u t : is_key N i k j l s u -> pm t -> (forall r c, length r = N -> length c = N -> F (adjs s) r c = t * cconj (F s c r)) ->
    is_key N j l i k (adjs s) (t * u).
  Proof.
    intros [L [P H]] T A. split; [now rewrite adjs_length|]. split; [now apply pm_mul|]. intros r c Lr Lc.
    rewrite (exc_adj N i k j l r c Lr Lc), (H c r Lc Lr), cconj_mul, (pm_conj u P), (A r c Lr Lc).
    replace (t * u * (t * cconj (F s c r))) with ((t * t) * (u * cconj (F s c r))) by ring. rewrite (pm_sq t T). ring.
  Qed.
  (** Words with different creators and different annihilators are not 0. *)
  Definition det2 (N p q : nat) : bits := map (fun x => Nat.eqb x p || Nat.eqb x q) (seq 0 N).
  Lemma det2_length N p q : length (det2 N p q) = N.
  Proof. unfold det2. now rewrite map_length, seq_length. Qed.
  Lemma det2_nth N p q x : (x < N)%nat -> nth_error (det2 N p q) x = Some (Nat.eqb x p || Nat.eqb x q).
  Proof. intro H. unfold det2. rewrite (map_nth_error _ x (seq 0 N) (d := x)); [reflexivity|]. rewrite (nth_error_nth' _ 0%nat) by (rewrite seq_length; exact H). f_equal. now apply seq_nth. Qed.
  Lemma nth_error_upd j b : forall (l : bits) x, (x < length l)%nat -> nth_error (upd j b l) x = if Nat.eqb j x then Some b else nth_error l x.
  Proof. induction j as [|j IH]; intros [|a l] [|x] H; cbn in *; try reflexivity; try lia. apply IH. lia. Qed.
  Lemma upd_len j b (l : bits) : length (upd j b l) = length l.
  Proof. revert l. induction j as [|j IH]; intros [|a l]; cbn; auto. Qed.
  Lemma bits_ext (x y : bits) : length x = length y -> (forall n, (n < length x)%nat -> nth_error x n = nth_error y n) -> x = y.
  Proof.
    revert y. induction x as [|a x IH]; intros [|b y] L H; try discriminate; [reflexivity|]. cbn [length] in *. f_equal.
    - specialize (H 0%nat ltac:(lia)). cbn in H. congruence.
    - apply IH; [lia|]. intros n Hn. apply (H (S n)). lia.
  Qed.
  Lemma fock1_cre p n : nth_error n p = Some false -> exists s, fock1 Cre p n = Some (s, upd p true n).
  Proof. intro H. unfold fock1. rewrite H. cbn. eexists. reflexivity. Qed.
  Lemma fock1_ann p n : nth_error n p = Some true -> exists s, fock1 Ann p n = Some (s, upd p false n).
  Proof. intro H. unfold fock1. rewrite H. cbn. eexists. reflexivity. Qed.
  Ltac natcase := repeat match goal with |- context [Nat.eqb ?a ?b] => destruct (Nat.eqb_spec a b); try subst end; cbn [orb]; try reflexivity; try congruence; try lia.
  Lemma exc_det2 N i k j l : (i < N)%nat -> (k < N)%nat -> (j < N)%nat -> (l < N)%nat -> i <> k -> j <> l ->
    pm (@excitation K i k j l (det2 N i k) (det2 N j l)).
  Proof.
    intros Hi Hk Hj Hl Hik Hjl. unfold excitation, fock_mat, pmap_mat.
    assert (G : exists s, fock [(Cre, i); (Cre, k); (Ann, l); (Ann, j)] (det2 N j l) = Some (s, det2 N i k)).
    { rewrite !fock_cons. cbn [fock bindo].
      assert (L0 := det2_length N j l).
      destruct (fock1_ann j (det2 N j l)) as [s1 E1]; [rewrite det2_nth by assumption; natcase|]. rewrite E1. cbn [bindo].
      set (n1 := upd j false (det2 N j l)). assert (L1 : length n1 = N) by (unfold n1; now rewrite upd_len).
      destruct (fock1_ann l n1) as [s2 E2]; [unfold n1; rewrite nth_error_upd, det2_nth by (rewrite ?L0; assumption); natcase|]. rewrite E2. cbn [bindo].
      set (n2 := upd l false n1). assert (L2 : length n2 = N) by (unfold n2; now rewrite upd_len).
      assert (Z : forall x, (x < N)%nat -> nth_error n2 x = Some false).
      { intros x Hx. unfold n2. rewrite nth_error_upd by (rewrite L1; exact Hx). unfold n1. rewrite nth_error_upd, det2_nth by (rewrite ?L0; exact Hx). natcase. }
      destruct (fock1_cre k n2) as [s3 E3]; [now apply Z|]. rewrite E3. cbn [bindo].
      set (n3 := upd k true n2). assert (L3 : length n3 = N) by (unfold n3; now rewrite upd_len).
      destruct (fock1_cre i n3) as [s4 E4]; [unfold n3; rewrite nth_error_upd, Z by (rewrite ?L2; assumption); natcase|]. rewrite E4.
      eexists. f_equal. f_equal. apply bits_ext; [rewrite upd_len, det2_length; exact L3|]. intros x Hx. rewrite upd_len, L3 in Hx.
      rewrite nth_error_upd by (rewrite L3; exact Hx). unfold n3. rewrite nth_error_upd, Z, det2_nth by (rewrite ?L2; exact Hx). natcase. }
    destruct G as [s ->]. rewrite (proj2 (bits_eqb_eq _ _) eq_refl) || rewrite (proj2 (bits_eqb_spec _ _) eq_refl). apply pm_sgn.
  Qed.
  Lemma exc_ann_occ i k j l r c : @excitation K i k j l r c <> 0 -> nth_error c j = Some true /\ nth_error c l = Some true /\ j <> l.
  Proof.
    unfold excitation, fock_mat, pmap_mat. rewrite !fock_cons. cbn [fock bindo].
    destruct (fock1 Ann j c) as [[s1 n1]|] eqn:E1; [|cbn; intro H; now contradiction H]. cbn [bindo].
    destruct (fock1 Ann l n1) as [[s2 n2]|] eqn:E2; [|cbn; intro H; now contradiction H]. intros _.
    unfold fock1 in E1, E2. destruct (nth_error c j) as [[]|] eqn:C1; cbn in E1; try discriminate. injection E1 as _ <-.
    destruct (nth_error (upd j false c) l) as [[]|] eqn:C2; cbn in E2; try discriminate.
    assert (Hl : (l < length c)%nat) by (rewrite <- (upd_len j false c); apply nth_error_Some; congruence).
    rewrite nth_error_upd in C2 by exact Hl. destruct (Nat.eqb_spec j l); [discriminate|]. auto.
  Qed.
  (** Words with the same string have the same creators and the same annihilators. *)
  Lemma key_indices N i k j l i' k' j' l' s u u' : (i < N)%nat -> (k < N)%nat -> (j < N)%nat -> (l < N)%nat -> i <> k -> j <> l ->
    is_key N i k j l s u -> is_key N i' k' j' l' s u' -> ((i' = i /\ k' = k) \/ (i' = k /\ k' = i)) /\ ((j' = j /\ l' = l) \/ (j' = l /\ l' = j)).
  Proof.
    intros Hi Hk Hj Hl Hik Hjl [L [P H]] [L' [P' H']].
    assert (LR := det2_length N i k). assert (LC := det2_length N j l).
    assert (NZ : @excitation K i' k' j' l' (det2 N i k) (det2 N j l) <> 0).
    { rewrite (H' _ _ LR LC). pose proof (exc_det2 N i k j l Hi Hk Hj Hl Hik Hjl) as X. rewrite (H _ _ LR LC) in X.
      apply pm_ne. apply pm_mul; [exact P'|]. replace (fstr_mat s (det2 N i k) (det2 N j l)) with (u * (u * fstr_mat s (det2 N i k) (det2 N j l))); [now apply pm_mul|].
      transitivity ((u * u) * fstr_mat s (det2 N i k) (det2 N j l)); [ring|]. rewrite (pm_sq u P). ring. }
    assert (D : forall p q x, nth_error (det2 N p q) x = Some true -> x = p \/ x = q).
    { intros p q x E. assert (Hx : (x < N)%nat) by (rewrite <- (det2_length N p q); apply nth_error_Some; congruence). rewrite det2_nth in E by exact Hx.
      injection E as E. apply orb_true_iff in E. rewrite !Nat.eqb_eq in E. exact E. }
    destruct (exc_ann_occ i' k' j' l' _ _ NZ) as [A1 [A2 A3]].
    assert (NZ' : @excitation K j' l' i' k' (det2 N j l) (det2 N i k) <> 0).
    { rewrite (exc_adj N i' k' j' l' _ _ LC LR). intro Z. apply NZ. rewrite <- (cconj_inv K (excitation i' k' j' l' (det2 N i k) (det2 N j l))), Z. apply cconj_0. }
    destruct (exc_ann_occ j' l' i' k' _ _ NZ') as [B1 [B2 B3]].
    apply D in A1, A2, B1, B2. split; [destruct B1, B2|destruct A1, A2]; subst; try tauto; contradiction.
  Qed.
  (** Exchanging the creators or the annihilators keeps the string. *)
  Lemma exc_swap_cre i k j l r c : @excitation K k i j l r c = - excitation i k j l r c.
  Proof.
    unfold excitation. pose proof (fock_swap_same Cre k i [(Ann, l); (Ann, j)] (or_introl eq_refl)) as H. rewrite (fock_mat_rel K _ _ _ r c H). cbn [sgn]. ring.
  Qed.
  Lemma exc_swap_ann i k j l r c : @excitation K i k l j r c = - excitation i k j l r c.
  Proof.
    unfold excitation. pose proof (fock_rel_app true [(Cre, i); (Cre, k)] _ _ (fock_swap_same Ann j l [] (or_intror eq_refl))) as H. cbn [app] in H. rewrite (fock_mat_rel K _ _ _ r c H). cbn [sgn]. ring.
  Qed.
  Lemma pm_opp (x : K) : pm x -> pm (- x).
  Proof. intros [-> | ->]; [right|left]; ring. Qed.
  Lemma key_swap_cre N i k j l s u : is_key N i k j l s u -> is_key N k i j l s (- u).
  Proof. intros [L [P H]]. split; [exact L|]. split; [now apply pm_opp|]. intros. rewrite exc_swap_cre, H by assumption. ring. Qed.
  Lemma key_swap_ann N i k j l s u : is_key N i k j l s u -> is_key N i k l j s (- u).
  Proof. intros [L [P H]]. split; [exact L|]. split; [now apply pm_opp|]. intros. rewrite exc_swap_ann, H by assumption. ring. Qed.
  (** The string the constructor builds. *)
  Lemma key_new N i k j l (x : K) : (forall a b : K, a * b = 0 -> a = 0 \/ b = 0) -> (i < N)%nat -> (k < N)%nat -> (j < N)%nat -> (l < N)%nat -> i <> k -> j <> l -> x <> 0 ->
    exists s u, fermi_new true x [(Cre, i); (Cre, k); (Ann, l); (Ann, j)] N = Some (s, u * x) /\ is_key N i k j l s u.
  Proof.
    intros dom Hi Hk Hj Hl Hik Hjl Hx. destruct (fermi_new_spec K x [(Cre, i); (Cre, k); (Ann, l); (Ann, j)] N) as [s [c' [E [L [M D]]]]].
    - intros e [<-|[<-|[<-|[<-|[]]]]]; assumption.
    - assert (X := exc_det2 N i k j l Hi Hk Hj Hl Hik Hjl).
      assert (NZ : c' <> 0). { intro Z. apply Hx. assert (Q := M (det2 N i k) (det2 N j l)). rewrite Z in Q. fold (@excitation K i k j l) in Q.
        transitivity (x * excitation i k j l (det2 N i k) (det2 N j l) * excitation i k j l (det2 N i k) (det2 N j l)).
        - rewrite <- (cmul_1_r K x) at 1 || idtac. replace (x * excitation i k j l (det2 N i k) (det2 N j l) * excitation i k j l (det2 N i k) (det2 N j l)) with (x * (excitation i k j l (det2 N i k) (det2 N j l) * excitation i k j l (det2 N i k) (det2 N j l))) by ring. rewrite (pm_sq _ X). ring.
        - rewrite <- Q. ring. }
      assert (U : exists u, pm u /\ c' = u * x). { destruct D as [-> |[-> | ->]]; [exists 1|exists (- (1))|contradiction]; (split; [|ring]); [left|right]; reflexivity. }
      destruct U as [u [P ->]]. exists s, u. split; [exact E|]. split; [exact L|]. split; [exact P|]. intros r c Lr Lc.
      assert (Q := M r c). fold (@excitation K i k j l) in Q.
      assert (Z : x * (excitation i k j l r c - u * F s r c) = 0) by (transitivity (x * excitation i k j l r c - u * x * F s r c); [ring|rewrite Q; ring]).
      destruct (dom _ _ Z) as [Z'|Z']; [contradiction|]. transitivity ((excitation i k j l r c - u * F s r c) + u * F s r c); [ring|rewrite Z'; ring].
  Qed.
End KeyProofs.
