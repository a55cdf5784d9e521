From Coq Require Import Bool List Arith Lia Setoid Morphisms.
From Verif Require Import Coeff MatSpec MatLemmas FockSpec OpSpec PauliModel PauliProofs OperatorModel OperatorProofs FermiModel FermiProofs AdjProofs
  TransformModel TwoTerm JWProofs TransformLin CircuitSpec RdmSpec RdmFock InvModel InvSpec TaperSpec TaperProofs TaperProofs2 InvProofs HamModel HamSpec.
Import ListNotations.

(** Active orbital number i. *)
Definition orb (No_as No_core No_tot i : nat) : nat := if i <? No_as then i + No_core else i - No_as + No_core + No_tot.
Lemma orbs_eq No_as No_core No_tot : alpha_active No_as No_core ++ beta_active No_as No_core No_tot = map (orb No_as No_core No_tot) (seq 0 (2 * No_as)).
Proof.
  replace (2 * No_as) with (No_as + No_as) by lia. rewrite seq_app, map_app. f_equal.
  - apply map_ext_in. intros i Hi. apply in_seq in Hi. unfold orb. destruct (Nat.ltb_spec i No_as); lia.
  - unfold beta_active. assert (G : seq (0 + No_as) No_as = map (fun i => i + No_as) (seq 0 No_as)).
    { assert (Q : forall k n a, seq (a + k) n = map (fun i => i + k) (seq a n)).
      { intros k n. induction n as [|n IH]; intro a; [reflexivity|]. cbn [seq map]. f_equal. apply (IH (S a)). }
      apply Q. }
    rewrite G, map_map. apply map_ext. intro i. unfold orb. destruct (Nat.ltb_spec (i + No_as) No_as); lia.
Qed.
Lemma dget_o2q No_as No_core No_tot i : No_as <= No_tot -> i < 2 * No_as -> dget (orb No_as No_core No_tot i) (o2q No_as No_core No_tot) = Some i.
Proof.
  intros HT Hi. unfold o2q, orb.
  set (step := fun (d : list (nat * nat)) (k : nat) => (k + No_core + No_tot, k + No_as) :: (k + No_core, k) :: d).
  assert (G : forall n, n <= No_as -> (forall j, j < n -> dget (j + No_core) (fold_left step (seq 0 n) []) = Some j) /\
                                      (forall j, j < n -> dget (j + No_core + No_tot) (fold_left step (seq 0 n) []) = Some (j + No_as))).
  { induction n as [|n IH]; intro Hn; [split; intros j Hj; lia|]. destruct (IH ltac:(lia)) as [I1 I2].
    rewrite seq_S, fold_left_app. cbn [fold_left]. set (d := fold_left step (seq 0 n) []) in *. unfold step. cbn [dget Nat.add]. split; intros j Hj.
    - destruct (Nat.eqb_spec (j + No_core) (n + No_core + No_tot)); [lia|]. destruct (Nat.eqb_spec (j + No_core) (n + No_core)); [f_equal; lia|]. apply I1. lia.
    - destruct (Nat.eqb_spec (j + No_core + No_tot) (n + No_core + No_tot)); [f_equal; lia|]. destruct (Nat.eqb_spec (j + No_core + No_tot) (n + No_core)); [lia|]. apply I2. lia. }
  destruct (G No_as (le_n _)) as [G1 G2]. destruct (Nat.ltb_spec i No_as); [now apply G1|].
  rewrite G2 by lia. f_equal. lia.
Qed.
Lemma orb_inj No_as No_core No_tot i j : No_as <= No_tot -> i < 2 * No_as -> j < 2 * No_as -> orb No_as No_core No_tot i = orb No_as No_core No_tot j -> i = j.
Proof. intros HT Hi Hj H. assert (A := dget_o2q _ No_core _ i HT Hi). rewrite H, dget_o2q in A by assumption. congruence. Qed.
Lemma orb_lt No_as No_core No_tot d i : i < 2 * No_as -> No_core + No_as + No_tot <= d -> orb No_as No_core No_tot i < d.
Proof. intros. unfold orb. destruct (Nat.ltb_spec i No_as); lia. Qed.
Lemma all_some_total : forall A B (f : A -> option B) (g : A -> B) l, (forall x, In x l -> f x = Some (g x)) -> all_some (map f l) = Some (map g l).
Proof.
  induction l as [|x l IH]; intro H; [reflexivity|]. cbn. rewrite (H x (or_introl eq_refl)), IH; [reflexivity|]. intros y Hy. apply H. now right.
Qed.
Lemma list_prod_map : forall A B A' B' (f : A -> A') (g : B -> B') l m, list_prod (map f l) (map g m) = map (fun xy => (f (fst xy), g (snd xy))) (list_prod l m).
Proof.
  induction l as [|x l IH]; intro m; [reflexivity|]. cbn. rewrite IH, map_app, !map_map. reflexivity.
Qed.

Section HamProofs.
  Variable K : CoefRing.
  Add Ring KRing : (c_ring K).
  Local Open Scope coef_scope.
  Notation fo := (list (fstr * K)).
  Notation word := (list (fop * nat)).

  (** ** Sums *)
  Lemma over_ext {A} (l : list A) (f g : A -> K) : (forall x, In x l -> f x = g x) -> over l f = over l g.
  Proof. apply (lsum_ext K l f g). Qed.
  Lemma over_scal {A} (l : list A) x (f : A -> K) : over l (fun i => x * f i) = x * over l f.
  Proof. apply (lsum_scal K l x f). Qed.
  Lemma over_add {A} (l : list A) (f g : A -> K) : over l (fun i => f i + g i) = over l f + over l g.
  Proof. apply (lsum_add K l f g). Qed.
  Lemma over_app {A} (l l' : list A) (f : A -> K) : over (l ++ l') f = over l f + over l' f.
  Proof. apply (lsum_app K l l' f). Qed.
  Lemma over_0 {A} (l : list A) : over l (fun _ => (0 : K)) = 0.
  Proof. apply (lsum_0 K l). Qed.
  Lemma over_map {A B} (g : A -> B) (l : list A) (f : B -> K) : over (map g l) f = over l (fun x => f (g x)).
  Proof. induction l as [|x l IH]; cbn; [reflexivity|]. f_equal. exact IH. Qed.
  Lemma over_concat {A} (l : list (list A)) (f : A -> K) : over (concat l) f = over l (fun x => over x f).
  Proof. induction l as [|x l IH]; [reflexivity|]. cbn [concat]. rewrite over_app, IH. reflexivity. Qed.
  Lemma over_flat_map {A B} (g : A -> list B) (l : list A) (f : B -> K) : over (flat_map g l) f = over l (fun x => over (g x) f).
  Proof. induction l as [|x l IH]; [reflexivity|]. cbn [flat_map]. rewrite over_app, IH. reflexivity. Qed.
  Lemma over_prod {A B} (l : list A) (m : list B) (f : A * B -> K) : over (list_prod l m) f = over l (fun x => over m (fun y => f (x, y))).
  Proof. induction l as [|x l IH]; [reflexivity|]. cbn [list_prod]. rewrite over_app, IH, over_map. reflexivity. Qed.
  Lemma over_swap {A B} (l : list A) (m : list B) (f : A -> B -> K) : over l (fun x => over m (fun y => f x y)) = over m (fun y => over l (fun x => f x y)).
  Proof. induction l as [|x l IH]; cbn; [symmetry; apply over_0|]. fold (over l (fun x => over m (fun y => f x y))). rewrite IH, <- over_add. reflexivity. Qed.

  (** ** Sums of strings *)
  Lemma fwf_add N (o : fo) e : fwf K N o -> length (fst e) = N -> fwf K N (op_add_string fstr_eqb o e).
  Proof.
    intros Ho He x Hx. assert (G : In (fst x) (map fst (op_add_string fstr_eqb o e))) by now apply in_map.
    apply (In_fst_add_string K _ _ fstr_eqb_spec') in G. destruct G as [-> |G]; [exact He|]. apply in_map_iff in G. destruct G as [y [E G]]. rewrite <- E. now apply Ho.
  Qed.
  Lemma add_strings_spec N : forall (l : list (K * word)) (o : fo), fwf K N o -> (forall e, In e l -> forall x, In x (snd e) -> (snd x < N)%nat) ->
    exists R, add_strings N l o = Some R /\ fwf K N R /\ forall r c, fmat R r c = fmat o r c + over l (fun e => fst e * fock_mat (snd e) r c).
  Proof.
    induction l as [|[x w] l IH]; intros o Ho Hl; [exists o; split; [reflexivity|split; [exact Ho|intros; cbn; ring]]|].
    cbn [add_strings]. destruct (fermi_new_spec K x w N (Hl (x, w) (or_introl eq_refl))) as [s [c' [E [L [M _]]]]]. rewrite E.
    destruct (IH (op_add_string fstr_eqb o (s, c'))) as [R [E1 [W M1]]]; [apply fwf_add; assumption|intros e He; apply Hl; now right|].
    exists R. split; [exact E1|]. split; [exact W|]. intros r c. rewrite M1, !fmat_lin, (lin_add_string K _ _ fstr_eqb_spec'). cbn [fst snd over fold_right].
    rewrite M. unfold over. ring.
  Qed.

  (** ** Words as products *)
  Lemma word2 N x y : meq N (mmul N (@fock_mat K [x]) (fock_mat [y])) (fock_mat [x; y]).
  Proof. apply fock_mat_pair. Qed.
  Lemma word4 N x y z t : meq N (mmul N (@fock_mat K [x]) (mmul N (fock_mat [y]) (mmul N (fock_mat [z]) (fock_mat [t])))) (fock_mat [x; y; z; t]).
  Proof.
    apply meq_req. assert (A := fock_mat_app K N [x] [y; z; t]). assert (B := fock_mat_app K N [y] [z; t]). assert (C := fock_mat_app K N [z] [t]).
    apply meq_req in A, B, C. cbn [app] in A, B, C. rewrite A, B, C. reflexivity.
  Qed.
  Lemma fock_same_zero o p l r c : (o = Cre \/ o = Ann) -> @fock_mat K ((o, p) :: (o, p) :: l) r c = 0.
  Proof.
    intro Ho. apply fock_mat_zero. intro n. rewrite !fock_cons. destruct (fock l n) as [[s m]|]; [|reflexivity]. cbn [bindo].
    assert (E := fock1_same o o p m). destruct (fock1 o p m) as [[s1 m1]|]; [|reflexivity]. cbn [bindo] in *.
    destruct (fock1 o p m1) as [[s2 m2]|]; [|reflexivity]. destruct Ho as [-> | ->]; discriminate E.
  Qed.

  (** ** C39 *)
  Variable tiny : K -> bool.
  Definition cut (x : K) : K := if tiny x then 0 else x.
  Lemma fermi_operator_spec (d No_as No_core No_tot : nat) h V : (No_as <= No_tot)%nat -> (No_core + No_as + No_tot <= d)%nat ->
    exists F, fermi_operator tiny d No_as No_core No_tot h V = Some F /\ fwf K (2 * No_as) F /\
      meq (2 * No_as) (fmat F)
        (ham (2 * No_as) (fun p q => cut (h (orb No_as No_core No_tot p) (orb No_as No_core No_tot q)))
           (fun p r q s => cut (V (orb No_as No_core No_tot p) (orb No_as No_core No_tot r) (orb No_as No_core No_tot q) (orb No_as No_core No_tot s)))).
  Proof.
    intros HT Hd. unfold fermi_operator. rewrite orbs_eq. set (R := (2 * No_as)%nat). set (ob := orb No_as No_core No_tot).
    assert (OI : forall i j, In i (seq 0 R) -> In j (seq 0 R) -> ob i = ob j -> i = j).
    { intros i j Hi Hj. apply in_seq in Hi, Hj. apply orb_inj; unfold R in *; lia. }
    assert (OG : forall i, In i (seq 0 R) -> dget (ob i) (o2q No_as No_core No_tot) = Some i).
    { intros i Hi. apply in_seq in Hi. apply dget_o2q; unfold R in *; lia. }
    assert (OL : forall i, In i (seq 0 R) -> (ob i <? d)%nat = true).
    { intros i Hi. apply in_seq in Hi. apply Nat.ltb_lt. apply orb_lt; unfold R in *; lia. }
    set (g1 := fun pq : nat * nat => if tiny (h (ob (fst pq)) (ob (snd pq))) then [] else [(h (ob (fst pq)) (ob (snd pq)), [(Cre, fst pq); (Ann, snd pq)])]).
    rewrite list_prod_map, map_map.
    rewrite (all_some_total _ _ _ g1).
    2:{ intros [p q] Hx. apply in_prod_iff in Hx. destruct Hx as [Hp Hq]. cbn [fst snd term1]. rewrite (OG p Hp), (OG q Hq), (OL p Hp), (OL q Hq). reflexivity. }
    rewrite list_prod_map, list_prod_map, map_map.
    set (g2 := fun x : nat * (nat * (nat * nat)) => let '(p, (r, (s, q))) := x in
      if Nat.eqb p r then [] else if Nat.eqb q s then [] else
      if tiny (V (ob p) (ob r) (ob q) (ob s)) then [] else [(chalf * V (ob p) (ob r) (ob q) (ob s), [(Cre, p); (Cre, r); (Ann, s); (Ann, q)])]).
    rewrite (all_some_total _ _ _ g2).
    2:{ intros [p [r [s q]]] Hx. rewrite !in_prod_iff in Hx. destruct Hx as [Hp [Hr [Hs Hq]]]. cbn [fst snd term2 g2].
        assert (EQ : forall i j, In i (seq 0 R) -> In j (seq 0 R) -> Nat.eqb (ob i) (ob j) = Nat.eqb i j).
        { intros i j Hi Hj. destruct (Nat.eqb_spec i j) as [-> |N]; [apply Nat.eqb_refl|]. apply Nat.eqb_neq. intro G. apply N. now apply OI. }
        rewrite (OG p Hp), (OG r Hr), (OG s Hs), (OG q Hq), (OL p Hp), (OL q Hq), (OL r Hr), (OL s Hs), !EQ by assumption.
        destruct (Nat.eqb_spec p r) as [-> |Npr]; [reflexivity|]. 
        replace (Nat.eqb (b2n false + b2n (s =? p)%nat + b2n (s =? r)%nat) 3) with false
          by (destruct (s =? p)%nat, (s =? r)%nat; reflexivity).
        destruct (Nat.eqb_spec q s) as [-> |Nqs].
        - destruct (Nat.leb 3 _); reflexivity.
        - replace (Nat.leb 3 (b2n false + b2n (s =? p)%nat + b2n (s =? r)%nat + b2n (q =? p)%nat + b2n (q =? r)%nat + b2n false)) with false; [reflexivity|].
          destruct (Nat.eqb_spec s p), (Nat.eqb_spec s r), (Nat.eqb_spec q p), (Nat.eqb_spec q r); subst; try reflexivity; congruence. }
    rewrite map_length, seq_length.
    destruct (add_strings_spec R (concat (map g1 (list_prod (seq 0 R) (seq 0 R))) ++ concat (map g2 (list_prod (seq 0 R) (list_prod (seq 0 R) (list_prod (seq 0 R) (seq 0 R)))))) []) as [F [E [W M]]].
    - intros e [].
    - intros e He x Hx. apply in_app_or in He. destruct He as [He|He]; apply in_concat in He; destruct He as [l [Hl He]]; apply in_map_iff in Hl; destruct Hl as [y [<- Hy]].
      + destruct y as [p q]. apply in_prod_iff in Hy. destruct Hy as [Hp Hq]. apply in_seq in Hp, Hq. unfold g1 in He. cbn [fst snd] in He.
        destruct (tiny _); [destruct He|]. destruct He as [<-|[]]. destruct Hx as [<-|[<-|[]]]; cbn; lia.
      + destruct y as [p [r [s q]]]. rewrite !in_prod_iff in Hy. destruct Hy as [Hp [Hr [Hs Hq]]]. apply in_seq in Hp, Hq, Hr, Hs. unfold g2 in He.
        destruct (Nat.eqb p r); [destruct He|]. destruct (Nat.eqb q s); [destruct He|]. destruct (tiny _); [destruct He|]. destruct He as [<-|[]].
        destruct Hx as [<-|[<-|[<-|[<-|[]]]]]; cbn; lia.
    - exists F. split; [exact E|]. split; [exact W|]. intros x y Hx Hy. rewrite M. cbn [fmat]. unfold mzero, ham.
      rewrite over_app, !over_concat, !over_map, !over_prod. unfold upto.
      transitivity (over (seq 0 R) (fun p => over (seq 0 R) (fun q => cut (h (ob p) (ob q)) * mmul R (cre p) (ann q) x y)) +
        over (seq 0 R) (fun p => over (seq 0 R) (fun r => over (seq 0 R) (fun q => over (seq 0 R) (fun s => chalf * (cut (V (ob p) (ob r) (ob q) (ob s)) * mmul R (cre p) (mmul R (cre r) (mmul R (ann s) (ann q))) x y)))))).
      2:{ f_equal. rewrite <- over_scal. apply over_ext. intros p _. rewrite <- over_scal. apply over_ext. intros r _. rewrite <- over_scal. apply over_ext. intros q _. rewrite <- over_scal. reflexivity. }
      assert (G1 : forall p q, over (g1 (p, q)) (fun e => fst e * fock_mat (snd e) x y) = cut (h (ob p) (ob q)) * mmul R (cre p) (ann q) x y).
      { intros p q. unfold g1, cut. cbn [fst snd]. unfold cre, ann. rewrite (word2 R _ _ x y Hx Hy). destruct (tiny _); cbn; ring. }
      assert (G2 : forall p r s q, over (g2 (p, (r, (s, q)))) (fun e => fst e * fock_mat (snd e) x y) = chalf * (cut (V (ob p) (ob r) (ob q) (ob s)) * mmul R (cre p) (mmul R (cre r) (mmul R (ann s) (ann q))) x y)).
      { intros p r s q. unfold g2, cut, cre, ann. rewrite (word4 R _ _ _ _ x y Hx Hy).
        destruct (Nat.eqb_spec p r) as [-> |Npr]; [rewrite fock_same_zero by auto; cbn; ring|].
        destruct (Nat.eqb_spec q s) as [-> |Nqs].
        - rewrite (fock_mat_rel K false [(Cre, p); (Cre, r); (Ann, s); (Ann, s)] [(Cre, p); (Cre, r); (Ann, s); (Ann, s)]) by apply fock_rel_refl.
          assert (Z : @fock_mat K [(Cre, p); (Cre, r); (Ann, s); (Ann, s)] x y = 0).
          { rewrite <- (word4 R _ _ _ _ x y Hx Hy). 
            assert (Z2 : req R R (mmul R (@fock_mat K [(Ann, s)]) (fock_mat [(Ann, s)])) mzero).
            { intros a b Ha Hb. rewrite (word2 R _ _ a b Ha Hb). apply fock_same_zero. auto. }
            assert (ZM : forall A : mat K, req R R (mmul R A mzero) mzero).
            { intros A a b _ _. unfold mmul, mzero. rewrite (sumbits_ext _ _ _ (fun _ => 0 * 0)); [rewrite sumbits_scal; ring|]. intros. ring. }
            assert (T : req R R (mmul R (@fock_mat K [(Cre, p)]) (mmul R (fock_mat [(Cre, r)]) (mmul R (fock_mat [(Ann, s)]) (fock_mat [(Ann, s)])))) mzero).
            { rewrite Z2, ZM, ZM. reflexivity. }
            exact (T x y Hx Hy). }
          rewrite Z. cbn. ring.
        - destruct (tiny _); cbn; ring. }
      rewrite (over_ext (seq 0 R) (fun p => over (seq 0 R) (fun q => over (g1 (p, q)) (fun e => fst e * fock_mat (snd e) x y))) (fun p => over (seq 0 R) (fun q => cut (h (ob p) (ob q)) * mmul R (cre p) (ann q) x y)))
        by (intros p _; apply over_ext; intros q _; apply G1).
      assert (S2 : over (seq 0 R) (fun p => over (list_prod (seq 0 R) (list_prod (seq 0 R) (seq 0 R))) (fun z => over (g2 (p, z)) (fun e => fst e * fock_mat (snd e) x y))) =
        over (seq 0 R) (fun p => over (seq 0 R) (fun r => over (seq 0 R) (fun q => over (seq 0 R) (fun s => chalf * (cut (V (ob p) (ob r) (ob q) (ob s)) * mmul R (cre p) (mmul R (cre r) (mmul R (ann s) (ann q))) x y)))))).
      { apply over_ext. intros p _. rewrite over_prod. apply over_ext. intros r _. rewrite over_prod, over_swap. apply over_ext. intros q _. apply over_ext. intros s _. apply G2. }
      rewrite S2. ring.
  Qed.

  (** ** Number and spin *)
  Lemma word_par i r c : @fock_mat K [(Cre, i); (Ann, i)] r c = if bits_eqb c r then (if nth i c false then 1 else 0) else 0.
  Proof.
    unfold fock_mat, pmap_mat. rewrite fock_pair_par. cbn [fock bindo]. rewrite fock1_par. destruct (nth i c false); cbn [flipo]; destruct (bits_eqb c r); reflexivity.
  Qed.
  Lemma over_par l (x : K) r c : over l (fun i => x * @fock_mat K [(Cre, i); (Ann, i)] r c) = diag (fun y => x * of_nat (occupied l y)) r c.
  Proof.
    unfold diag. assert (S : bits_eqb r c = bits_eqb c r) by (destruct (bits_eqb r c) eqn:E; [apply bits_eqb_spec in E; subst; symmetry; now apply bits_eqb_spec|destruct (bits_eqb c r) eqn:E'; [apply bits_eqb_spec in E'; subst; rewrite (proj2 (bits_eqb_spec r r) eq_refl) in E; discriminate|reflexivity]]).
    rewrite S. induction l as [|i l IH]; cbn [over fold_right]; [destruct (bits_eqb c r); cbn; ring|].
    fold (over l (fun i => x * @fock_mat K [(Cre, i); (Ann, i)] r c)). rewrite IH, word_par. unfold occupied. cbn [filter].
    destruct (bits_eqb c r); [|ring]. destruct (nth i c false); cbn [length of_nat]; ring.
  Qed.
  Lemma number_spec orbitals N : (forall l, orbitals = Some l -> forall i, In i l -> (i < N)%nat) ->
    exists R, number orbitals N = Some R /\ fwf K N R /\
      meq N (fmat R) (diag (fun x => of_nat (occupied (match orbitals with None => seq 0 N | Some l => l end) x))).
  Proof.
    intro H. unfold number. set (l := match orbitals with None => seq 0 N | Some l => l end).
    assert (Hl : forall i, In i l -> (i < N)%nat).
    { unfold l. destruct orbitals as [l0|]; [now apply H|]. intros i Hi. apply in_seq in Hi. lia. }
    destruct (add_strings_spec N (map (fun i => (1, [(Cre, i); (Ann, i)])) l) []) as [R [E [W M]]].
    - intros e [].
    - intros e He x Hx. apply in_map_iff in He. destruct He as [i [<- Hi]]. specialize (Hl i Hi). destruct Hx as [<-|[<-|[]]]; exact Hl.
    - exists R. split; [exact E|]. split; [exact W|]. intros r c _ _. rewrite M, over_map. cbn [fst snd fmat]. rewrite over_par. unfold mzero, diag. destruct (bits_eqb r c); ring.
  Qed.
  Lemma spin_projected_spec alpha beta N : (forall i, In i (alpha ++ beta) -> (i < N)%nat) ->
    exists R, spin_projected alpha beta N = Some R /\ fwf K N R /\
      meq N (fmat R) (diag (fun x => chalf * (of_nat (occupied alpha x) - of_nat (occupied beta x)))).
  Proof.
    intro H. unfold spin_projected.
    destruct (add_strings_spec N (map (fun a => (chalf, [(Cre, a); (Ann, a)])) alpha ++ map (fun b => (- chalf, [(Cre, b); (Ann, b)])) beta) []) as [R [E [W M]]].
    - intros e [].
    - intros e He x Hx. apply in_app_or in He. destruct He as [He|He]; apply in_map_iff in He; destruct He as [i [<- Hi]]; (assert (G : (i < N)%nat) by (apply H; apply in_or_app; auto)); destruct Hx as [<-|[<-|[]]]; exact G.
    - exists R. split; [exact E|]. split; [exact W|]. intros r c _ _. rewrite M, over_app, !over_map. cbn [fst snd fmat]. rewrite !over_par. unfold mzero, diag. destruct (bits_eqb r c); ring.
  Qed.
  (** The pairs (alpha[s], beta[s]). *)
  Definition zip (spatial alpha beta : list nat) : list (nat * nat) := map (fun s => (nth s alpha 0%nat, nth s beta 0%nat)) spatial.
  Lemma pairs_of_spec spatial alpha beta : (forall s, In s spatial -> (s < length alpha /\ s < length beta)%nat) -> pairs_of spatial alpha beta = Some (zip spatial alpha beta).
  Proof.
    intro H. unfold pairs_of, zip. apply all_some_total. intros s Hs. destruct (H s Hs) as [Ha Hb].
    rewrite (nth_error_nth' alpha 0%nat Ha), (nth_error_nth' beta 0%nat Hb). reflexivity.
  Qed.
  Definition good_pairs (N : nat) (l : list (nat * nat)) : Prop := forall p, In p l -> (fst p < N /\ snd p < N)%nat.
  Lemma over_pairs_spec (f : nat * nat -> list (K * word)) spatial alpha beta N :
    (forall s, In s spatial -> (s < length alpha /\ s < length beta)%nat) -> good_pairs N (zip spatial alpha beta) ->
    (forall p e x, In e (f p) -> In x (snd e) -> snd x = fst p \/ snd x = snd p) ->
    exists R, over_pairs f spatial alpha beta N = Some R /\ fwf K N R /\
      forall r c, fmat R r c = over (zip spatial alpha beta) (fun p => over (f p) (fun e => fst e * fock_mat (snd e) r c)).
  Proof.
    intros H HG Hf. unfold over_pairs. rewrite pairs_of_spec by exact H.
    destruct (add_strings_spec N (flat_map f (zip spatial alpha beta)) []) as [R [E [W M]]].
    - intros e [].
    - intros e He x Hx. apply in_flat_map in He. destruct He as [p [Hp He]]. destruct (HG p Hp). destruct (Hf p e x He Hx) as [-> | ->]; assumption.
    - exists R. split; [exact E|]. split; [exact W|]. intros r c. rewrite M, over_flat_map. cbn [fmat]. unfold mzero. ring.
  Qed.
  Lemma spin_plus_spec spatial alpha beta N : (forall s, In s spatial -> (s < length alpha /\ s < length beta)%nat) -> good_pairs N (zip spatial alpha beta) ->
    exists R, spin_plus spatial alpha beta N = Some R /\ fwf K N R /\ meq N (fmat R) (S_plus N (zip spatial alpha beta)).
  Proof.
    intros H HG. destruct (over_pairs_spec (fun ab => [(1, [(Cre, fst ab); (Ann, snd ab)])]) spatial alpha beta N H HG) as [R [E [W M]]].
    { intros p e x [<-|[]] [<-|[<-|[]]]; auto. }
    exists R. split; [exact E|]. split; [exact W|]. intros r c Hr Hc. rewrite M. unfold S_plus. apply over_ext. intros p _. cbn [over fold_right fst snd].
    unfold cre, ann. rewrite (word2 N _ _ r c Hr Hc). ring.
  Qed.
  Lemma spin_minus_spec spatial alpha beta N : (forall s, In s spatial -> (s < length alpha /\ s < length beta)%nat) -> good_pairs N (zip spatial alpha beta) ->
    exists R, spin_minus spatial alpha beta N = Some R /\ fwf K N R /\ meq N (fmat R) (S_minus N (zip spatial alpha beta)).
  Proof.
    intros H HG. destruct (over_pairs_spec (fun ab => [(1, [(Cre, snd ab); (Ann, fst ab)])]) spatial alpha beta N H HG) as [R [E [W M]]].
    { intros p e x [<-|[]] [<-|[<-|[]]]; auto. }
    exists R. split; [exact E|]. split; [exact W|]. intros r c Hr Hc. rewrite M. unfold S_minus. apply over_ext. intros p _. cbn [over fold_right fst snd].
    unfold cre, ann. rewrite (word2 N _ _ r c Hr Hc). ring.
  Qed.
  Lemma partial_projected_spin_spec spatial alpha beta N : (forall s, In s spatial -> (s < length alpha /\ s < length beta)%nat) -> good_pairs N (zip spatial alpha beta) ->
    exists R, partial_projected_spin spatial alpha beta N = Some R /\ fwf K N R /\ meq N (fmat R) (S_z (zip spatial alpha beta)).
  Proof.
    intros H HG. destruct (over_pairs_spec (fun ab => [(chalf, [(Cre, fst ab); (Ann, fst ab)]); (- chalf, [(Cre, snd ab); (Ann, snd ab)])]) spatial alpha beta N H HG) as [R [E [W M]]].
    { intros p e x [<-|[<-|[]]] [<-|[<-|[]]]; auto. }
    exists R. split; [exact E|]. split; [exact W|]. intros r c Hr Hc. rewrite M. unfold S_z.
    rewrite (over_ext _ _ (fun p => chalf * @fock_mat K [(Cre, fst p); (Ann, fst p)] r c + - chalf * @fock_mat K [(Cre, snd p); (Ann, snd p)] r c))
      by (intros p _; cbn [over fold_right fst snd]; ring).
    rewrite over_add. rewrite <- (over_map fst _ (fun i => chalf * @fock_mat K [(Cre, i); (Ann, i)] r c)), <- (over_map snd _ (fun i => - chalf * @fock_mat K [(Cre, i); (Ann, i)] r c)).
    rewrite !over_par. unfold diag. destruct (bits_eqb r c); ring.
  Qed.
End HamProofs.
