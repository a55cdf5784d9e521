(** The strings of the fermionic operator and the coefficients they carry. *)
From Coq Require Import Bool List Arith Lia Permutation.
From Verif Require Import Coeff MatSpec MatLemmas FockSpec OpSpec PauliModel OperatorModel OperatorProofs OpTotal FermiModel FermiProofs AdjProofs AcseProofs
  InvModel InvSpec InvProofs CircuitSpec RdmSpec RdmFock TaperProofs TaperProofs2 HamModel HamSpec HamProofs HamProofs2 HamProofs3 ResSpec ResProofs OrderModel OrderProofs KeyProofs ProjModel ProjProofs.
Import ListNotations.

Section Coef.
  Variable K : CoefRing.
  Add Ring KRing : (c_ring K).
  Local Open Scope coef_scope.
  Notation word := (list (fop * nat)).
  Notation dl := (delta K).
  Variables (tiny : K -> bool) (n d : nat) (h : nat -> nat -> K) (V : nat -> nat -> nat -> nat -> K).
  Hypothesis Hd : (n + n <= d)%nat.
  Hypothesis tiny_0 : tiny 0 = true.
  Let R := (2 * n)%nat.
  Definition w1 (p q : nat) : word := [(Cre, p); (Ann, q)].
  Definition w2 (p r s q : nat) : word := [(Cre, p); (Cre, r); (Ann, s); (Ann, q)].
  Definition g1 (pq : nat * nat) : list (K * word) := if tiny (h (fst pq) (snd pq)) then [] else [(h (fst pq) (snd pq), w1 (fst pq) (snd pq))].
  Definition g2 (x : nat * (nat * (nat * nat))) : list (K * word) := let '(p, (r, (s, q))) := x in
    if Nat.eqb p r then [] else if Nat.eqb q s then [] else if tiny (V p r q s) then [] else [(chalf * V p r q s, w2 p r s q)].
  Definition words : list (K * word) :=
    flat_map g1 (list_prod (seq 0 R) (seq 0 R)) ++ flat_map g2 (list_prod (seq 0 R) (list_prod (seq 0 R) (list_prod (seq 0 R) (seq 0 R)))).
  Lemma orb_id i : (i < R)%nat -> orb n 0 n i = i.
  Proof. unfold R, orb. intro H. destruct (Nat.ltb_spec i n); lia. Qed.
  Lemma fermi_words : fermi_operator tiny d n 0 n h V = add_strings R words [].
  Proof.
    unfold fermi_operator, words. rewrite orbs_eq. fold R.
    assert (OI : map (orb n 0 n) (seq 0 R) = seq 0 R). { rewrite <- (map_id (seq 0 R)) at 2. apply map_ext_in. intros i Hi. apply in_seq in Hi. apply orb_id. lia. }
    rewrite OI.
    assert (OG : forall i, In i (seq 0 R) -> dget i (o2q n 0 n) = Some i).
    { intros i Hi. apply in_seq in Hi. rewrite <- (orb_id i) at 1 by lia. apply dget_o2q; unfold R in *; lia. }
    assert (OL : forall i, In i (seq 0 R) -> (i <? d)%nat = true) by (intros i Hi; apply in_seq in Hi; apply Nat.ltb_lt; unfold R in *; lia).
    rewrite (all_some_total _ _ _ g1).
    2:{ intros [p q] Hx. apply in_prod_iff in Hx. destruct Hx as [Hp Hq]. cbn [fst snd term1]. rewrite (OG p Hp), (OG q Hq), (OL p Hp), (OL q Hq). reflexivity. }
    rewrite (all_some_total _ _ _ g2).
    2:{ intros [p [r [s q]]] Hx. rewrite !in_prod_iff in Hx. destruct Hx as [Hp [Hr [Hs Hq]]]. cbn [fst snd term2 g2].
        rewrite (OG p Hp), (OG r Hr), (OG s Hs), (OG q Hq), (OL p Hp), (OL q Hq), (OL r Hr), (OL s Hs) by assumption.
        destruct (Nat.eqb_spec p r) as [-> |Npr]; [reflexivity|].
        replace (Nat.eqb (b2n false + b2n (s =? p)%nat + b2n (s =? r)%nat) 3) with false by (destruct (s =? p)%nat, (s =? r)%nat; reflexivity).
        destruct (Nat.eqb_spec q s) as [-> |Nqs].
        - destruct (Nat.leb 3 _); reflexivity.
        - replace (Nat.leb 3 (b2n false + b2n (s =? p)%nat + b2n (s =? r)%nat + b2n (q =? p)%nat + b2n (q =? r)%nat + b2n false)) with false; [reflexivity|].
          destruct (Nat.eqb_spec s p), (Nat.eqb_spec s r), (Nat.eqb_spec q p), (Nat.eqb_spec q r); subst; try reflexivity; congruence. }
    rewrite seq_length, !flat_map_concat_map. reflexivity.
  Qed.
  (** ** Strings added one after the other *)
  Definition value (f : fstr -> K) (e : K * word) : K := match fermi_new true (fst e) (snd e) R with Some x => snd x * f (fst x) | None => 0 end.
  Lemma add_strings_total : forall (l : list (K * word)) (o F : list (fstr * K)), add_strings R l o = Some F -> NoDup (map fst o) ->
    NoDup (map fst F) /\ (forall f, lin f F = lin f o + over l (value f)) /\
    forall k, In k (map fst F) -> In k (map fst o) \/ exists e x, In e l /\ fermi_new true (fst e) (snd e) R = Some x /\ fst x = k.
  Proof.
    induction l as [|[c w] l IH]; intros o F H ND; cbn [add_strings] in H.
    - injection H as <-. split; [exact ND|]. split; [intro f; cbn; ring|]. intros k Hk. now left.
    - destruct (fermi_new true c w R) as [x|] eqn:E; [|discriminate].
      destruct (IH _ F H (op_add_string_NoDup K _ _ fstr_eqb_spec' o x ND)) as [N' [L I]]. split; [exact N'|]. split.
      + intro f. rewrite L, (lin_add_string K _ _ fstr_eqb_spec'). cbn [over fold_right]. unfold value at 2. cbn [fst snd]. rewrite E. unfold over. ring.
      + intros k Hk. destruct (I k Hk) as [G|[e [y [G1 G2]]]]; [|right; exists e, y; split; [now right|exact G2]].
        apply (In_fst_add_string K _ _ fstr_eqb_spec') in G. destruct G as [-> |G]; [|now left]. right. exists (c, w), x. split; [now left|]. auto.
  Qed.
  (** ** The strings of the words *)
  Lemma half_ne (x : K) : x <> 0 -> chalf * x <> 0.
  Proof. intros Hx E. apply Hx. transitivity ((1 + 1) * (chalf * x)); [|rewrite E; ring]. transitivity ((chalf + chalf) * x); [rewrite chalf_dbl|]; ring. Qed.
  Lemma ne_of (x : K) : tiny x = false -> x <> 0.
  Proof. intros H E. rewrite E, tiny_0 in H. discriminate. Qed.
  Lemma neat1 p q : neat (w1 p q).
  Proof.
    split; [|split; [|split]].
    - apply apart_cons; [apply apart_cons; [constructor|intros y []]|]. intros y _ E. discriminate.
    - intros e [<-|[<-|[]]]; discriminate.
    - cbn. constructor; [intros []|constructor].
    - cbn. constructor; [intros []|constructor].
  Qed.
  Lemma neat2 p r s q : p <> r -> q <> s -> neat (w2 p r s q).
  Proof.
    intros Hp Hq. split; [|split; [|split]].
    - apply apart_cons; [apply apart_cons; [apply apart_cons; [apply apart_cons; [constructor|intros y []]|]|]|].
      + intros y [<-|[]] _ E. discriminate.
      + intros y _ E. discriminate.
      + intros y _ E. discriminate.
    - intros e [<-|[<-|[<-|[<-|[]]]]]; discriminate.
    - cbn. constructor; [intros [E|[]]; congruence|]. constructor; [intros []|constructor].
    - cbn. constructor; [intros [E|[]]; congruence|]. constructor; [intros []|constructor].
  Qed.
  Lemma key1 (x : K) p q : x <> 0 -> (p < R)%nat -> (q < R)%nat -> exists s u, fermi_new true x (w1 p q) R = Some (s, x * u) /\ wkey K R (w1 p q) s u.
  Proof. intros Hx Hp Hq. apply new_key; [discriminate|apply neat1| |exact Hx]. intros e [<-|[<-|[]]]; assumption. Qed.
  Lemma key2 (x : K) p r s q : x <> 0 -> p <> r -> q <> s -> (p < R)%nat -> (r < R)%nat -> (s < R)%nat -> (q < R)%nat -> exists t u, fermi_new true x (w2 p r s q) R = Some (t, x * u) /\ wkey K R (w2 p r s q) t u.
  Proof. intros Hx N1 N2 Hp Hr Hs Hq. apply new_key; [discriminate|now apply neat2| |exact Hx]. intros e [<-|[<-|[<-|[<-|[]]]]]; assumption. Qed.
  Lemma swap_cre i k l j s u : wkey K R (w2 i k l j) s u -> wkey K R (w2 k i l j) s (- u).
  Proof.
    intros [L [P [M [H [C A]]]]]. split; [exact L|]. split; [now apply pm_opp|]. split; [|split; [exact H|split; [|exact A]]].
    - intros r c. change (fock_mat (w2 k i l j) r c) with (@excitation K k i j l r c). rewrite exc_swap_cre. change (@excitation K i k j l r c) with (fock_mat (K := K) (w2 i k l j) r c). rewrite M. ring.
    - eapply perm_trans; [exact C|]. cbn. constructor.
  Qed.
  Lemma swap_ann i k l j s u : wkey K R (w2 i k l j) s u -> wkey K R (w2 i k j l) s (- u).
  Proof.
    intros [L [P [M [H [C A]]]]]. split; [exact L|]. split; [now apply pm_opp|]. split; [|split; [exact H|split; [exact C|]]].
    - intros r c. change (fock_mat (w2 i k j l) r c) with (@excitation K i k l j r c). rewrite exc_swap_ann. change (@excitation K i k j l r c) with (fock_mat (K := K) (w2 i k l j) r c). rewrite M. ring.
    - eapply perm_trans; [exact A|]. cbn. constructor.
  Qed.
  Lemma same_letters w w' s u u' : wkey K R w s u -> wkey K R w' s u' -> Permutation (creI w) (creI w') /\ Permutation (annI w) (annI w').
  Proof. intros [_ [_ [_ [_ [C A]]]]] [_ [_ [_ [_ [C' A']]]]]. split; [apply (perm_trans (Permutation_sym C) C')|apply (perm_trans (Permutation_sym A) A')]. Qed.

  (** ** The coefficient of a string *)
  Variable fdec : forall a b : fstr, {a = b} + {a <> b}.
  Notation ind := (ind K fstr fdec).
  Definition T1 (f : fstr -> K) (p q : nat) : K := over (g1 (p, q)) (value f).
  Definition T2 (f : fstr -> K) (p r s q : nat) : K := over (g2 (p, (r, (s, q)))) (value f).
  Lemma words_sum f : over words (value f) = upto R (fun p => upto R (fun q => T1 f p q)) + upto R (fun p => upto R (fun r => upto R (fun s => upto R (fun q => T2 f p r s q)))).
  Proof.
    unfold words. rewrite over_app, !over_flat_map, !over_prod. f_equal. unfold upto. apply over_ext. intros p _. rewrite over_prod. apply over_ext. intros r _. rewrite over_prod. reflexivity.
  Qed.
  Lemma ind_same s : ind s s = 1.
  Proof. unfold ind. destruct (fdec s s); [reflexivity|contradiction]. Qed.
  Lemma ind_other s t : s <> t -> ind s t = 0.
  Proof. unfold ind. intro H. destruct (fdec s t); [contradiction|reflexivity]. Qed.
  Lemma T1_key1 i j s u p q : (i < R)%nat -> (j < R)%nat -> wkey K R (w1 i j) s u -> (forall a b, tiny (h a b) = true -> h a b = 0) -> (p < R)%nat -> (q < R)%nat ->
    T1 (ind s) p q = dl i p * (dl j q * (h p q * u)).
  Proof.
    intros Hi Hj Q Ht Hp Hq. unfold T1, g1. cbn [fst snd]. destruct (tiny (h p q)) eqn:E; cbn [over fold_right]; [rewrite (Ht _ _ E); ring|].
    destruct (key1 (h p q) p q (ne_of _ E) Hp Hq) as [t [v [F Q']]]. unfold value. cbn [fst snd]. rewrite F. cbn [fst snd]. unfold delta.
    destruct (Nat.eqb_spec i p) as [<-|N1]; [destruct (Nat.eqb_spec j q) as [<-|N2]|].
    - destruct (wkey_unique K R _ _ _ _ _ Q Q') as [<- <-]. rewrite ind_same. ring.
    - rewrite ind_other; [ring|]. intros <-. destruct (same_letters _ _ _ _ _ Q Q') as [_ A]. cbn in A. apply Permutation_length_1 in A. contradiction.
    - rewrite ind_other; [ring|]. intros <-. destruct (same_letters _ _ _ _ _ Q Q') as [A _]. cbn in A. apply Permutation_length_1 in A. contradiction.
  Qed.
  Lemma T2_key1 i j s u p r t q : wkey K R (w1 i j) s u -> (p < R)%nat -> (r < R)%nat -> (t < R)%nat -> (q < R)%nat -> T2 (ind s) p r t q = 0.
  Proof.
    intros Q Hp Hr Ht Hq. unfold T2, g2. destruct (Nat.eqb_spec p r); [reflexivity|]. destruct (Nat.eqb_spec q t); [reflexivity|]. destruct (tiny (V p r q t)) eqn:E; [reflexivity|].
    destruct (key2 (chalf * V p r q t) p r t q (half_ne _ (ne_of _ E))) as [s' [v [F Q']]]; try assumption. cbn [over fold_right]. unfold value. cbn [fst snd]. rewrite F. cbn [fst snd].
    rewrite ind_other; [ring|]. intros <-. destruct (same_letters _ _ _ _ _ Q Q') as [A _]. apply Permutation_length in A. discriminate.
  Qed.
  Lemma T1_key2 i k l j s u p q : wkey K R (w2 i k l j) s u -> (p < R)%nat -> (q < R)%nat -> T1 (ind s) p q = 0.
  Proof.
    intros Q Hp Hq. unfold T1, g1. cbn [fst snd]. destruct (tiny (h p q)) eqn:E; [reflexivity|].
    destruct (key1 (h p q) p q (ne_of _ E) Hp Hq) as [t [v [F Q']]]. cbn [over fold_right]. unfold value. cbn [fst snd]. rewrite F. cbn [fst snd].
    rewrite ind_other; [ring|]. intros <-. destruct (same_letters _ _ _ _ _ Q Q') as [A _]. apply Permutation_length in A. discriminate.
  Qed.
  Lemma T2_key2 i k l j s u p r t q : i <> k -> j <> l -> (i < R)%nat -> (k < R)%nat -> (l < R)%nat -> (j < R)%nat -> wkey K R (w2 i k l j) s u -> (forall a b c e, tiny (V a b c e) = true -> V a b c e = 0) ->
    (p < R)%nat -> (r < R)%nat -> (t < R)%nat -> (q < R)%nat ->
    T2 (ind s) p r t q = (dl i p * dl k r + - (dl k p * dl i r)) * (dl l t * dl j q + - (dl j t * dl l q)) * (chalf * V p r q t * u).
  Proof.
    intros Nik Njl Hi Hk Hl Hj Q Ht Hp Hr Hs Hq. unfold T2, g2.
    assert (Z : forall a b c e : nat, ~ ((c = a /\ e = b) \/ (c = b /\ e = a)) -> dl a c * dl b e + - (dl b c * dl a e) = 0).
    { intros a b c e C. unfold delta. destruct (Nat.eqb_spec a c), (Nat.eqb_spec b e), (Nat.eqb_spec b c), (Nat.eqb_spec a e); subst; first [ring|exfalso; tauto]. }
    destruct (Nat.eqb_spec p r) as [-> |Npr]; [rewrite (Z i k r r) by (intros [[? ?]|[? ?]]; subst; contradiction); cbn [over fold_right]; ring|].
    destruct (Nat.eqb_spec q t) as [-> |Nqt]; [rewrite (Z l j t t) by (intros [[? ?]|[? ?]]; subst; contradiction); cbn [over fold_right]; ring|].
    destruct (tiny (V p r q t)) eqn:E; [rewrite (Ht _ _ _ _ E); cbn [over fold_right]; ring|].
    destruct (key2 (chalf * V p r q t) p r t q (half_ne _ (ne_of _ E))) as [s' [v [F Q']]]; try assumption. cbn [over fold_right]. unfold value. cbn [fst snd]. rewrite F. cbn [fst snd].
    assert (D : forall a b c e : nat, {(c = a /\ e = b) \/ (c = b /\ e = a)} + {~ ((c = a /\ e = b) \/ (c = b /\ e = a))}).
    { intros. destruct (Nat.eq_dec c a), (Nat.eq_dec e b), (Nat.eq_dec c b), (Nat.eq_dec e a); first [left; tauto|right; tauto]. }
    destruct (D i k p r) as [C1|C1]; [destruct (D l j t q) as [C2|C2]|].
    - assert (G : exists g, wkey K R (w2 p r t q) s (g * u) /\ (dl i p * dl k r + - (dl k p * dl i r)) * (dl l t * dl j q + - (dl j t * dl l q)) = g).
      { unfold delta. destruct C1 as [[-> ->]|[-> ->]], C2 as [[-> ->]|[-> ->]]; rewrite ?Nat.eqb_refl;
          repeat match goal with |- context [Nat.eqb ?a ?b] => destruct (Nat.eqb_spec a b); [exfalso; congruence|] end; eexists; (split; [|reflexivity]).
        - replace ((1 * 1 + - (0 * 0)) * (1 * 1 + - (0 * 0)) * u) with u by ring. exact Q.
        - replace ((1 * 1 + - (0 * 0)) * (0 * 0 + - (1 * 1)) * u) with (- u) by ring. now apply swap_ann.
        - replace ((0 * 0 + - (1 * 1)) * (1 * 1 + - (0 * 0)) * u) with (- u) by ring. now apply swap_cre.
        - replace ((0 * 0 + - (1 * 1)) * (0 * 0 + - (1 * 1)) * u) with (- - u) by ring. now apply swap_cre, swap_ann. }
      destruct G as [g [Q2 ->]]. destruct (wkey_unique K R _ _ _ _ _ Q' Q2) as [-> ->]. rewrite ind_same. ring.
    - rewrite (Z l j t q C2), ind_other; [ring|]. intros <-. destruct (same_letters _ _ _ _ _ Q Q') as [_ A]. cbn in A. apply Permutation_length_2 in A. apply C2. destruct A as [[-> ->]|[-> ->]]; auto.
    - rewrite (Z i k p r C1), ind_other; [ring|]. intros <-. destruct (same_letters _ _ _ _ _ Q Q') as [A _]. cbn in A. apply Permutation_length_2 in A. apply C1. destruct A as [[-> ->]|[-> ->]]; auto.
  Qed.
  Lemma upto_zero m (f : nat -> K) : (forall i, (i < m)%nat -> f i = 0) -> upto m f = 0.
  Proof. intro H. rewrite (upto_ext K m f (fun _ => 0)) by exact H. apply over_0. Qed.
  Lemma point4 (f : nat -> nat -> nat -> nat -> K) i k l j : (i < R)%nat -> (k < R)%nat -> (l < R)%nat -> (j < R)%nat ->
    upto R (fun p => upto R (fun r => upto R (fun t => upto R (fun q => dl i p * (dl k r * (dl l t * (dl j q * f p r t q))))))) = f i k l j.
  Proof.
    intros Hi Hk Hl Hj. transitivity (upto R (fun p => dl i p * f p k l j)); [|now rewrite (upto_delta K R i (fun p => f p k l j))].
    apply upto_ext. intros p _. transitivity (dl i p * upto R (fun r => dl k r * f p r l j)); [|now rewrite (upto_delta K R k (fun r => f p r l j))].
    rewrite <- upto_scal. apply upto_ext. intros r _. transitivity (dl i p * (dl k r * upto R (fun t => dl l t * f p r t j))); [|now rewrite (upto_delta K R l (fun t => f p r t j))].
    rewrite <- !upto_scal. apply upto_ext. intros t _. transitivity (dl i p * (dl k r * (dl l t * upto R (fun q => dl j q * f p r t q)))); [|now rewrite (upto_delta K R j (fun q => f p r t q))].
    rewrite <- !upto_scal. reflexivity.
  Qed.
  Hypothesis th : forall a b, tiny (h a b) = true -> h a b = 0.
  Hypothesis tV : forall a b c e, tiny (V a b c e) = true -> V a b c e = 0.
  Variable F : list (fstr * K).
  Hypothesis HF : fermi_operator tiny d n 0 n h V = Some F.
  Lemma total_words s : total fdec s F = upto R (fun p => upto R (fun q => T1 (ind s) p q)) + upto R (fun p => upto R (fun r => upto R (fun t => upto R (fun q => T2 (ind s) p r t q)))).
  Proof.
    rewrite fermi_words in HF. destruct (add_strings_total words [] F HF) as [_ [L _]]; [constructor|]. rewrite (total_lin K fstr fdec), L, words_sum. cbn [lin]. ring.
  Qed.
  Definition anti (i k j l : nat) : K := chalf * (V i k j l + - V k i j l + - V i k l j + V k i l j).
  (** Every string of the operator is that of a one-body or of a two-body word, with this coefficient. *)
  Lemma strings_of s c : In (s, c) F ->
    (exists i j u, (i < R)%nat /\ (j < R)%nat /\ wkey K R (w1 i j) s u /\ c = h i j * u) \/
    (exists i k l j u, (i < R)%nat /\ (k < R)%nat /\ (l < R)%nat /\ (j < R)%nat /\ i <> k /\ j <> l /\ wkey K R (w2 i k l j) s u /\ c = anti i k j l * u).
  Proof.
    intro I. assert (HF' := HF). rewrite fermi_words in HF'. destruct (add_strings_total words [] F HF') as [ND [_ J]]; [constructor|].
    assert (T := total_In K _ _ fstr_eqb_spec' fdec s c F ND I). rewrite <- T, total_words.
    destruct (J s (in_map fst _ _ I)) as [[]|[e [x [He [E Ex]]]]]. unfold words in He. apply in_app_or in He. destruct He as [He|He]; apply in_flat_map in He; destruct He as [y [Hy He]].
    - destruct y as [i j]. apply in_prod_iff in Hy. destruct Hy as [Hi Hj]. apply in_seq in Hi, Hj. unfold g1 in He. cbn [fst snd] in He. destruct (tiny (h i j)) eqn:Et; [destruct He|]. destruct He as [<-|[]].
      destruct (key1 (h i j) i j (ne_of _ Et)) as [s' [u [E' Q]]]; try lia. cbn [fst snd] in E. rewrite E' in E. injection E as <-. cbn [fst] in Ex. subst s'. left. exists i, j, u. repeat (split; [lia|]). split; [exact Q|].
      rewrite (upto_zero R (fun p => upto R (fun r => upto R (fun t => upto R (fun q => T2 (ind s) p r t q))))).
      2:{ intros p Hp. apply upto_zero. intros r Hr. apply upto_zero. intros t Ht. apply upto_zero. intros q Hq. now apply (T2_key1 i j s u). }
      transitivity (upto R (fun p => dl i p * (h p j * u))); [|rewrite (upto_delta K R i (fun p => h p j * u)) by lia; ring].
      transitivity (upto R (fun p => upto R (fun q => T1 (ind s) p q))); [ring|]. apply upto_ext. intros p Hp.
      transitivity (dl i p * upto R (fun q => dl j q * (h p q * u))); [|now rewrite (upto_delta K R j (fun q => h p q * u)) by lia].
      rewrite <- upto_scal. apply upto_ext. intros q Hq. apply (T1_key1 i j s u p q); try assumption; lia.
    - destruct y as [i [k [l j]]]. rewrite !in_prod_iff in Hy. destruct Hy as [Hi [Hk [Hl Hj]]]. apply in_seq in Hi, Hk, Hl, Hj. unfold g2 in He.
      destruct (Nat.eqb_spec i k) as [|Nik]; [destruct He|]. destruct (Nat.eqb_spec j l) as [|Njl]; [destruct He|]. destruct (tiny (V i k j l)) eqn:Et; [destruct He|]. destruct He as [<-|[]].
      destruct (key2 (chalf * V i k j l) i k l j (half_ne _ (ne_of _ Et)) Nik Njl) as [s' [u [E' Q]]]; try lia. cbn [fst snd] in E. rewrite E' in E. injection E as <-. cbn [fst] in Ex. subst s'. right. exists i, k, l, j, u.
      repeat (split; [lia|]). split; [exact Q|].
      rewrite (upto_zero R (fun p => upto R (fun q => T1 (ind s) p q))).
      2:{ intros p Hp. apply upto_zero. intros q Hq. now apply (T1_key2 i k l j s u). }
      pose (f := fun p r t q : nat => chalf * V p r q t * u).
      transitivity ((f i k l j + - f k i l j) + (- f i k j l + f k i j l)); [|unfold f, anti; ring].
      rewrite <- (point4 f i k l j), <- (point4 f k i l j), <- (point4 f i k j l), <- (point4 f k i j l) by lia.
      transitivity (upto R (fun p => upto R (fun r => upto R (fun t => upto R (fun q => T2 (ind s) p r t q))))); [ring|].
      change (S4 K R (fun p r t q => T2 (ind s) p r t q) = (S4 K R (fun p r t q => dl i p * (dl k r * (dl l t * (dl j q * f p r t q)))) + - S4 K R (fun p r t q => dl k p * (dl i r * (dl l t * (dl j q * f p r t q))))) +
        (- S4 K R (fun p r t q => dl i p * (dl k r * (dl j t * (dl l q * f p r t q)))) + S4 K R (fun p r t q => dl k p * (dl i r * (dl j t * (dl l q * f p r t q)))))).
      rewrite <- !S4_opp, <- !S4_add. apply S4_ext. intros p r t q Hp Hr Ht Hq. rewrite (T2_key2 i k l j s u p r t q) by (try assumption; lia). unfold f. ring.
  Qed.
End Coef.
