From Coq Require Import Bool List Arith Lia Setoid Morphisms.
From Verif Require Import Coeff MatSpec MatLemmas PauliModel PauliProofs TomoProofs OperatorModel OperatorProofs TransformModel TwoTerm TaperModel TaperSpec TaperProofs.
Import ListNotations.

Section Sector.
  Variable K : CoefRing.
  Add Ring KRing : (c_ring K).
  Local Open Scope coef_scope.
  Notation pop := (list (list pauli * K)).

  Global Instance req_equiv m n : Equivalence (@req K m n).
  Proof.
    split; [intros A r c _ _; reflexivity|intros A B H r c Hr Hc; symmetry; now apply H|].
    intros A B D H1 H2 r c Hr Hc. rewrite H1 by assumption. now apply H2.
  Qed.
  Global Instance mmul_req m k n : Proper (@req K m k ==> @req K k n ==> @req K m n) (@mmul K k).
  Proof. intros A A' HA B B' HB. now apply mm_ext. Qed.
  Global Instance madd_req m n : Proper (@req K m n ==> @req K m n ==> @req K m n) (@madd K).
  Proof. intros A A' HA B B' HB r c Hr Hc. unfold madd. now rewrite HA, HB. Qed.
  Global Instance mscal_req m n : Proper (eq ==> @req K m n ==> @req K m n) (@mscal K).
  Proof. intros x y <- A A' HA r c Hr Hc. unfold mscal. now rewrite HA. Qed.
  Global Instance madj_req m n : Proper (@req K m n ==> @req K n m) (@madj K).
  Proof. intros A A' HA r c Hr Hc. unfold madj. now rewrite HA. Qed.
  Lemma r_assoc m j k n (A B D : mat K) : req m n (mmul k (mmul j A B) D) (mmul j A (mmul k B D)).
  Proof. intros r c _ _. apply mm_assoc. Qed.
  Lemma r_add_l m k n (A B D : mat K) : req m n (mmul k (madd A B) D) (madd (mmul k A D) (mmul k B D)).
  Proof. intros r c _ _. apply mm_add_l. Qed.
  Lemma r_add_r m k n (A B D : mat K) : req m n (mmul k D (madd A B)) (madd (mmul k D A) (mmul k D B)).
  Proof. intros r c _ _. apply mm_add_r. Qed.
  Lemma r_scal_l m k n x (A B : mat K) : req m n (mmul k (mscal x A) B) (mscal x (mmul k A B)).
  Proof. intros r c _ _. apply mm_scal_l. Qed.
  Lemma r_scal_r m k n x (A B : mat K) : req m n (mmul k A (mscal x B)) (mscal x (mmul k A B)).
  Proof. intros r c _ _. apply mm_scal_r. Qed.
  Lemma r_one_r m n (A : mat K) : req m n (mmul n A mone) A.
  Proof. intros r c _ Hc. now apply mm_one_r. Qed.
  Lemma r_one_l m n (A : mat K) : req m n (mmul m mone A) A.
  Proof. intros r c Hr _. now apply mm_one_l. Qed.
  Lemma r_adj m k n (A B : mat K) : req m n (madj (mmul k A B)) (mmul k (madj B) (madj A)).
  Proof. intros r c _ _. apply mm_adj. Qed.
  Lemma meq_req n (A B : mat K) : meq n A B <-> req n n A B.
  Proof. reflexivity. Qed.
  Lemma two_cancel (x y : K) : x + x = y + y -> x = y.
  Proof.
    intro H. transitivity (chalf * (x + x)).
    - transitivity ((chalf + chalf) * x); [rewrite chalf_dbl; ring|ring].
    - rewrite H. transitivity ((chalf + chalf) * y); [ring|rewrite chalf_dbl; ring].
  Qed.

  (** ** The inserted state is an eigenvector of the letter *)
  Lemma one_letter_length n q p : (q < n)%nat -> length (one_letter n q p) = n.
  Proof. intro H. unfold one_letter. rewrite app_length. cbn [length]. rewrite !repeat_length. lia. Qed.
  Lemma one_letter_nth n q p : (q < n)%nat -> nth q (one_letter n q p) PI = p.
  Proof. intro H. unfold one_letter. rewrite app_nth2; rewrite repeat_length; [|lia]. now rewrite Nat.sub_diag. Qed.
  Lemma one_letter_without n q p : (q < n)%nat -> without q (one_letter n q p) = repeat PI (n - 1).
  Proof.
    intro H. unfold one_letter, without. rewrite firstn_app, repeat_length, Nat.sub_diag. cbn [firstn]. rewrite app_nil_r.
    rewrite firstn_all2 by (rewrite repeat_length; lia). rewrite skipn_app, repeat_length.
    rewrite skipn_all2 by (rewrite repeat_length; lia). replace (S q - q)%nat with 1%nat by lia. cbn [app skipn].
    rewrite <- repeat_app. f_equal. lia.
  Qed.
  Lemma split_entry q (r : bits) : (q < length r)%nat -> r = ins q (nth q r false) (without q r).
  Proof. intro H. symmetry. now apply ins_without. Qed.

  Variables (n q : nat) (Hq : (q <= n)%nat).
  Let N := S n.
  Let X : mat K := pmat (one_letter N q PX).
  Lemma X_entry a b r c : length r = n -> length c = n -> X (ins q a r) (ins q b c) = pauli1 PX a b * (if bits_eqb r c then 1 else 0).
  Proof.
    intros Hr Hc. unfold X. assert (L := one_letter_length N q PX ltac:(unfold N; lia)).
    rewrite (pmat_without K q) by (rewrite ?ins_length; unfold N in *; lia).
    rewrite one_letter_nth, one_letter_without by (unfold N; lia). rewrite !nth_ins, !without_ins by lia. f_equal.
    replace (N - 1)%nat with n by (unfold N; lia). rewrite (pmat_identity K n r c Hr Hc). reflexivity.
  Qed.
  Variable e : K.
  Hypothesis He : e * e = 1.
  Hypothesis Hec : cconj e = e.
  Let V : mat K := insert_state q PX e.
  Lemma XV : req N n (mmul N X V) (mscal e V).
  Proof.
    intros r c Hr Hc. unfold V, N. rewrite mul_insert by assumption.
    rewrite (split_entry q r) by (unfold N in Hr; lia). set (r' := without q r). assert (Hr' : length r' = n) by (unfold r', N in *; rewrite without_length; lia).
    rewrite !X_entry by assumption. unfold mscal. rewrite insert_ins by lia. destruct (bits_eqb r' c), (nth q r false); cbn; ring [He].
  Qed.
  Lemma VV : req n n (mmul N (madj V) V) (mscal (1 + 1) mone).
  Proof.
    intros r c Hr Hc. unfold V, N. rewrite adj_insert_mul by assumption. rewrite !insert_ins by lia. cbn [eigvec].
    unfold mscal, mone. rewrite Hec, cconj_1. ring [He].
  Qed.
  Lemma VVt : req N N (mmul n V (madj V)) (madd mone (mscal e X)).
  Proof.
    intros r c Hr Hc. unfold N in *. rewrite (split_entry q r), (split_entry q c) by lia.
    set (r' := without q r). set (c' := without q c). set (a := nth q r false). set (b := nth q c false).
    assert (Hr' : length r' = n) by (unfold r'; rewrite without_length; lia). assert (Hc' : length c' = n) by (unfold c'; rewrite without_length; lia).
    unfold mmul. rewrite (sumbits_ext _ _ _ (fun k => if bits_eqb k r' then eigvec PX e a * cconj (eigvec PX e b) * (if bits_eqb c' k then 1 else 0) else 0)).
    2:{ intros k Hk. unfold V, madj. rewrite !insert_ins by lia. rewrite cconj_mul. rewrite (bits_eqb_sym k r').
        destruct (bits_eqb r' k), (bits_eqb c' k); rewrite ?cconj_1, ?cconj_0; ring. }
    rewrite (sumbits_pick K n r' (fun k => eigvec PX e a * cconj (eigvec PX e b) * (if bits_eqb c' k then 1 else 0))) by exact Hr'.
    unfold madd, mscal. rewrite X_entry by assumption. unfold mone.
    assert (E : bits_eqb (ins q a r') (ins q b c') = Bool.eqb a b && bits_eqb r' c').
    { apply eq_true_iff_eq. rewrite andb_true_iff, !bits_eqb_spec, Bool.eqb_true_iff. split.
      - intro H. split; [apply (f_equal (fun l => nth q l false)) in H; now rewrite !nth_ins in H by lia|].
        apply (f_equal (without q)) in H. now rewrite !without_ins in H by lia.
      - intros [H1 H2]. now rewrite H1, H2. }
    rewrite E, (bits_eqb_sym c' r'). destruct (bits_eqb r' c'), a, b; cbn; rewrite ?Hec, ?cconj_1; ring [He].
  Qed.

  (** ** The unitary (S + X_q)/sqrt 2 *)
  Variable rt : K.
  Hypothesis Hrt : rt * rt + rt * rt = 1.
  Hypothesis Hrtc : cconj rt = rt.
  Variable sym : list pauli.
  Hypothesis Hsl : length sym = N.
  Hypothesis Hsq : nth q sym PI = PY \/ nth q sym PI = PZ.
  Let Sm : mat K := pmat sym.
  Let U : mat K := madd (mscal rt Sm) (mscal rt X).

  Lemma nconf_one_letter : forall m k s, length s = m -> (k < m)%nat -> nconf s (one_letter m k PX) = if conflict (nth k s PI) PX then 1%nat else 0%nat.
  Proof.
    assert (Z : forall s m, nconf s (repeat PI m) = 0%nat).
    { induction s as [|x s IH]; intros [|m]; try reflexivity. cbn [repeat nconf]. rewrite IH. destruct x; reflexivity. }
    induction m as [|m IH]; intros k s Hs Hk; [lia|]. destruct s as [|x s]; [discriminate|]. cbn in Hs.
    destruct k as [|k].
    - unfold one_letter. cbn [repeat app nconf nth]. rewrite Z. lia.
    - unfold one_letter. cbn [repeat app nconf nth]. replace (S m - S k - 1)%nat with (m - k - 1)%nat by lia.
      change (repeat PI k ++ PX :: repeat PI (m - k - 1)) with (one_letter m k PX). rewrite IH by lia. destruct x; reflexivity.
  Qed.
  Lemma pmat_sq s m : length s = m -> req m m (mmul m (@pmat K s) (pmat s)) mone.
  Proof.
    intro H. intros r c Hr Hc. rewrite <- (pmat_mul K s s m H H r c Hr Hc). unfold mscal.
    assert (P : pmuls s s = repeat PI m /\ @ipow K (pexps s s) = 1).
    { clear - H. revert m H. induction s as [|x s IH]; intros [|m] H; try discriminate; [split; [reflexivity|unfold ipow; cbn; ring]|].
      cbn in H. destruct (IH m ltac:(lia)) as [I1 I2]. cbn [pmuls pexps repeat]. rewrite ipow_add, I1, I2. split; [f_equal; destruct x; reflexivity|].
      destruct x; unfold ipow; cbn; ring. }
    destruct P as [-> ->]. rewrite (pmat_identity K m r c Hr Hc). ring.
  Qed.
  Lemma X_len : length (one_letter N q PX) = N.
  Proof. apply one_letter_length. unfold N. lia. Qed.
  Lemma SS : req N N (mmul N Sm Sm) mone.
  Proof. now apply pmat_sq. Qed.
  Lemma XX : req N N (mmul N X X) mone.
  Proof. apply pmat_sq, X_len. Qed.
  Lemma SX : req N N (mmul N Sm X) (mscal (- (1)) (mmul N X Sm)).
  Proof.
    intros r c Hr Hc. unfold Sm, X. rewrite (comm_phase K sym (one_letter N q PX) N Hsl X_len r c Hr Hc).
    rewrite nconf_one_letter by (try exact Hsl; unfold N; lia). unfold mscal. destruct Hsq as [-> | ->]; cbn; ring.
  Qed.
  Lemma UU : req N N (mmul N U U) mone.
  Proof.
    intros r c Hr Hc. unfold U. rewrite mm_add_l, !mm_scal_l, !mm_add_r, !mm_scal_r.
    rewrite (SS r c Hr Hc), (XX r c Hr Hc), (SX r c Hr Hc). unfold mscal.
    transitivity ((rt * rt + rt * rt) * mone r c); [ring|]. rewrite Hrt. ring.
  Qed.
  Lemma SU : req N N (mmul N Sm U) (mmul N U X).
  Proof.
    intros r c Hr Hc. unfold U. rewrite mm_add_l, !mm_scal_l, !mm_add_r, !mm_scal_r.
    rewrite (SS r c Hr Hc), (XX r c Hr Hc). ring.
  Qed.
  Lemma U_adj : req N N (madj U) U.
  Proof.
    intros r c Hr Hc. unfold U, madj, madd, mscal. rewrite cconj_add, !cconj_mul, Hrtc.
    f_equal; f_equal; [apply (pmat_adj K sym N Hsl r c Hr Hc)|apply (pmat_adj K _ N X_len r c Hr Hc)].
  Qed.
  Definition Wm : mat K := mmul N U V.
  Lemma WW : req n n (mmul N (madj Wm) Wm) (mscal (1 + 1) mone).
  Proof.
    unfold Wm. rewrite (r_adj n N N), U_adj, (r_assoc n N N n), <- (r_assoc N N N n U U V), UU, (r_one_l N n). apply VV.
  Qed.
  Lemma SW : req N n (mmul N Sm Wm) (mscal e Wm).
  Proof.
    unfold Wm. rewrite <- (r_assoc N N N n), SU, (r_assoc N N N n), XV. apply r_scal_r.
  Qed.
  Lemma WWt : req N N (mmul n Wm (madj Wm)) (madd mone (mscal e Sm)).
  Proof.
    unfold Wm. rewrite (r_adj n N N), U_adj, (r_assoc N N n N), <- (r_assoc N n N N V (madj V) U), VVt.
    rewrite (r_add_l N N N), (r_add_r N N N), (r_one_l N N), UU.
    rewrite (r_scal_l N N N), (r_scal_r N N N), <- (r_assoc N N N N), <- SU, (r_assoc N N N N), UU, (r_one_r N N). reflexivity.
  Qed.
  (** Uniqueness from [W^dagger W = 2]. *)
  Lemma W_cancel m (A B : mat K) : req N m (mmul n Wm A) (mmul n Wm B) -> req n m A B.
  Proof.
    intro H. assert (G : req n m (mmul N (madj Wm) (mmul n Wm A)) (mmul N (madj Wm) (mmul n Wm B))) by now rewrite H.
    rewrite <- !(r_assoc n N n m), WW, !(r_scal_l n n m), !(r_one_l n m) in G.
    intros r c Hr Hc. specialize (G r c Hr Hc). unfold mscal in G. apply two_cancel.
    transitivity ((1 + 1) * A r c); [ring|]. rewrite G. ring.
  Qed.
  (** An operator commuting with S and its compression. *)
  Lemma intertwine (H T : mat K) : req N N (mmul N H Sm) (mmul N Sm H) -> req n n (mscal (1 + 1) T) (mmul N (madj Wm) (mmul N H Wm)) ->
    req N n (mmul N H Wm) (mmul n Wm T).
  Proof.
    intros HC HT.
    assert (P : req N n (mmul N (mmul n Wm (madj Wm)) (mmul N H Wm)) (mscal (1 + 1) (mmul N H Wm))).
    { rewrite WWt, (r_add_l N N n), (r_one_l N n), (r_scal_l N N n), <- (r_assoc N N N n Sm H Wm), <- HC, (r_assoc N N N n), SW, (r_scal_r N N n).
      intros r c _ _. unfold madd, mscal. ring [He]. }
    rewrite (r_assoc N n N n), <- HT, (r_scal_r N n n) in P.
    intros r c Hr Hc. specialize (P r c Hr Hc). unfold mscal in P. apply two_cancel.
    transitivity ((1 + 1) * mmul N H Wm r c); [ring|]. rewrite <- P. ring.
  Qed.
  (** A second string which commutes with S and acts as the identity on the removed qubit. *)
  Lemma other_symmetry (t : list pauli) : length t = N -> nth q t PI = PI -> req N N (mmul N (pmat t) Sm) (mmul N Sm (pmat t)) ->
    req N n (mmul N (pmat t) Wm) (mmul n Wm (pmat (without q t))).
  Proof.
    intros Ht Hi HC.
    assert (CX : req N N (mmul N (pmat t) X) (mmul N X (pmat t))).
    { intros r c Hr Hc. unfold X. rewrite (comm_phase K t (one_letter N q PX) N Ht X_len r c Hr Hc).
      rewrite nconf_one_letter by (try exact Ht; unfold N; lia). rewrite Hi. unfold mscal. cbn. ring. }
    assert (CU : req N N (mmul N (pmat t) U) (mmul N U (pmat t))).
    { unfold U. rewrite (r_add_l N N N), (r_add_r N N N), !(r_scal_l N N N), !(r_scal_r N N N), HC, CX. reflexivity. }
    assert (CV : req N n (mmul N (pmat t) V) (mmul n V (pmat (without q t)))).
    { intros r c Hr Hc. unfold V, N. rewrite mul_insert by assumption. unfold N in *.
      rewrite (split_entry q r) by lia. set (r' := without q r). assert (Hr' : length r' = n) by (unfold r'; rewrite without_length; lia).
      rewrite !(pmat_without K q t) by (rewrite ?ins_length; lia). rewrite !nth_ins, !without_ins, Hi by lia.
      unfold mmul. rewrite (sumbits_ext _ _ _ (fun k => if bits_eqb k r' then eigvec PX e (nth q r false) * pmat (without q t) k c else 0)).
      - rewrite (sumbits_pick K n r' (fun k => eigvec PX e (nth q r false) * pmat (without q t) k c)) by exact Hr'.
        destruct (nth q r false); cbn; ring.
      - intros k Hk. rewrite insert_ins by lia. rewrite (bits_eqb_sym r' k). destruct (bits_eqb k r'); ring. }
    unfold Wm. rewrite <- (r_assoc N N N n), CU, (r_assoc N N N n), CV, (r_assoc N N n n). reflexivity.
  Qed.
  Lemma commuting_below (H T : mat K) (t : list pauli) : length t = N -> nth q t PI = PI -> req N N (mmul N (pmat t) Sm) (mmul N Sm (pmat t)) ->
    req N N (mmul N H (pmat t)) (mmul N (pmat t) H) -> req N n (mmul N H Wm) (mmul n Wm T) ->
    req n n (mmul n T (pmat (without q t))) (mmul n (pmat (without q t)) T).
  Proof.
    intros Ht Hi HC HH HT. assert (O := other_symmetry t Ht Hi HC). apply (W_cancel n).
    rewrite <- (r_assoc N n n n Wm T), <- HT, (r_assoc N N n n), <- O, <- (r_assoc N N N n), HH, (r_assoc N N N n), HT, <- (r_assoc N N n n), O. apply r_assoc.
  Qed.
End Sector.
