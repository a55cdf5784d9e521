From Coq Require Import Bool List Arith Lia.
From Verif Require Import Coeff MatSpec MatLemmas PauliModel PauliProofs TomoProofs OperatorModel OperatorProofs TransformModel TwoTerm TaperModel TaperSpec.
Import ListNotations.

(** ** Removing and inserting an entry *)
Definition ins {A} (q : nat) (x : A) (l : list A) : list A := firstn q l ++ x :: skipn q l.
Lemma ins_length : forall A q (x : A) l, q <= length l -> length (ins q x l) = S (length l).
Proof. intros A q x l H. unfold ins. rewrite app_length, firstn_length. cbn [length]. rewrite skipn_length. lia. Qed.
Lemma without_length : forall A q (l : list A), q < length l -> length (without q l) = length l - 1.
Proof. intros A q l H. unfold without. rewrite app_length, firstn_length, skipn_length. lia. Qed.
Lemma without_ins : forall A q (x : A) l, q <= length l -> without q (ins q x l) = l.
Proof.
  intros A. induction q as [|q IH]; intros x [|y l] H; cbn in H; try lia; [reflexivity|reflexivity|].
  unfold without, ins in *. cbn. f_equal. apply IH. lia.
Qed.
Lemma nth_ins : forall A q (x d : A) l, q <= length l -> nth q (ins q x l) d = x.
Proof. intros A q x d l H. unfold ins. rewrite app_nth2; rewrite firstn_length; [|lia]. now replace (q - min q (length l)) with 0 by lia. Qed.
Lemma ins_without : forall A q (d : A) l, q < length l -> ins q (nth q l d) (without q l) = l.
Proof.
  intros A. induction q as [|q IH]; intros d [|y l] H; cbn in H; try lia; [reflexivity|].
  unfold without, ins in *. cbn. f_equal. apply IH. lia.
Qed.

Section Taper.
  Variable K : CoefRing.
  Add Ring KRing : (c_ring K).
  Local Open Scope coef_scope.
  Notation pop := (list (list pauli * K)).

  Lemma sumbits_ins : forall q n (f : bits -> K), (q <= n)%nat -> sumbits (S n) f = sumbits n (fun k => f (ins q false k) + f (ins q true k)).
  Proof.
    induction q as [|q IH]; intros n f H.
    - cbn [sumbits]. rewrite <- sumbits_add. reflexivity.
    - destruct n as [|n]; [lia|].
      change (sumbits (S (S n)) f) with (sumbits (S n) (fun b => f (false :: b)) + sumbits (S n) (fun b => f (true :: b))).
      rewrite (IH n (fun b => f (false :: b))), (IH n (fun b => f (true :: b))) by lia. reflexivity.
  Qed.
  Lemma pmat_without : forall q s r c, (q < length s)%nat -> length r = length s -> length c = length s ->
    @pmat K s r c = pauli1 (nth q s PI) (nth q r false) (nth q c false) * pmat (without q s) (without q r) (without q c).
  Proof.
    induction q as [|q IH]; intros [|p s] [|a r] [|b c] H Hr Hc; cbn in H, Hr, Hc; try lia; [reflexivity|].
    cbn [pmat nth]. rewrite (IH s r c) by lia. unfold without. cbn. ring.
  Qed.

  (** Pointwise algebra of (rectangular) products. *)
  Lemma mm_assoc j k (A B D : mat K) r c : mmul k (mmul j A B) D r c = mmul j A (mmul k B D) r c.
  Proof.
    unfold mmul. rewrite (sumbits_ext _ _ _ (fun b => sumbits j (fun a => A r a * B a b * D b c))) by (intros; symmetry; apply sumbits_scal_r).
    rewrite sumbits_swap. apply sumbits_ext. intros a _. rewrite <- sumbits_scal. apply sumbits_ext. intros. ring.
  Qed.
  Lemma mm_add_l k (A B D : mat K) r c : mmul k (madd A B) D r c = mmul k A D r c + mmul k B D r c.
  Proof. unfold mmul. rewrite <- sumbits_add. apply sumbits_ext. intros. unfold madd. ring. Qed.
  Lemma mm_add_r k (A B D : mat K) r c : mmul k D (madd A B) r c = mmul k D A r c + mmul k D B r c.
  Proof. unfold mmul. rewrite <- sumbits_add. apply sumbits_ext. intros. unfold madd. ring. Qed.
  Lemma mm_scal_l k x (A B : mat K) r c : mmul k (mscal x A) B r c = x * mmul k A B r c.
  Proof. unfold mmul. rewrite <- sumbits_scal. apply sumbits_ext. intros. unfold mscal. ring. Qed.
  Lemma mm_scal_r k x (A B : mat K) r c : mmul k A (mscal x B) r c = x * mmul k A B r c.
  Proof. unfold mmul. rewrite <- sumbits_scal. apply sumbits_ext. intros. unfold mscal. ring. Qed.
  Lemma mm_ext m k n (A A' B B' : mat K) : req m k A A' -> req k n B B' -> req m n (mmul k A B) (mmul k A' B').
  Proof. intros HA HB r c Hr Hc. unfold mmul. apply sumbits_ext. intros x Hx. now rewrite HA, HB. Qed.
  Lemma mm_adj k (A B : mat K) r c : madj (mmul k A B) r c = mmul k (madj B) (madj A) r c.
  Proof. unfold madj, mmul. rewrite sumbits_conj. apply sumbits_ext. intros. rewrite cconj_mul. ring. Qed.
  Lemma mm_one_r n (A : mat K) r c : length c = n -> mmul n A mone r c = A r c.
  Proof.
    intro Hc. unfold mmul, mone. rewrite (sumbits_ext _ _ _ (fun b => if bits_eqb b c then A r b else 0)).
    - now apply sumbits_pick.
    - intros b _. destruct (bits_eqb b c); ring.
  Qed.
  Lemma mm_one_l n (A : mat K) r c : length r = n -> mmul n mone A r c = A r c.
  Proof.
    intro Hr. unfold mmul, mone. rewrite (sumbits_ext _ _ _ (fun b => if bits_eqb b r then A b c else 0)).
    - now apply (sumbits_pick K n r (fun b => A b c)).
    - intros b _. rewrite bits_eqb_sym. destruct (bits_eqb b r); ring.
  Qed.

  (** ** Compression to the inserted state *)
  Lemma insert_ins q p (e : K) a r c : (q <= length r)%nat -> insert_state q p e (ins q a r) c = eigvec p e a * (if bits_eqb r c then 1 else 0).
  Proof. intro H. unfold insert_state. now rewrite nth_ins, without_ins. Qed.
  Lemma mul_insert n q p e (A : mat K) r c : (q <= n)%nat -> length c = n ->
    mmul (S n) A (insert_state q p e) r c = A r (ins q false c) * eigvec p e false + A r (ins q true c) * eigvec p e true.
  Proof.
    intros Hq Hc. unfold mmul. rewrite (sumbits_ins q n) by exact Hq.
    rewrite (sumbits_ext _ _ _ (fun k => if bits_eqb k c then A r (ins q false k) * eigvec p e false + A r (ins q true k) * eigvec p e true else 0)).
    - now rewrite sumbits_pick.
    - intros k Hk. rewrite !insert_ins by lia. destruct (bits_eqb k c); ring.
  Qed.
  Lemma adj_insert_mul n q p e (A : mat K) r c : (q <= n)%nat -> length r = n ->
    mmul (S n) (madj (insert_state q p e)) A r c = cconj (eigvec p e false) * A (ins q false r) c + cconj (eigvec p e true) * A (ins q true r) c.
  Proof.
    intros Hq Hr. unfold mmul. rewrite (sumbits_ins q n) by exact Hq.
    rewrite (sumbits_ext _ _ _ (fun k => if bits_eqb k r then cconj (eigvec p e false) * A (ins q false k) c + cconj (eigvec p e true) * A (ins q true k) c else 0)).
    - now rewrite (sumbits_pick K n r (fun k => cconj (eigvec p e false) * A (ins q false k) c + cconj (eigvec p e true) * A (ins q true k) c)).
    - intros k Hk. unfold madj. rewrite !insert_ins by lia. rewrite !cconj_mul. destruct (bits_eqb k r); rewrite ?cconj_1, ?cconj_0; ring.
  Qed.
  Definition compress (n q : nat) p (e : K) (A : mat K) : mat K := mmul (S n) (madj (insert_state q p e)) (mmul (S n) A (insert_state q p e)).
  Lemma compress_entry n q p e (A : mat K) r c : (q <= n)%nat -> length r = n -> length c = n ->
    compress n q p e A r c =
      cconj (eigvec p e false) * (A (ins q false r) (ins q false c) * eigvec p e false + A (ins q false r) (ins q true c) * eigvec p e true)
      + cconj (eigvec p e true) * (A (ins q true r) (ins q false c) * eigvec p e false + A (ins q true r) (ins q true c) * eigvec p e true).
  Proof. intros Hq Hr Hc. unfold compress. rewrite adj_insert_mul by assumption. now rewrite !mul_insert by assumption. Qed.

  Definition factor (p x : pauli) (e : K) : K := if pauli_eqb x p then e else if pauli_eqb x PI then 1 else 0.
  Lemma half2 : (chalf * chalf * (1 + 1 + 1 + 1) : K) = 1.
  Proof. transitivity ((chalf + chalf) * (chalf + chalf) : K); [ring|]. rewrite chalf_dbl. ring. Qed.
  Lemma conj_half : cconj (chalf : K) = chalf.
  Proof.
    assert (H : cconj (chalf : K) + cconj chalf = 1) by (rewrite <- cconj_add, chalf_dbl; apply cconj_1).
    transitivity ((chalf + chalf) * cconj (chalf : K)); [rewrite chalf_dbl; ring|].
    transitivity (chalf * (cconj (chalf : K) + cconj chalf)); [ring|]. rewrite H. ring.
  Qed.
  Lemma factor_spec p x (e : K) : p <> PI -> e * e = 1 -> cconj e = e ->
    cconj (eigvec p e false) * (pauli1 x false false * eigvec p e false + pauli1 x false true * eigvec p e true)
    + cconj (eigvec p e true) * (pauli1 x true false * eigvec p e false + pauli1 x true true * eigvec p e true) = eignorm p * factor p x e.
  Proof.
    intros Hp He Hc. assert (Ci : (ci * ci : K) = - (1)) by apply ci_sq. assert (H2 := half2).
    destruct p; [contradiction| | |]; unfold factor, eignorm, eigvec; rewrite ?cconj_mul, ?cconj_i, ?cconj_1, ?Hc, ?conj_half.
    - destruct x; cbn; ring [He Ci].
    - destruct x; cbn; ring [He Ci].
    - assert (C1 : cconj (1 + e) = 1 + e) by (rewrite cconj_add, cconj_1, Hc; reflexivity).
      assert (C2 : cconj (1 - e) = 1 - e).
      { replace (1 - e) with (1 + - e) by ring. rewrite cconj_add, cconj_1, cconj_opp, Hc. reflexivity. }
      rewrite C1, C2. destruct x; cbn.
      + transitivity (chalf * chalf * (1 + 1 + 1 + 1) : K); [ring [He]|rewrite H2; ring].
      + ring [He].
      + ring [He].
      + transitivity (chalf * chalf * (1 + 1 + 1 + 1) * e : K); [ring [He]|rewrite H2; ring].
  Qed.
  Lemma compress_pmat n q p (e : K) s : p <> PI -> e * e = 1 -> cconj e = e -> (q <= n)%nat -> length s = S n ->
    req n n (compress n q p e (pmat s)) (mscal (eignorm p * factor p (nth q s PI) e) (pmat (without q s))).
  Proof.
    intros Hp He Hc Hq Hs r c Hr Hcl. rewrite compress_entry by assumption.
    assert (L : forall (a : bool) (x : list bool), length x = n -> length (ins q a x) = length s) by (intros a x Hx; rewrite ins_length by lia; congruence).
    rewrite !(pmat_without q s) by (try (rewrite L by assumption; reflexivity); lia).
    rewrite !nth_ins, !without_ins by lia. unfold mscal. rewrite <- (factor_spec p (nth q s PI) e Hp He Hc). ring.
  Qed.
  Lemma compress_scal n q p e x (A : mat K) r c : compress n q p e (mscal x A) r c = x * compress n q p e A r c.
  Proof.
    unfold compress. transitivity (mmul (S n) (madj (insert_state q p e)) (mscal x (mmul (S n) A (insert_state q p e))) r c).
    - unfold mmul at 1 3. apply sumbits_ext. intros b _. now rewrite mm_scal_l.
    - apply mm_scal_r.
  Qed.
  Lemma compress_add n q p e (A B : mat K) r c : compress n q p e (madd A B) r c = compress n q p e A r c + compress n q p e B r c.
  Proof.
    unfold compress. transitivity (mmul (S n) (madj (insert_state q p e)) (madd (mmul (S n) A (insert_state q p e)) (mmul (S n) B (insert_state q p e))) r c).
    - unfold mmul at 1 3. apply sumbits_ext. intros b _. now rewrite mm_add_l.
    - apply mm_add_r.
  Qed.
  Lemma compress_req n q p e (A B : mat K) : req (S n) (S n) A B -> req n n (compress n q p e A) (compress n q p e B).
  Proof.
    intro H. unfold compress. apply mm_ext; [intros r c _ _; reflexivity|]. apply mm_ext; [exact H|intros r c _ _; reflexivity].
  Qed.

  (** ** Trimming *)
  Definition sandwich (n m : nat) (E A : mat K) : mat K := mmul n (madj E) (mmul n A E).

  Lemma trim_string_spec : forall ts n s c, fits K n ts -> length s = n ->
    exists s' c', trim_string 0 ts s c = Some (s', c') /\ length s' = (n - length ts)%nat /\
      req (n - length ts) (n - length ts) (mscal (eignorms ts) (mscal c' (pmat s'))) (sandwich n (n - length ts) (insert_states n ts) (mscal c (pmat s))).
  Proof.
    induction ts as [|[[q p] e] ts IH]; intros n s c HF Hs.
    - exists s, c. cbn [trim_string length]. rewrite Nat.sub_0_r. split; [reflexivity|]. split; [exact Hs|].
      intros r c' Hr Hc. unfold sandwich. cbn [insert_states eignorms fold_right].
      rewrite (mm_ext n n n (madj mone) mone (mmul n (mscal c (pmat s)) mone) (mscal c (pmat s))); try assumption.
      + rewrite mm_one_l by exact Hr. unfold mscal. ring.
      + intros a b _ _. unfold madj, mone. rewrite bits_eqb_sym. destruct (bits_eqb a b); [apply cconj_1|apply cconj_0].
      + intros a b _ Hb. now apply mm_one_r.
    - destruct HF as [Hq [Hp [He [Hc HF]]]]. destruct n as [|n]; [lia|]. cbn [Nat.sub] in HF. rewrite Nat.sub_0_r in HF.
      assert (Hn : nth_error s q = Some (nth q s PI)) by (apply nth_error_nth'; lia).
      set (x := nth q s PI) in *. set (c1 := if pauli_eqb x p then c * e else if pauli_eqb x PI then c else c * 0).
      assert (Hl : length (without q s) = n) by (rewrite without_length by lia; lia).
      destruct (IH n (without q s) c1 HF Hl) as [s' [c' [T1 [T2 T3]]]].
      exists s', c'. cbn [trim_string]. rewrite Hn. fold (without q s). fold c1. split; [exact T1|].
      cbn [length]. replace (S n - S (length ts))%nat with (n - length ts)%nat by lia. split; [exact T2|].
      intros r cc Hr Hcc. specialize (T3 r cc Hr Hcc).
      cbn [eignorms fold_right snd fst]. fold (eignorms ts).
      transitivity (eignorm p * mscal (eignorms ts) (mscal c' (pmat s')) r cc); [unfold mscal; ring|]. rewrite T3.
      cbn [insert_states]. replace (S n - 1)%nat with n by lia. set (V := insert_state q p e). set (E' := insert_states n ts).
      unfold sandwich.
      (* (V E')^dagger A (V E') = E'^dagger (V^dagger A V) E' *)
      transitivity (mmul n (madj E') (mmul n (compress n q p e (mscal c (pmat s))) E') r cc).
      + clear T3. rewrite <- mm_scal_r. revert r cc Hr Hcc. apply (mm_ext (n - length ts) n (n - length ts)); [intros a b _ _; reflexivity|].
        intros a b Ha Hb. unfold mscal at 1. rewrite <- mm_scal_l. revert a b Ha Hb. apply (mm_ext n n (n - length ts)); [|intros a b _ _; reflexivity].
        intros a b Ha Hb. rewrite compress_scal. rewrite (compress_pmat n q p e s Hp He Hc ltac:(lia) Hs a b Ha Hb). fold x. unfold mscal, c1, factor.
        destruct (pauli_eqb x p); [ring|]. destruct (pauli_eqb x PI); ring.
      + unfold compress. fold V.
        transitivity (mmul (S n) (mmul n (madj E') (madj V)) (mmul (S n) (mscal c (pmat s)) (mmul n V E')) r cc).
        * rewrite mm_assoc. unfold mmul at 1 4. apply sumbits_ext. intros a _. f_equal. rewrite mm_assoc. unfold mmul at 1 4. apply sumbits_ext. intros b _. f_equal. apply mm_assoc.
        * unfold mmul at 1 4. apply sumbits_ext. intros a _. f_equal. symmetry. apply mm_adj.
  Qed.

  Lemma trim_loop_spec : forall ops n ts new, fits K n ts -> wf n ops -> wf (n - length ts) new ->
    exists T, trim_loop 0 ts ops new = Some T /\ wf (n - length ts) T /\
      forall r c, length r = (n - length ts)%nat -> length c = (n - length ts)%nat ->
        eignorms ts * omat T r c = eignorms ts * omat new r c + sandwich n (n - length ts) (insert_states n ts) (omat ops) r c.
  Proof.
    induction ops as [|[s x] ops IH]; intros n ts new HF HW HN.
    - exists new. split; [reflexivity|]. split; [exact HN|]. intros r c _ _.
      assert (Z : sandwich n (n - length ts) (insert_states n ts) (omat (K:=K) []) r c = 0).
      { unfold sandwich, mmul. transitivity (sumbits n (fun _ => 0 : K)).
        - apply sumbits_ext. intros a _. rewrite (sumbits_ext _ _ _ (fun _ => 0 * 0)).
          + rewrite sumbits_scal. ring.
          + intros b _. cbn. unfold mzero. ring.
        - rewrite <- (sumbits_ext K n (fun _ => 0 * 0)); [rewrite sumbits_scal; ring|]. intros. ring. }
      rewrite Z. ring.
    - destruct (trim_string_spec ts n s x HF (HW (s, x) (or_introl eq_refl))) as [s' [c' [T1 [T2 T3]]]].
      cbn [trim_loop]. rewrite T1.
      destruct (IH n ts (op_add_string pauli_list_eqb new (s', c')) HF) as [T [E1 [E2 E3]]].
      + intros y Hy. apply HW. now right.
      + intros y Hy. unfold op_add_string in Hy. cbn [fst snd] in Hy.
        destruct (op_get pauli_list_eqb s' new); apply (In_set K _ _ pauli_list_eqb_spec) in Hy; (destruct Hy as [->|Hy]; [exact T2|now apply HN]).
      + exists T. split; [exact E1|]. split; [exact E2|]. intros r c Hr Hc. rewrite E3 by assumption.
        rewrite (omat_lin K (op_add_string _ _ _)), (lin_add_string K _ _ pauli_list_eqb_spec), <- omat_lin. cbn [fst snd].
        specialize (T3 r c Hr Hc). unfold mscal at 1 2 in T3.
        transitivity (eignorms ts * omat new r c + (eignorms ts * (c' * pmat s' r c) + sandwich n (n - length ts) (insert_states n ts) (omat ops) r c)); [ring|].
        rewrite T3. f_equal. cbn [omat]. unfold sandwich.
        rewrite <- mm_add_r. unfold mmul at 1 3. apply sumbits_ext. intros a _. f_equal. symmetry. apply mm_add_l.
  Qed.
  Lemma trim_operator_spec n ts ops : fits K n ts -> descending (map (fun t => fst (fst t)) ts) = true -> wf n ops ->
    exists T, trim_operator ops ts 0 = Some T /\ wf (n - length ts) T /\
      req (n - length ts) (n - length ts) (mscal (eignorms ts) (omat T)) (mmul n (madj (insert_states n ts)) (mmul n (omat ops) (insert_states n ts))).
  Proof.
    intros HF HD HW. unfold trim_operator. rewrite HD.
    destruct (trim_loop_spec ops n ts [] HF HW) as [T [E1 [E2 E3]]]; [intros y []|].
    exists T. split; [exact E1|]. split; [exact E2|]. intros r c Hr Hc. unfold mscal. rewrite E3 by assumption. cbn [omat]. unfold mzero, sandwich. ring.
  Qed.
End Taper.
