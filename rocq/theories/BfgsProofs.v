(** Vector and matrix lemmas; the BFGS update and its invariants. *)
From Coq Require Import Bool List Arith QArith Qabs Qminmax Lia Lqa Setoid.
From Verif Require Import AcseModel AcseSpec AcseProofs2 BfgsModel BfgsSpec.
Import ListNotations.
Local Open Scope Q_scope.

Definition veq : list Q -> list Q -> Prop := Forall2 Qeq.
Lemma veq_refl a : veq a a.
Proof. induction a; constructor; [reflexivity|assumption]. Qed.
Lemma veq_sym a b : veq a b -> veq b a.
Proof. induction 1; constructor; [symmetry; assumption|assumption]. Qed.
Lemma veq_trans a b c : veq a b -> veq b c -> veq a c.
Proof.
  intro H. revert c. induction H as [|x y l l' E F IH]; intros c H2; inversion H2; subst; constructor.
  - etransitivity; eassumption.
  - apply IH. assumption.
Qed.
Lemma veq_length a b : veq a b -> length a = length b.
Proof. induction 1; cbn; congruence. Qed.
Lemma dot_veq a a' b b' : veq a a' -> veq b b' -> dot a b == dot a' b'.
Proof.
  intro H. revert b b'. induction H; intros b b' Hb; cbn [dot]; [reflexivity|].
  destruct Hb; cbn [dot]; [reflexivity|]. rewrite H, H1, (IHForall2 _ _ Hb). reflexivity.
Qed.
Lemma dot_comm a b : dot a b == dot b a.
Proof. revert b. induction a; intros [|y b]; cbn [dot]; try reflexivity. rewrite (IHa b). ring. Qed.
Lemma vadd_length a b : length a = length b -> length (vadd a b) = length a.
Proof. revert b. induction a; intros [|y b] H; cbn in *; try discriminate; [reflexivity|]. rewrite IHa; lia. Qed.
Lemma vsub_length a b : length a = length b -> length (vsub a b) = length a.
Proof. revert b. induction a; intros [|y b] H; cbn in *; try discriminate; [reflexivity|]. rewrite IHa; lia. Qed.
Lemma vscale_length c a : length (vscale c a) = length a. Proof. apply map_length. Qed.
Lemma vopp_length a : length (vopp a) = length a. Proof. apply map_length. Qed.
Lemma mv_length M v : length (mv M v) = length M. Proof. apply map_length. Qed.

Lemma dot_vadd a b v : length a = length b -> dot (vadd a b) v == dot a v + dot b v.
Proof.
  revert b v. induction a; intros [|y b] [|z v] H; cbn [length] in H; try discriminate; cbn [vadd dot]; try ring.
  rewrite IHa by lia. ring.
Qed.
Lemma dot_vsub a b v : length a = length b -> dot (vsub a b) v == dot a v - dot b v.
Proof.
  revert b v. induction a; intros [|y b] [|z v] H; cbn [length] in H; try discriminate; cbn [vsub dot]; try ring.
  rewrite IHa by lia. ring.
Qed.
Lemma dot_vscale c a v : dot (vscale c a) v == c * dot a v.
Proof.
  revert v. induction a; intros [|z v]; cbn [vscale map dot]; try ring. change (map _ a0) with (vscale c a0). rewrite IHa. ring.
Qed.
Lemma dot_vopp a v : dot (vopp a) v == - dot a v.
Proof.
  revert v. induction a; intros [|z v]; cbn [vopp map dot]; try ring. change (map _ a0) with (vopp a0). rewrite IHa. ring.
Qed.
Lemma dot_vadd_r a b v : length a = length b -> dot v (vadd a b) == dot v a + dot v b.
Proof. intro H. rewrite dot_comm, dot_vadd by exact H. rewrite (dot_comm a), (dot_comm b). reflexivity. Qed.
Lemma dot_vsub_r a b v : length a = length b -> dot v (vsub a b) == dot v a - dot v b.
Proof. intro H. rewrite dot_comm, dot_vsub by exact H. rewrite (dot_comm a), (dot_comm b). reflexivity. Qed.
Lemma dot_vscale_r c a v : dot v (vscale c a) == c * dot v a.
Proof. rewrite dot_comm, dot_vscale, (dot_comm a). reflexivity. Qed.
Lemma dot_vopp_r a v : dot v (vopp a) == - dot v a.
Proof. rewrite dot_comm, dot_vopp, (dot_comm a). reflexivity. Qed.

Lemma vadd_veq a a' b b' : veq a a' -> veq b b' -> veq (vadd a b) (vadd a' b').
Proof.
  intro H. revert b b'. induction H as [|p q l l' E F IH]; intros b b' Hb; cbn [vadd]; [constructor|].
  destruct Hb as [|p' q' m m' E' F']; constructor; [rewrite E, E'; reflexivity|apply IH; exact F'].
Qed.
Lemma vsub_veq a a' b b' : veq a a' -> veq b b' -> veq (vsub a b) (vsub a' b').
Proof.
  intro H. revert b b'. induction H as [|p q l l' E F IH]; intros b b' Hb; cbn [vsub]; [constructor|].
  destruct Hb as [|p' q' m m' E' F']; constructor; [rewrite E, E'; reflexivity|apply IH; exact F'].
Qed.
Lemma vscale_veq c c' a a' : c == c' -> veq a a' -> veq (vscale c a) (vscale c' a').
Proof. intros Hc H. induction H; constructor; [rewrite Hc, H; reflexivity|assumption]. Qed.
Lemma mv_veq M v v' : veq v v' -> veq (mv M v) (mv M v').
Proof. intro H. induction M; constructor; [apply dot_veq; [apply veq_refl|exact H]|assumption]. Qed.

(** * Squares *)
Lemma Qsquare x : 0 <= x * x.
Proof. destruct (Qlt_le_dec x 0); nra. Qed.
Lemma dot_nonneg v : 0 <= dot v v.
Proof. induction v; cbn [dot]; [lra|]. assert (S := Qsquare a). lra. Qed.
Lemma dot_zero v : dot v v == 0 -> forall x, In x v -> x == 0.
Proof.
  induction v; cbn [dot In]; [tauto|]. intros H x. assert (S := Qsquare a). assert (N := dot_nonneg v).
  intros [<- | I]; [|apply IHv; [lra|exact I]].
  assert (a * a == 0) by lra. apply Qmult_integral in H0. tauto.
Qed.
Lemma dot_zero_r v w : (forall x, In x v -> x == 0) -> dot v w == 0.
Proof.
  revert w. induction v; intros [|y w] H; cbn [dot]; try reflexivity. rewrite (H a) by (left; reflexivity).
  rewrite IHv by (intros; apply H; right; assumption). ring.
Qed.
Lemma nonzero_pos n v : length v = n -> nonzero n v -> 0 < dot v v.
Proof.
  intros L (i & Hi & H). assert (N := dot_nonneg v). destruct (Qeq_dec (dot v v) 0) as [E|E]; [|lra].
  exfalso. apply H. apply (dot_zero v E). apply nth_In. lia.
Qed.
Lemma pos_nonzero n v : length v = n -> 0 < dot v v -> nonzero n v.
Proof.
  intros L H. assert (D : (exists x, In x v /\ ~ x == 0) \/ (forall x, In x v -> x == 0)).
  { clear. induction v as [|a v [ (x & I & X) | A ]].
    - right. intros x [].
    - left. exists x. split; [right; exact I|exact X].
    - destruct (Qeq_dec a 0) as [E|E]; [right; intros x [<- | I]; auto|left; exists a; split; [left; reflexivity|exact E]]. }
  destruct D as [(x & I & X) | A].
  - apply (In_nth _ _ 0) in I. destruct I as (i & Hi & E). exists i. split; [lia|]. unfold entry. rewrite E. exact X.
  - rewrite (dot_zero_r v v A) in H. lra.
Qed.

(** * Matrices *)
Lemma mv_msub n A B v : square n A -> square n B -> veq (mv (msub A B) v) (vsub (mv A v) (mv B v)).
Proof.
  unfold square. intros [_ HA] [_ HB]. revert B HB. induction A as [|a A IH]; intros [|b B] HB; cbn [msub mv map vsub]; try constructor.
  - apply dot_vsub. rewrite (HA a), (HB b); [reflexivity|left; reflexivity|left; reflexivity].
  - apply IH; intros r I; [apply HA|apply HB]; right; exact I.
Qed.
Lemma mv_madd n A B v : square n A -> square n B -> veq (mv (madd A B) v) (vadd (mv A v) (mv B v)).
Proof.
  unfold square. intros [_ HA] [_ HB]. revert B HB. induction A as [|a A IH]; intros [|b B] HB; cbn [madd mv map vadd]; try constructor.
  - apply dot_vadd. rewrite (HA a), (HB b); [reflexivity|left; reflexivity|left; reflexivity].
  - apply IH; intros r I; [apply HA|apply HB]; right; exact I.
Qed.
Lemma mv_mscale c A v : veq (mv (mscale c A) v) (vscale c (mv A v)).
Proof. induction A; constructor; [apply dot_vscale|assumption]. Qed.
Lemma mv_outer s y v : veq (mv (outer s y) v) (vscale (dot y v) s).
Proof. induction s; constructor; [rewrite dot_vscale; ring|assumption]. Qed.
Lemma vm_length n r B : (forall b, In b B -> length b = n) -> length (vm n r B) = n.
Proof.
  revert B. induction r as [|a r IH]; intros [|b B] H; cbn [vm]; try apply repeat_length.
  assert (Lb : length b = n) by (apply H; left; reflexivity).
  assert (Lr : length (vm n r B) = n) by (apply IH; intros; apply H; right; assumption).
  rewrite vadd_length; rewrite vscale_length; congruence.
Qed.
Lemma dot_repeat0 n v : dot (repeat 0 n) v == 0.
Proof. apply dot_zero_r. intros x I. apply repeat_spec in I. rewrite I. reflexivity. Qed.
Lemma dot_vm n r B v : (forall b, In b B -> length b = n) -> dot (vm n r B) v == dot r (mv B v).
Proof.
  revert B. induction r as [|a r IH]; intros [|b B] H; cbn [vm mv map dot]; try apply dot_repeat0.
  assert (Lr : length (vm n r B) = n) by (apply vm_length; intros; apply H; right; assumption).
  rewrite dot_vadd by (rewrite vscale_length, Lr; apply H; left; reflexivity). rewrite dot_vscale, IH; [reflexivity|].
  intros; apply H; right; assumption.
Qed.
Lemma mv_mm n A B v : square n B -> veq (mv (mm n A B) v) (mv A (mv B v)).
Proof. intros [_ HB]. induction A; constructor; [apply dot_vm; exact HB|assumption]. Qed.

Lemma dot_indicator f i k n v : (forall j, f j = if Nat.eqb i j then 1 else 0) ->
  dot (map f (seq k n)) v == if (k <=? i)%nat && (i <? k + n)%nat then entry v (i - k) else 0.
Proof.
  intro Hf. revert k v. induction n as [|n IH]; intros k v.
  - cbn [seq map dot]. destruct (k <=? i)%nat eqn:E1; destruct (i <? k + 0)%nat eqn:E2; cbn [andb]; try reflexivity.
    apply Nat.leb_le in E1. apply Nat.ltb_lt in E2. lia.
  - cbn [seq map]. destruct v as [|y v].
    + cbn [dot]. destruct ((k <=? i)%nat && _); [unfold entry; destruct (i - k)%nat; reflexivity|reflexivity].
    + cbn [dot]. rewrite IH, Hf. destruct (Nat.eqb_spec i k) as [->|N].
      * rewrite Nat.leb_refl. replace (k <? k + S n)%nat with true by (symmetry; apply Nat.ltb_lt; lia). rewrite Nat.sub_diag.
        replace (S k <=? k)%nat with false by (symmetry; apply Nat.leb_gt; lia). cbn [andb entry nth]. ring.
      * destruct (k <=? i)%nat eqn:E1; [apply Nat.leb_le in E1|apply Nat.leb_gt in E1].
        -- replace (S k <=? i)%nat with true by (symmetry; apply Nat.leb_le; lia).
           replace (S k + n)%nat with (k + S n)%nat by lia. replace (i - k)%nat with (S (i - S k)) by lia.
           cbn [andb]. destruct (i <? k + S n)%nat; cbn [entry nth]; unfold entry; ring.
        -- replace (S k <=? i)%nat with false by (symmetry; apply Nat.leb_gt; lia). cbn [andb]. ring.
Qed.
Lemma veq_nth a b : length a = length b -> (forall i, (i < length a)%nat -> nth i a 0 == nth i b 0) -> veq a b.
Proof.
  revert b. induction a; intros [|y b] L H; cbn in L; try discriminate; constructor.
  - apply (H 0%nat). cbn. lia.
  - apply IHa; [lia|]. intros i Hi. apply (H (S i)). cbn. lia.
Qed.
Lemma nth_map0 {A : Type} (f : A -> Q) l i d : (i < length l)%nat -> nth i (map f l) 0 = f (nth i l d).
Proof. revert i. induction l; intros [|i] H; cbn in *; try lia; [reflexivity|apply IHl; lia]. Qed.
Lemma mv_ident n v : length v = n -> veq (mv (ident n) v) v.
Proof.
  intro L. apply veq_nth.
  - rewrite mv_length. unfold ident. rewrite map_length, seq_length. congruence.
  - rewrite mv_length. unfold ident at 1. rewrite map_length, seq_length. intros i Hi. unfold mv.
    rewrite (nth_map0 _ _ _ []) by (unfold ident; rewrite map_length, seq_length; exact Hi). unfold ident.
    rewrite (nth_indep _ [] (map (fun j => if Nat.eqb 0 j then 1 else 0) (seq 0 n))) by (rewrite map_length, seq_length; exact Hi).
    rewrite (map_nth (fun i => map (fun j => if Nat.eqb i j then 1 else 0) (seq 0 n))), seq_nth by exact Hi.
    rewrite (dot_indicator _ i) by (intro; reflexivity). rewrite Nat.sub_0_r. cbn [Nat.leb andb Nat.add].
    replace (i <? n)%nat with true by (symmetry; apply Nat.ltb_lt; exact Hi). reflexivity.
Qed.

Lemma square_ident n : square n (ident n).
Proof.
  unfold square, ident. split; [rewrite map_length; apply seq_length|]. intros r I. apply in_map_iff in I.
  destruct I as (i & <- & _). rewrite map_length. apply seq_length.
Qed.
Lemma square_outer n s y : length s = n -> length y = n -> square n (outer s y).
Proof.
  intros Ls Ly. unfold square, outer. split; [rewrite map_length; exact Ls|]. intros r I. apply in_map_iff in I.
  destruct I as (i & <- & _). rewrite vscale_length. exact Ly.
Qed.
Lemma square_mscale n c A : square n A -> square n (mscale c A).
Proof.
  intros [L H]. unfold square, mscale. split; [rewrite map_length; exact L|]. intros r I. apply in_map_iff in I.
  destruct I as (i & <- & I). rewrite vscale_length. apply H. exact I.
Qed.
Lemma rows_msub n A B : length A = length B -> (forall r, In r A -> length r = n) -> (forall r, In r B -> length r = n) ->
  length (msub A B) = length A /\ forall r, In r (msub A B) -> length r = n.
Proof.
  revert B. induction A as [|a A IH]; intros [|b B] L HA HB; cbn [length] in L; try discriminate; cbn [msub].
  - split; [reflexivity|intros r []].
  - destruct (IH B) as [E1 E2]; [lia|intros r I; apply HA; right; exact I|intros r I; apply HB; right; exact I|].
    split; [cbn [length]; lia|]. assert (La : length a = n) by (apply HA; left; reflexivity).
    assert (Lb : length b = n) by (apply HB; left; reflexivity).
    intros r [<- | I]; [rewrite vsub_length; congruence|apply E2; exact I].
Qed.
Lemma rows_madd n A B : length A = length B -> (forall r, In r A -> length r = n) -> (forall r, In r B -> length r = n) ->
  length (madd A B) = length A /\ forall r, In r (madd A B) -> length r = n.
Proof.
  revert B. induction A as [|a A IH]; intros [|b B] L HA HB; cbn [length] in L; try discriminate; cbn [madd].
  - split; [reflexivity|intros r []].
  - destruct (IH B) as [E1 E2]; [lia|intros r I; apply HA; right; exact I|intros r I; apply HB; right; exact I|].
    split; [cbn [length]; lia|]. assert (La : length a = n) by (apply HA; left; reflexivity).
    assert (Lb : length b = n) by (apply HB; left; reflexivity).
    intros r [<- | I]; [rewrite vadd_length; congruence|apply E2; exact I].
Qed.
Lemma square_msub n A B : square n A -> square n B -> square n (msub A B).
Proof. intros [LA HA] [LB HB]. destruct (rows_msub n A B) as [E1 E2]; [congruence|exact HA|exact HB|]. split; [congruence|exact E2]. Qed.
Lemma square_madd n A B : square n A -> square n B -> square n (madd A B).
Proof. intros [LA HA] [LB HB]. destruct (rows_madd n A B) as [E1 E2]; [congruence|exact HA|exact HB|]. split; [congruence|exact E2]. Qed.
Lemma square_mm n A B : square n A -> square n B -> square n (mm n A B).
Proof.
  intros [LA HA] [LB HB]. unfold square, mm. split; [rewrite map_length; exact LA|]. intros r I. apply in_map_iff in I.
  destruct I as (x & <- & _). apply vm_length. exact HB.
Qed.

(** * The forms of the specification *)
Lemma dot_ip n u v : length u = n -> length v = n -> dot u v == ip n u v.
Proof. intros Lu Lv. unfold ip. rewrite <- Lu. apply dot_inner. congruence. Qed.
Lemma inner_congr n a b a' b' : (forall i, (i < n)%nat -> a i == a' i) -> (forall i, (i < n)%nat -> b i == b' i) ->
  inner n a b == inner n a' b'.
Proof. intros Ha Hb. apply inner_ext. intros i Hi. rewrite Ha, Hb by exact Hi. reflexivity. Qed.
Lemma mv_entry n M v i : square n M -> length v = n -> (i < n)%nat -> entry (mv M v) i == inner n (mentry M i) (entry v).
Proof.
  intros [L H] Lv Hi. unfold entry at 1, mv. rewrite (nth_map0 _ _ _ []) by lia. unfold mentry.
  assert (Lr : length (nth i M []) = n) by (apply H, nth_In; lia). rewrite dot_inner by congruence. rewrite Lr. reflexivity.
Qed.
Lemma form_dot n M u v : square n M -> length u = n -> length v = n -> form n M u v == dot u (mv M v).
Proof.
  intros HM Lu Lv. rewrite (dot_ip n) by (rewrite ?mv_length; destruct HM; congruence). unfold form, ip.
  apply inner_congr; intros i Hi; [reflexivity|]. symmetry. apply mv_entry; assumption.
Qed.

(** * The update *)
Definition upd (n : nat) (B : mat) (s y : vec) : mat :=
  let rho := 1 / dot y s in
  madd (mm n (msub (ident n) (mscale rho (outer s y))) (mm n B (msub (ident n) (mscale rho (outer y s)))))
    (mscale rho (outer s s)).
Definition shear (c : Q) (s y v : vec) : vec := vsub v (vscale (c * dot s v) y).
Lemma shear_length c s y v : length y = length v -> length (shear c s y v) = length v.
Proof. intro H. apply vsub_length. rewrite vscale_length. congruence. Qed.

Section Update.
  Variables (n : nat) (B : mat) (s y : vec).
  Hypotheses (HB : square n B) (Ls : length s = n) (Ly : length y = n).
  Let rho := 1 / dot y s.
  Lemma square_shear a b : length a = n -> length b = n -> square n (msub (ident n) (mscale rho (outer a b))).
  Proof. intros. apply square_msub; [apply square_ident|apply square_mscale, square_outer; assumption]. Qed.
  Lemma mv_shear a b v : length a = n -> length b = n -> length v = n ->
    veq (mv (msub (ident n) (mscale rho (outer a b))) v) (shear rho b a v).
  Proof.
    intros La Lb Lv. eapply veq_trans.
    { apply (mv_msub n); [apply square_ident|apply square_mscale, square_outer; assumption]. }
    apply vsub_veq; [apply mv_ident; exact Lv|]. eapply veq_trans; [apply mv_mscale|].
    eapply veq_trans; [apply vscale_veq; [reflexivity|apply mv_outer]|]. unfold vscale. rewrite map_map.
    clear. induction a; constructor; [ring|assumption].
  Qed.
  Lemma square_upd : square n (upd n B s y).
  Proof.
    unfold upd. fold rho. apply square_madd; [|apply square_mscale, square_outer; assumption].
    apply square_mm; [apply square_shear; assumption|]. apply square_mm; [exact HB|apply square_shear; assumption].
  Qed.
  Lemma mv_upd v : length v = n ->
    veq (mv (upd n B s y) v) (vadd (shear rho y s (mv B (shear rho s y v))) (vscale (rho * dot s v) s)).
  Proof.
    intro Lv. unfold upd. fold rho. eapply veq_trans.
    { apply (mv_madd n); [|apply square_mscale, square_outer; assumption].
      apply square_mm; [apply square_shear; assumption|]. apply square_mm; [exact HB|apply square_shear; assumption]. }
    apply vadd_veq.
    - eapply veq_trans; [apply mv_mm; apply square_mm; [exact HB|apply square_shear; assumption]|].
      assert (E : veq (mv (mm n B (msub (ident n) (mscale rho (outer y s)))) v) (mv B (shear rho s y v))).
      { eapply veq_trans; [apply mv_mm, square_shear; assumption|]. apply mv_veq, mv_shear; assumption. }
      eapply veq_trans; [apply mv_veq; exact E|]. apply mv_shear; try assumption. rewrite mv_length. apply HB.
    - eapply veq_trans; [apply mv_mscale|].
      eapply veq_trans; [apply vscale_veq; [reflexivity|apply mv_outer]|]. unfold vscale. rewrite map_map.
      generalize (dot s v). intro d. generalize s as l. clear. intro l. induction l; constructor; [ring|assumption].
  Qed.
  Lemma dot_upd u v : length u = n -> length v = n ->
    dot u (mv (upd n B s y) v) == dot (shear rho s y u) (mv B (shear rho s y v)) + rho * dot s u * dot s v.
  Proof.
    intros Lu Lv. rewrite (dot_veq u u _ _ (veq_refl u) (mv_upd v Lv)).
    assert (Lw : length (mv B (shear rho s y v)) = n) by (rewrite mv_length; apply HB).
    set (w := mv B (shear rho s y v)) in *.
    rewrite dot_vadd_r by (rewrite shear_length, vscale_length; congruence). unfold shear at 1 2.
    rewrite dot_vsub_r by (rewrite vscale_length; congruence). rewrite dot_vsub by (rewrite vscale_length; congruence).
    rewrite !dot_vscale_r, !dot_vscale, (dot_comm u s). ring.
  Qed.
  Hypothesis curv : ~ dot y s == 0.
  Lemma upd_secant : veq (mv (upd n B s y) y) s.
  Proof.
    eapply veq_trans; [apply mv_upd; exact Ly|].
    assert (E : rho * dot s y == 1) by (unfold rho; rewrite (dot_comm s y); field; exact curv).
    assert (Z : forall x, In x (shear rho s y y) -> x == 0).
    { unfold shear. generalize (rho * dot s y) E. clear. intros c E. induction y; cbn [vscale map vsub In]; [tauto|].
      intros x [<- | I]; [rewrite E; ring|apply IHv; exact I]. }
    assert (ZB : forall x, In x (mv B (shear rho s y y)) -> x == 0).
    { intros x I. apply in_map_iff in I. destruct I as (r & <- & _). rewrite dot_comm. apply dot_zero_r. exact Z. }
    set (w := mv B (shear rho s y y)) in *. assert (Lw : length w = n) by (unfold w; rewrite mv_length; apply HB).
    assert (D : rho * dot y w == 0) by (rewrite dot_comm, (dot_zero_r w y ZB); ring). unfold shear.
    revert D E. generalize (rho * dot y w) (rho * dot s y). intros c d D E. rewrite <- Ls in Lw. clearbody w. clear - ZB Lw D E.
    revert w ZB Lw. induction s as [|a l IH]; intros [|b w] Z L; cbn [length] in L; try discriminate; constructor.
    - rewrite (Z b) by (left; reflexivity). rewrite D, E. ring.
    - apply IH; [intros x I; apply Z; right; exact I|lia].
  Qed.
End Update.
