(** The Hessian kept beside its inverse by the BFGS optimizer. *)
From Coq Require Import Bool List Arith QArith Qabs Lia Lqa Setoid.
From Verif Require Import AcseModel AcseSpec AcseProofs2 BfgsModel BfgsSpec BfgsProofs BfgsProofs2 GBfgsModel GBfgsProofs2.
Import ListNotations.
Local Open Scope Q_scope.

Lemma entry_vadd a b i : length a = length b -> entry (vadd a b) i == entry a i + entry b i.
Proof.
  unfold entry. revert b i. induction a; intros [|y b] [|i] L; cbn [length] in L; try discriminate; cbn [vadd nth]; try ring.
  apply IHa. lia.
Qed.
Lemma veq_entries n a b : length a = n -> length b = n -> (forall i, (i < n)%nat -> entry a i == entry b i) -> veq a b.
Proof. intros La Lb H. apply veq_nth; [congruence|]. intros i Hi. apply H. lia. Qed.

Lemma mv_vscale M c v : veq (mv M (vscale c v)) (vscale c (mv M v)).
Proof. induction M as [|a l IH]; cbn [mv vscale map]; constructor; [apply dot_vscale_r|exact IH]. Qed.
Lemma mv_vadd M a b : length a = length b -> veq (mv M (vadd a b)) (vadd (mv M a) (mv M b)).
Proof. intro L. induction M as [|r l IH]; cbn [mv vadd map]; constructor; [apply dot_vadd_r; exact L|exact IH]. Qed.

(** sums exchanged *)
Lemma inner_plus n a b c : inner n a (fun i => b i + c i) == inner n a b + inner n a c.
Proof. induction n as [|n IH]; cbn [inner]; [ring|]. rewrite IH. ring. Qed.
Lemma inner_scale n a b k : inner n a (fun i => b i * k) == inner n a b * k.
Proof. induction n as [|n IH]; cbn [inner]; [ring|]. rewrite IH. ring. Qed.
Lemma inner_comm n a b : inner n a b == inner n b a.
Proof. induction n as [|n IH]; cbn [inner]; [reflexivity|]. rewrite IH. ring. Qed.
Lemma inner_zero n a b : (forall i, (i < n)%nat -> b i == 0) -> inner n a b == 0.
Proof. intro H. induction n as [|n IH]; cbn [inner]; [reflexivity|]. rewrite IH, (H n) by (intros; try apply H; lia). ring. Qed.
Lemma inner_swap n m (M : nat -> nat -> Q) a b :
  inner n a (fun i => inner m (M i) b) == inner m b (fun j => inner n (fun i => M i j) a).
Proof.
  induction m as [|m IH]; cbn [inner].
  - apply inner_zero. reflexivity.
  - rewrite (inner_plus n a (fun i => inner m (M i) b) (fun i => M i m * b m)), IH, inner_scale.
    rewrite (inner_comm n a). ring.
Qed.

(** [B.T] *)
Definition transp (n : nat) (B : mat) : mat := map (fun j => map (fun r => nth j r 0) B) (seq 0 n).
Lemma square_transp n B : square n B -> square n (transp n B).
Proof.
  intros [L _]. unfold transp. split; [rewrite map_length, seq_length; reflexivity|]. intros r I. apply in_map_iff in I.
  destruct I as (j & <- & _). rewrite map_length. exact L.
Qed.
Lemma transp_entry n B i j : square n B -> (i < n)%nat -> (j < n)%nat -> mentry (transp n B) j i == mentry B i j.
Proof.
  intros [L _] Hi Hj. unfold mentry, entry, transp.
  rewrite (nth_indep _ [] ((fun j => map (fun r => nth j r 0) B) 0%nat)) by (rewrite map_length, seq_length; exact Hj).
  rewrite (map_nth (fun j => map (fun r => nth j r 0) B)), seq_nth by exact Hj. cbn [Nat.add].
  rewrite (nth_map0 _ _ _ []) by lia. reflexivity.
Qed.
Lemma dot_transp n B s v : square n B -> length s = n -> length v = n -> dot s (mv (transp n B) v) == dot (mv B s) v.
Proof.
  intros HB Ls Lv. assert (HT := square_transp n B HB).
  rewrite !(dot_ip n) by (rewrite ?mv_length; first [assumption | apply HT | apply HB]). unfold ip.
  rewrite (inner_congr n (entry s) (entry (mv (transp n B) v)) (entry s) (fun i => inner n (fun j => mentry B j i) (entry v))).
  2: reflexivity.
  2:{ intros i Hi. rewrite (mv_entry n) by assumption. apply inner_congr; [|reflexivity].
      intros j Hj. apply transp_entry; assumption. }
  rewrite (inner_swap n n (fun i j => mentry B j i)). rewrite inner_comm. apply inner_congr; [|reflexivity].
  intros i Hi. rewrite (mv_entry n) by assumption. reflexivity.
Qed.

Section Hess.
  Variables (n : nat) (B : mat) (s y : vec).
  Hypotheses (HB : square n B) (Ls : length s = n) (Ly : length y = n).
  Let r := 1 / guard (dot y s).
  Let q := 1 / guard (dot s (mv B s)).
  Let Ba := mscale r (outer y y).
  Let Bb := mscale q (mm n B (mm n (outer s s) (transp n B))).
  Lemma hess_unfold : gb_hess n B s y = msub (madd B Ba) Bb.
  Proof. reflexivity. Qed.
  Lemma square_Ba : square n Ba. Proof. apply square_mscale, square_outer; assumption. Qed.
  Lemma square_Bb : square n Bb.
  Proof.
    apply square_mscale, square_mm; [exact HB|]. apply square_mm; [apply square_outer; assumption|apply square_transp; exact HB].
  Qed.
  Lemma square_hess : square n (gb_hess n B s y).
  Proof. rewrite hess_unfold. apply square_msub; [apply square_madd; [exact HB|exact square_Ba]|exact square_Bb]. Qed.
  Lemma hess_mv v i : length v = n -> (i < n)%nat ->
    entry (mv (gb_hess n B s y) v) i ==
      entry (mv B v) i + r * dot y v * entry y i - q * dot (mv B s) v * entry (mv B s) i.
  Proof.
    intros Lv Hi. assert (LB : length B = n) by apply HB.
    assert (SO : square n (outer s s)) by (apply square_outer; assumption).
    assert (ST := square_transp n B HB).
    assert (E : veq (mv (gb_hess n B s y) v)
      (vsub (vadd (mv B v) (vscale r (vscale (dot y v) y))) (vscale q (vscale (dot (mv B s) v) (mv B s))))).
    { rewrite hess_unfold. eapply veq_trans.
      { apply (mv_msub n); [apply square_madd; [exact HB|exact square_Ba]|exact square_Bb]. }
      apply vsub_veq.
      - eapply veq_trans; [apply (mv_madd n); [exact HB|exact square_Ba]|]. apply vadd_veq; [apply veq_refl|].
        unfold Ba. eapply veq_trans; [apply mv_mscale|]. apply vscale_veq; [reflexivity|apply mv_outer].
      - unfold Bb. eapply veq_trans; [apply mv_mscale|]. apply vscale_veq; [reflexivity|].
        eapply veq_trans; [apply mv_mm; apply square_mm; assumption|].
        assert (E1 : veq (mv (mm n (outer s s) (transp n B)) v) (vscale (dot (mv B s) v) s)).
        { eapply veq_trans; [apply mv_mm; exact ST|]. eapply veq_trans; [apply mv_outer|].
          apply vscale_veq; [apply dot_transp; assumption|apply veq_refl]. }
        eapply veq_trans; [apply mv_veq; exact E1|].
        apply mv_vscale. }
    rewrite (veq_entry _ _ i E).
    assert (L1 : length (mv B v) = n) by (rewrite mv_length; exact LB).
    assert (L2 : length (mv B s) = n) by (rewrite mv_length; exact LB).
    rewrite entry_vsub by (rewrite vadd_length; rewrite ?vscale_length; congruence).
    rewrite entry_vadd by (rewrite ?vscale_length; congruence). rewrite !entry_vscale. ring.
  Qed.
  Hypotheses (C1 : tiny <= dot y s) (C2 : tiny <= dot s (mv B s)).
  Lemma r_eq : r == 1 / dot y s.
  Proof. unfold r. rewrite guard_id; [reflexivity|]. assert (T := tiny_pos). rewrite Qabs_pos; lra. Qed.
  Lemma q_eq : q == 1 / dot s (mv B s).
  Proof. unfold q. rewrite guard_id; [reflexivity|]. assert (T := tiny_pos). rewrite Qabs_pos; lra. Qed.
  Lemma hess_secant i : (i < n)%nat -> entry (mv (gb_hess n B s y) s) i == entry y i.
  Proof.
    intro Hi. rewrite hess_mv by assumption. rewrite r_eq, q_eq, (dot_comm (mv B s) s). assert (T := tiny_pos).
    field. split; lra.
  Qed.
  (** the inverse relation is kept *)
  Variable Bi : mat.
  Hypotheses (HBi : square n Bi) (HI : forall v, length v = n -> veq (mv B (mv Bi v)) v)
    (HS : symmetric n B).
  Lemma hess_inverse v i : length v = n -> (i < n)%nat -> entry (mv (gb_hess n B s y) (mv (gb_inv n Bi s y) v)) i == entry v i.
  Proof.
    intros Lv Hi. assert (T := tiny_pos). rewrite gb_inv_updr. fold r. set (M := updr n Bi s y r).
    assert (SM : square n M) by (apply r_square; assumption).
    set (u := shear r s y v). assert (Lu : length u = n) by (unfold u; rewrite shear_length; congruence).
    set (w := mv Bi u). assert (Lw : length w = n) by (unfold w; rewrite mv_length; apply HBi).
    set (c := r * dot s v - r * dot y w).
    assert (Z : veq (mv M v) (vadd w (vscale c s))).
    { apply (veq_entries n); [rewrite mv_length; apply SM|rewrite vadd_length; rewrite ?vscale_length; congruence|].
      intros j Hj. assert (E := r_mv n Bi s y r HBi Ls Ly v Lv). fold M in E. rewrite (veq_entry _ _ j E). fold u w.
      assert (Lsh : length (shear r y s w) = n) by (rewrite shear_length; congruence).
      rewrite entry_vadd by (rewrite ?vscale_length; congruence). unfold shear.
      rewrite entry_vsub by (rewrite ?vscale_length; congruence).
      rewrite entry_vadd by (rewrite ?vscale_length; congruence). rewrite !entry_vscale. unfold c. ring. }
    assert (Lz : length (mv M v) = n) by (rewrite mv_length; apply SM).
    rewrite hess_mv by assumption.
    assert (BZ : forall j, (j < n)%nat -> entry (mv B (mv M v)) j == entry u j + c * entry (mv B s) j).
    { intros j Hj. rewrite (veq_entry _ _ j (mv_veq B _ _ Z)).
      assert (E : veq (mv B (vadd w (vscale c s))) (vadd (mv B w) (vscale c (mv B s)))).
      { eapply veq_trans; [apply mv_vadd; rewrite vscale_length; congruence|]. apply vadd_veq; [apply veq_refl|apply mv_vscale]. }
      rewrite (veq_entry _ _ j E).
      rewrite entry_vadd by (rewrite vscale_length, !mv_length; reflexivity). rewrite entry_vscale.
      assert (EW := veq_entry _ _ j (HI u Lu)). fold w in EW. rewrite EW. reflexivity. }
    assert (RS : r * dot y s == 1) by (rewrite r_eq; field; lra).
    assert (Y : dot y (mv M v) == dot s v).
    { rewrite (dot_veq y y _ _ (veq_refl y) Z), dot_vadd_r by (rewrite vscale_length; congruence). rewrite dot_vscale_r.
      unfold c. assert (A : (r * dot s v - r * dot y w) * dot y s == (r * dot y s) * (dot s v - dot y w)) by ring.
      rewrite A, RS. ring. }
    assert (SU : dot s u == 0).
    { unfold u, shear. rewrite dot_vsub_r by (rewrite vscale_length; congruence). rewrite dot_vscale_r, (dot_comm s y).
      assert (A : r * dot s v * dot y s == (r * dot y s) * dot s v) by ring. rewrite A, RS. ring. }
    assert (D : dot (mv B s) (mv M v) == c * dot s (mv B s)).
    { rewrite (dot_comm (mv B s)). assert (F := HS (mv M v) s Lz Ls). rewrite !form_dot in F by assumption. rewrite F.
      assert (LB : length B = n) by apply HB.
      rewrite (dot_veq s s _ (vadd u (vscale c (mv B s)))); [|apply veq_refl|].
      - rewrite dot_vadd_r by (rewrite vscale_length, mv_length; congruence). rewrite dot_vscale_r, SU. ring.
      - apply (veq_entries n); [rewrite mv_length; exact LB|rewrite vadd_length; rewrite ?vscale_length, ?mv_length; congruence|].
        intros j Hj. rewrite BZ by exact Hj. rewrite entry_vadd by (rewrite vscale_length, mv_length; congruence).
        rewrite entry_vscale. reflexivity. }
    rewrite BZ by exact Hi. rewrite Y, D, q_eq. unfold u, shear.
    rewrite entry_vsub by (rewrite vscale_length; congruence). rewrite entry_vscale.
    field. lra.
  Qed.
  Lemma hess_symmetric : symmetric n (gb_hess n B s y).
  Proof.
    intros u v Lu Lv. assert (SH := square_hess). rewrite !form_dot by assumption.
    assert (A : forall u v, length u = n -> length v = n -> dot u (mv (gb_hess n B s y) v) ==
      dot u (mv B v) + r * dot y v * dot y u - q * dot (mv B s) v * dot (mv B s) u).
    { clear u v Lu Lv. intros u v Lu Lv. assert (LB : length B = n) by apply HB.
      rewrite (dot_veq u u _ (vsub (vadd (mv B v) (vscale (r * dot y v) y)) (vscale (q * dot (mv B s) v) (mv B s))) (veq_refl u)).
      - rewrite dot_vsub_r by (rewrite vadd_length; rewrite ?vscale_length, ?mv_length; congruence).
        rewrite dot_vadd_r by (rewrite vscale_length, mv_length; congruence). rewrite !dot_vscale_r.
        rewrite (dot_comm u y), (dot_comm u (mv B s)). reflexivity.
      - apply (veq_entries n); [rewrite mv_length; apply SH|rewrite vsub_length; rewrite vadd_length; rewrite ?vscale_length, ?mv_length; congruence|].
        intros i Hi. rewrite hess_mv by assumption.
        rewrite entry_vsub by (rewrite vadd_length; rewrite ?vscale_length, ?mv_length; congruence).
        rewrite entry_vadd by (rewrite ?vscale_length, ?mv_length; congruence). rewrite !entry_vscale. ring. }
    rewrite !A by assumption. assert (F := HS u v Lu Lv). rewrite !form_dot in F by assumption. rewrite F. ring.
  Qed.
End Hess.
