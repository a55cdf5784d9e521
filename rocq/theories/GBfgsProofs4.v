(** Runs of the BFGS optimizer. *)
From Coq Require Import Bool List Arith QArith Qabs Lia Lqa Setoid.
From Verif Require Import AcseModel AcseSpec AcseProofs2 BfgsModel BfgsSpec BfgsProofs BfgsProofs2 GBfgsModel GBfgsSpec GBfgsProofs
  GBfgsProofs2 GBfgsProofs3.
Import ListNotations.
Local Open Scope Q_scope.

Section Runs.
  Variables (f : vec -> Q) (g : vec -> vec) (n : nat).
  Hypothesis Lg : forall v, length v = n -> length (g v) = n.

  Definition fine (a : gb) : Prop :=
    length (gb_x a) = n /\ length (gb_g a) = n /\ length (gb_s a) = n /\ square n (gb_Bi a) /\ symmetric n (gb_Bi a) /\
    positive n (gb_Bi a) /\ gb_g a = g (gb_x a) /\ gb_best a = f (gb_x a).
  (** A step of [gb_move] from [x], with gradient [g0] and reference value [fz]. *)
  Definition moved (x g0 : vec) (B Bi : mat) (fz : Q) (b : gb) : Prop :=
    (exists alp, 0 < alp < 5 /\ gb_s b = vscale alp (vopp (mv Bi g0))) /\
    gb_x b = vadd x (gb_s b) /\
    gb_B b = gb_hess n B (gb_s b) (vsub (gb_g b) g0) /\ gb_Bi b = gb_inv n Bi (gb_s b) (vsub (gb_g b) g0) /\
    gb_best b <= fz + (6 # 10) * dot g0 (gb_s b) /\ Qabs (dot (gb_g b) (gb_s b)) <= (9 # 10) * - dot g0 (gb_s b) /\
    (nonzero n g0 -> dot g0 (gb_s b) < 0) /\ (1 # 10) * - dot g0 (gb_s b) <= dot (vsub (gb_g b) g0) (gb_s b) /\
    dot g0 (gb_s b) <= 0.

  Lemma pos_semi B v : square n B -> positive n B -> length v = n -> 0 <= dot v (mv B v).
  Proof.
    intros HB HP Lv. destruct (Qlt_le_dec 0 (dot v v)) as [P|P].
    - assert (H := HP v Lv (pos_nonzero n v Lv P)). rewrite form_dot in H by assumption. lra.
    - assert (Z : dot v v == 0) by (assert (N := dot_nonneg v); lra). rewrite (dot_zero_r v _ (dot_zero v Z)). lra.
  Qed.

  Lemma move_ok fuel x g0 B Bi fz stuck ind ns b :
    length x = n -> length g0 = n -> square n Bi -> symmetric n Bi -> positive n Bi ->
    gb_move f g fuel x g0 B Bi fz stuck ind ns = Some (Some b) ->
    moved x g0 B Bi fz b /\ fine b /\ gb_nstuck b = ns /\ gb_stuck b = stuck /\ gb_ind b = ind.
  Proof.
    intros Lx L0 HB HS HP. unfold gb_move. set (p := vopp (mv Bi g0)).
    assert (Lp : length p = n) by (unfold p; rewrite vopp_length, mv_length; apply HB).
    destruct (gb_line f g x p fz (dot g0 p) fuel) as [[[alp v]|]|] eqn:E; try discriminate. intro H.
    assert (SI : forall u w : gb, Some (Some u) = Some (Some w) -> u = w) by congruence. apply SI in H. clear SI. subst b.
    destruct (line_ok _ _ _ _ _ _ _ _ _ E) as (Ha & Hv & Hd & Hc). unfold phi, dphi, gb_c1, gb_c2 in *.
    set (s := vscale alp p) in *. set (x1 := vadd x s) in *.
    assert (Ls : length s = n) by (unfold s; rewrite vscale_length; exact Lp).
    assert (L1 : length x1 = n) by (unfold x1; rewrite vadd_length; congruence).
    assert (Lg1 := Lg x1 L1). assert (Ly : length (vsub (g x1) g0) = n) by (rewrite vsub_length; congruence).
    assert (GP : dot g0 p == - dot g0 (mv Bi g0)) by (unfold p; apply dot_vopp_r).
    assert (PS := pos_semi Bi g0 HB HP L0).
    assert (DS : dot g0 s == alp * dot g0 p) by (unfold s; apply dot_vscale_r).
    assert (DG : dot (g x1) s == alp * dot (g x1) p) by (unfold s; apply dot_vscale_r).
    assert (N0 : dot g0 s <= 0) by (rewrite DS, GP; nra).
    assert (CV : Qabs (dot (g x1) s) <= (9 # 10) * - dot g0 s).
    { rewrite DG, DS, Qabs_Qmult, (Qabs_pos alp) by lra. nra. }
    assert (YS : (1 # 10) * - dot g0 s <= dot (vsub (g x1) g0) s).
    { rewrite dot_vsub by congruence. apply Qabs_Qle_condition in CV. lra. }
    rewrite Lx. destruct (inv_facts n Bi s (vsub (g x1) g0) HB Ls Ly ltac:(lra)) as (I1 & I2 & I3).
    split; [|split; [|split; [reflexivity|split; reflexivity]]].
    - unfold moved. cbn [gb_s gb_x gb_B gb_Bi gb_g gb_best]. split; [exists alp; split; [exact Ha|reflexivity]|].
      split; [reflexivity|]. split; [reflexivity|]. split; [reflexivity|]. split; [rewrite DS, <- Hv; lra|].
      split; [exact CV|]. split; [|split; [exact YS|exact N0]].
      intro NZ. assert (P := HP g0 L0 NZ). rewrite form_dot in P by assumption. rewrite DS, GP. nra.
    - unfold fine. cbn [gb_s gb_x gb_B gb_Bi gb_g gb_best]. repeat (split; [solve [auto]|]). split; reflexivity.
  Qed.

  Lemma ident_symmetric : symmetric n (ident n).
  Proof.
    intros u v Lu Lv. rewrite !form_dot by (assumption || apply square_ident). rewrite !(ident_scaled n) by assumption. apply dot_comm.
  Qed.
  Lemma ident_positive : positive n (ident n).
  Proof.
    intros v Lv Nv. rewrite form_dot by (assumption || apply square_ident). rewrite (ident_scaled n) by assumption.
    apply (nonzero_pos n); assumption.
  Qed.
  Lemma init_ok fuel prior start a : length start = n -> gb_init f g fuel prior start = Some (Some a) ->
    moved start (g start) (ident n) (ident n) (match prior with Some b => b | None => f start end) a /\ fine a /\ gb_nstuck a = 0%nat.
  Proof.
    intros L H. unfold gb_init in H. rewrite L in H.
    apply move_ok in H; [|exact L|apply Lg; exact L|apply square_ident|apply ident_symmetric|apply ident_positive].
    tauto.
  Qed.
  (** the point after [check_stuck] *)
  Definition from (a b : gb) : vec :=
    match gb_nstuck b with O => gb_x a | _ => vsub (gb_x a) (vscale (1 # 2) (gb_s a)) end.
  Lemma step_ok fuel a b : fine a -> gb_step f g fuel a = Some (Some b) ->
    moved (from a b) (gb_g a) (gb_B a) (gb_Bi a) (gb_best a) b /\ fine b.
  Proof.
    intros (L1 & L2 & L3 & S1 & S2 & S3 & _) H. unfold gb_step in H.
    set (st := set_row (gb_ind a) (gb_x a) (gb_stuck a)) in H.
    apply move_ok in H; try assumption.
    2:{ destruct (is_stuck st); [rewrite vsub_length; rewrite ?vscale_length; congruence|exact L1]. }
    destruct H as (M & F & N & _). split; [|exact F]. unfold from. rewrite N. destruct (is_stuck st); exact M.
  Qed.
  Lemma steps_ok fuel k : forall a l, fine a -> gb_steps f g fuel k a = Some (Some l) ->
    (exists l', l = a :: l') /\ length l = S k /\ (forall b, In b l -> fine b) /\
    (forall b c, follows l b c -> moved (from b c) (gb_g b) (gb_B b) (gb_Bi b) (gb_best b) c).
  Proof.
    induction k as [|k IH]; intros a l F; cbn [gb_steps].
    - intro H. assert (SI : forall u w : list gb, Some (Some u) = Some (Some w) -> u = w) by congruence. apply SI in H. subst l.
      split; [exists []; reflexivity|]. split; [reflexivity|]. split; [intros b [<- |[]]; exact F|].
      intros b c (l1 & l2 & E). destruct l1 as [|? [|? ?]]; discriminate.
    - destruct (gb_step f g fuel a) as [[b|]|] eqn:E; try discriminate. destruct (step_ok _ _ _ F E) as [M Fb].
      destruct (gb_steps f g fuel k b) as [[l'|]|] eqn:E'; try discriminate. intro H.
      assert (SI : forall u w : list gb, Some (Some u) = Some (Some w) -> u = w) by congruence. apply SI in H. subst l.
      destruct (IH _ _ Fb E') as ((l'' & ->) & IL & I1 & I2). split; [exists (b :: l''); reflexivity|].
      split; [cbn [length] in *; congruence|].
      split; [intros c [<- |I]; [exact F|apply I1; exact I]|].
      intros c d (l1 & l2 & EQ). destruct l1 as [|z l1]; cbn [app] in EQ.
      + injection EQ as -> -> _. exact M.
      + injection EQ as _ EQ. apply I2. exists l1, l2. exact EQ.
  Qed.
  Lemma run_ok fuel k prior start l : length start = n -> gb_run f g fuel k prior start = Some (Some l) ->
    (exists a l', l = a :: l' /\
      moved start (g start) (ident n) (ident n) (match prior with Some b => b | None => f start end) a) /\
    length l = S k /\ (forall b, In b l -> fine b) /\
    (forall b c, follows l b c -> moved (from b c) (gb_g b) (gb_B b) (gb_Bi b) (gb_best b) c).
  Proof.
    intros L. unfold gb_run. destruct (gb_init f g fuel prior start) as [[a|]|] eqn:E; try discriminate. intro H.
    destruct (init_ok _ _ _ _ L E) as (M & F & _). destruct (steps_ok _ _ _ _ F H) as ((l' & ->) & LL & I1 & I2).
    split; [exists a, l'; split; [reflexivity|exact M]|]. split; [exact LL|]. split; assumption.
  Qed.
End Runs.

Lemma follows_cons {A : Type} (x : A) l a b : follows l a b -> follows (x :: l) a b.
Proof. intros (l1 & l2 & ->). exists (x :: l1), l2. reflexivity. Qed.
Lemma follows_in {A : Type} (l : list A) a b : follows l a b -> In a l /\ In b l.
Proof. intros (l1 & l2 & ->). split; apply in_or_app; right; cbn; tauto. Qed.
