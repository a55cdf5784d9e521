(** Two orbitals, one electron of each spin, and the coupling of the pairs (0,2) and (1,3): data of examples. *)
From Coq Require Import Bool List Arith ZArith QArith Qcanon Reals Qreals Lra Lia.
From Verif Require Import Coeff ComplexR MatSpec MatLemmas OpSpec FockSpec CircuitSpec CircuitModel OperatorModel FermiModel InvSpec HamModel HamSpec TransformModel PauliModel PlanSpec QuantProofs2 RdmSpec RdmFock ResSpec ResModel ResProofs
  EulerSpec EulerModel EulerProofs2 EulerProofs3 EulerProofs4 EulerExample LayerSpec LayerProofs4 EmbProofs InvProofs.
Import ListNotations.
Local Open Scope nat_scope.
Add Ring CxRingLE : (c_ring Cx).

Definition sw (p : nat) : nat := match p with 1 => 2 | 2 => 1 | _ => p end.
Definition Kyq (p q s t : nat) : GaussQ := Kq (sw p) (sw q) (sw s) (sw t).
Definition Ky (p q s t : nat) : Cx := emb (Kyq p q s t).
Definition dy : bits := [true; false; true; false].
Definition valy (i k j l : nat) : GaussQ := comm 4 (excitation i k j l) (two_body 4 Kyq) dy dy.
Lemma Ky_sym : real_symmetric Ky.
Proof. destruct Kx_sym as [A [B C]]. repeat split; intros p q s t; [exact (A _ _ _ _)|exact (B _ _ _ _)|exact (C _ _ _ _)]. Qed.
Lemma Ky_spin p q s t : up_count 2 [p; q] <> up_count 2 [s; t] -> Ky p q s t = c0.
Proof.
  intro H. unfold Ky, Kyq. destruct p as [|[|[|[|p]]]], q as [|[|[|[|q]]]], s as [|[|[|[|s]]]], t as [|[|[|[|t]]]]; cbn [sw Kq]; try apply emb_0; exfalso; apply H; reflexivity.
Qed.
Lemma Ky_size : size4 4 Ky = 4%R.
Proof.
  assert (E1 : fst (emb (gz 1)) = 1%R) by (cbn; unfold Q2R; cbn; lra). assert (E0 : fst (emb (gz 0)) = 0%R) by (cbn; unfold Q2R; cbn; lra).
  unfold size4, rsum, Ky, Kyq. cbn [seq fold_right Kq sw]. cbn [Cx] in E1, E0 |- *. rewrite E1, E0, Rabs_R0, Rabs_R1. lra.
Qed.
Lemma tabley_true : all4 (fun i k j l => test (valy i k j l)) = true. Proof. vm_compute. reflexivity. Qed.
Lemma valy_any i k j l : i < 4 -> k < 4 -> j < 4 -> l < 4 -> valy i k j l = gz 0 \/ valy i k j l = gz 2 \/ valy i k j l = gz (-2).
Proof.
  intros Hi Hk Hj Hl. assert (T := all4_spec _ tabley_true i k j l Hi Hk Hj Hl). cbv beta in T. revert T. generalize (valy i k j l). intros x T. unfold test in T.
  apply orb_true_iff in T. destruct T as [T|T]; [apply orb_true_iff in T; destruct T as [T|T]|]; apply (ceqb_spec GaussQ) in T; auto.
Qed.
Definition keepq (x : GaussQ) : bool := negb (ceqb x c0).
Definition oq : list (fstr * GaussQ) := [([Some Cre; Some Ann; Some Cre; Some Ann], gz (-8)); ([Some Ann; Some Cre; Some Ann; Some Cre], gz 8)].
Fixpoint same (l m : list (fstr * GaussQ)) : bool :=
  match l, m with
  | [], [] => true
  | x :: l', y :: m' => fstr_eqb (fst x) (fst y) && ceqb (snd x) (snd y) && same l' m'
  | _, _ => false
  end.
Definition some_same (x : option (list (fstr * GaussQ))) m : bool := match x with Some l => same l m | None => false end.
Lemma some_same_spec x m : some_same x m = true -> x = Some m.
Proof.
  destruct x as [l|]; [|discriminate]. cbn [some_same]. intro H. f_equal. revert m H. induction l as [|[s a] l IH]; intros [|[s' a'] m] H; try discriminate H; [reflexivity|].
  cbn [same fst snd] in H. apply andb_true_iff in H. destruct H as [H H3]. apply andb_true_iff in H. destruct H as [H1 H2]. apply fstr_eqb_spec' in H1. apply (ceqb_spec GaussQ) in H2. subst s' a'. f_equal. now apply IH.
Qed.
Lemma oq_some : residual_operator keepq 4 4 valy = Some oq.
Proof. apply some_same_spec. vm_compute. reflexivity. Qed.
Lemma oq_coeffs : forallb (fun e => ceqb (snd e) (gz 8) || ceqb (snd e) (gz (-8))) oq && negb (Nat.eqb (length oq) 0) = true.
Proof. vm_compute. reflexivity. Qed.
Definition epsq : GaussQ := (Q2Qc (-1 # 65536), 0%Qc).
Definition Lq : list (fstr * GaussQ) := map (fun e => (fst e, cmul (snd e) epsq)) oq.
Lemma Lq_regular : regular_b Lq = true. Proof. vm_compute. reflexivity. Qed.
Lemma Lq_generator : generator_b 4 (fun _ => true) Lq && generator_b 4 (fun k => k <? 2) Lq = true. Proof. vm_compute. reflexivity. Qed.
Section Ex.
  Variables (psi : bits -> Cx) (z : Z).
  Hypothesis F : forall x, length x = 4 -> psi x = if bits_eqb x dy then ipow z else c0.
  Lemma residual_y i k j l : i < 4 -> k < 4 -> j < 4 -> l < 4 -> residual_of 4 Ky psi i k j l = emb (valy i k j l).
  Proof.
    intros Hi Hk Hj Hl. transitivity ((fst (emb (valy i k j l)), 0%R) : Cx).
    - unfold valy. rewrite emb_comm. unfold residual_of. rewrite re_expect_fst, (expect_det 4 _ psi dy z eq_refl F). reflexivity.
    - destruct (valy_any i k j l Hi Hk Hj Hl) as [-> |[-> | ->]]; rewrite emb_gz; reflexivity.
  Qed.
  Lemma keep_y e : In e (nonzeros 4 valy) -> keep_ex (emb (snd e)) = keepq (snd e).
  Proof.
    intro I. destruct (nonzeros_In GaussQ 4 valy e I) as [i [k [j [l [Hi [Hk [Hj [Hl [-> NZ]]]]]]]]]. cbn [snd]. unfold keepq. rewrite NZ. cbn [negb].
    clear I. pose proof (valy_any i k j l Hi Hk Hj Hl) as C. revert C NZ. generalize (valy i k j l). intros x C NZ.
    assert (P : (/ 10 ^ 10 <= 2)%R). { apply Rle_trans with 1%R; [|lra]. rewrite <- Rinv_1. apply Rinv_le_contravar; [lra|]. cbn [pow]. lra. }
    unfold keep_ex, cabs. destruct C as [C|[C|C]]; subst x; [exfalso; apply Bool.not_true_iff_false in NZ; apply NZ; apply (ceqb_spec GaussQ); reflexivity| |]; rewrite emb_gz; cbn [fst snd]; destruct (Rle_dec _ _) as [_|n]; try reflexivity; exfalso; apply n.
    - replace (2 * 2 + 0 * 0)%R with (Rsqr 2) by (unfold Rsqr; ring). rewrite sqrt_Rsqr by lra. exact P.
    - replace (-2 * -2 + 0 * 0)%R with (Rsqr 2) by (unfold Rsqr; ring). rewrite sqrt_Rsqr by lra. exact P.
  Qed.
  Lemma operator_y : residual_operator keep_ex 4 4 (residual_of 4 Ky psi) = Some (map em oq).
  Proof.
    rewrite (residual_operator_ext Cx keep_ex 4 4 _ (fun i k j l => emb (valy i k j l)) residual_y).
    rewrite (emb_residual_operator keep_ex keepq 4 4 valy keep_y), oq_some. reflexivity.
  Qed.
End Ex.
Lemma cabs8 (e : fstr * GaussQ) : In e oq -> cabs (snd (em e)) = 8%R.
Proof.
  intro I. pose proof oq_coeffs as H. apply andb_true_iff in H. destruct H as [H _]. rewrite forallb_forall in H. specialize (H e I). apply orb_true_iff in H. cbn [em snd]. unfold cabs.
  destruct H as [H|H]; apply (ceqb_spec GaussQ) in H; rewrite H, emb_gz; cbn [fst snd].
  - replace (8 * 8 + 0 * 0)%R with (Rsqr 8) by (unfold Rsqr; ring). apply sqrt_Rsqr. lra.
  - replace (-8 * -8 + 0 * 0)%R with (Rsqr 8) by (unfold Rsqr; ring). apply sqrt_Rsqr. lra.
Qed.
Lemma oq_nodup : NoDup (map fst (map (@em fstr) oq)).
Proof. cbn [oq map em fst]. constructor; [intros [H|[]]; discriminate H|]. constructor; [intros []|constructor]. Qed.
Lemma oq_ne : map (@em fstr) oq <> [].
Proof. pose proof oq_coeffs as H. apply andb_true_iff in H. destruct H as [_ H]. intro Z. destruct oq; [discriminate H|discriminate Z]. Qed.
Lemma truncate_y rel : (0 <= rel <= 1)%R -> truncate_rel rel (map em oq) = map em oq.
Proof.
  intro HR. rewrite (truncate_filter rel _ oq_nodup).
  assert (M : cabs (max_coeff (map em oq)) = 8%R).
  { destruct (max_coeff_spec (map em oq) oq_ne) as [[X I] _]. apply in_map_iff in I. destruct I as [e [E I]]. rewrite <- (cabs8 e I), E. reflexivity. }
  assert (G : forall l : cfop, (forall e, In e l -> cabs (snd e) = 8%R) -> filter (cut (cabs (cmul ((rel, 0%R) : Cx) (max_coeff (map em oq))))) l = l).
  { intros l. induction l as [|e l IH]; intro H; [reflexivity|]. cbn [filter]. rewrite IH by (intros x I; apply H; now right). unfold cut at 1. destruct (Rle_dec _ _) as [_|n]; [reflexivity|].
    exfalso. apply n. rewrite (H e (or_introl eq_refl)), cabs_rel, M, Rabs_right by lra. lra. }
  apply G. intros e I. apply in_map_iff in I. destruct I as [q [<- I]]. exact (cabs8 q I).
Qed.
Lemma euler_y : euler_operator eps_ex (map em oq) = map em Lq.
Proof.
  unfold euler_operator, Lq. rewrite !map_map. apply map_ext. intro e. unfold em. cbn [fst snd]. f_equal. transitivity (cmul (emb (snd e)) (emb epsq)); [|symmetry; apply emb_mul]. f_equal. unfold eps_ex. apply C_eq; cbn; unfold Q2R; cbn; lra.
Qed.
