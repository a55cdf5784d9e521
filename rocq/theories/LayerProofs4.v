(** The states of the ACSE circuit, in terms of the conditions of LayerSpec. *)
From Coq Require Import Bool List Arith ZArith Reals Lra Lia Ring Permutation.
From Verif Require Import Coeff ComplexR MatSpec MatLemmas AdjProofs FockSpec OpSpec OpTotal OperatorModel FermiModel TransformModel CircuitSpec CircuitModel InvSpec HamModel HamSpec RdmSpec PlanProofs3 PlanProofs5
  StoreModel StoreProofs VqeSpec ConsSpec ConsModel ConsProofs3 ResSpec ResModel QuantSpec EulerSpec EulerModel EulerProofs3 ShapeSpec LayerSpec LayerProofs LayerProofs2 LayerProofs3 PlanSpec PauliModel InitProofs.
Import ListNotations.
Local Open Scope nat_scope.

Lemma layer_of N P (L : cfop) : generator N P L -> regular L -> layer_ok N P L.
Proof.
  intros [HS [HA HC]] [HK [HF HE]]. assert (SZ : forall e, In e L -> length (fst e) = N) by (intros e I; exact (proj1 (HS e I))).
  constructor; [exact SZ| |exact HA|exact HC|exact HK|exact HF|exact (jw_exact_sums Cx N L SZ HK HE)].
  intros e I. pose proof (f_equal snd (proj2 (HS e I))) as Q. destruct (snd e) as [x y]. cbn [Cx cconj Cconj snd] in Q |- *. lra.
Qed.
Lemma generator_of N P (L : cfop) : layer_ok N P L -> generator N P L.
Proof.
  intros [HS HR HA HC _ _ _]. split; [|split; [exact HA|exact HC]]. intros e I. split; [exact (HS e I)|]. apply C_eq; cbn [Cx cconj Cconj fst snd]; [reflexivity|]. change (snd (snd e)) with (snd (snd e : R * R)). rewrite (HR e I). lra.
Qed.
Theorem acse_state n a b (layers : list cfop) : a <= n -> b <= n ->
  (forall L, In L layers -> layer_ok (2 * n) (fun _ => true) L /\ layer_ok (2 * n) (fun k => existsb (Nat.eqb k) (seq 0 n)) L) ->
  exists occ gs, qs_initial Default n a b = Some occ /\ NoDup occ /\ (forall k, In k occ -> k < 2 * n) /\ acse_circuit (2 * n) occ layers = Some gs /\ (forall g, In g gs -> valid (2 * n) g) /\
    norm2 (2 * n) (prepared Crt (2 * n) gs) = c1 /\ has_up (2 * n) n a (prepared Crt (2 * n) gs) /\ has_particles (2 * n) (a + b) (prepared Crt (2 * n) gs).
Proof.
  intros A B H. destruct (reference Default n a b (or_introl eq_refl) A B) as [occ [E [ND [LT [P1 P2]]]]]. cbv zeta in P1, P2.
  pose proof (occ_length n occ ND LT) as LO. rewrite <- !(particles_filter _ (2 * n) occ ND LT), P1, P2 in LO.
  destruct (acse_definite (2 * n) (fun _ => true) occ layers ND LT (fun L I => proj1 (H L I))) as [gs [EC [V D1]]].
  destruct (acse_definite (2 * n) (fun k => existsb (Nat.eqb k) (seq 0 n)) occ layers ND LT (fun L I => proj2 (H L I))) as [gs' [EC' [_ D2]]].
  rewrite EC in EC'. injection EC' as <-. exists occ, gs. split; [exact E|]. split; [exact ND|]. split; [exact LT|]. split; [exact EC|]. split; [exact V|]. split; [exact (prepared_norm Cx Crt Crt_sq crt_real _ _ V)|].
  split; intros x Lx Hx.
  - apply (D2 x Lx). rewrite count_up. intro Q. apply Hx. rewrite Q. cbn [qs_groups fst snd] in P1. rewrite map_id in P1. exact P1.
  - apply (D1 x Lx). rewrite count_all. intro Q. apply Hx. rewrite Q, count_all, <- LO. apply (RdmProofs.popcount_det (2 * n) occ ND LT).
Qed.
Lemma flat_map_ext_in' {A B} (f g : A -> list B) l : (forall x, In x l -> f x = g x) -> flat_map f l = flat_map g l.
Proof. induction l as [|x l IH]; intro H; [reflexivity|]. cbn [flat_map]. rewrite (H x (or_introl eq_refl)), IH; [reflexivity|]. intros y I. apply H. now right. Qed.
Lemma nonzeros_ext (K : CoefRing) d (A B : nat -> nat -> nat -> nat -> K) : (forall i k j l, i < d -> k < d -> j < d -> l < d -> A i k j l = B i k j l) -> nonzeros d A = nonzeros d B.
Proof.
  intro H. unfold nonzeros. f_equal. assert (S : forall x, In x (seq 0 d) -> x < d) by (intros x I; apply in_seq in I; lia).
  apply flat_map_ext_in'. intros i Hi. apply flat_map_ext_in'. intros k Hk. apply flat_map_ext_in'. intros j Hj. apply map_ext_in. intros l Hl. rewrite H by auto. reflexivity.
Qed.
Lemma residual_operator_ext (K : CoefRing) keep d N (A B : nat -> nat -> nat -> nat -> K) : (forall i k j l, i < d -> k < d -> j < d -> l < d -> A i k j l = B i k j l) -> residual_operator keep d N A = residual_operator keep d N B.
Proof. intro H. unfold residual_operator. now rewrite (nonzeros_ext K d A B H). Qed.
Add Ring CxRingL4 : (c_ring Cx).
(** Without layers the state is the determinant up to a phase. *)
Lemma acse_initial N occ : NoDup occ -> (forall k, In k occ -> k < N) ->
  exists gs z, acse_circuit N occ [] = Some gs /\ forall x, length x = N -> prepared Crt N gs x = if bits_eqb x (map (fun j => existsb (Nat.eqb j) occ) (seq 0 N)) then ipow z else c0.
Proof.
  intros ND LT. destruct (initial_state Cx Crt Crt_sq N occ ND LT) as [s [z [E [z' F]]]].
  exists (initial_circuit Crt [(s, ipow z)] ++ []), z'. split; [unfold acse_circuit; rewrite E; reflexivity|]. intros x Lx. rewrite app_nil_r, <- (F x Lx).
  unfold prepared, mvec, zero_state.
  transitivity (sumbits N (fun c => if bits_eqb c (repeat false N) then cmat Crt N (initial_circuit Crt [(s, ipow z)]) x c else c0)).
  - apply sumbits_ext. intros c _. rewrite (bits_eqb_sym (repeat false N) c). destruct (bits_eqb c _); ring.
  - apply (sumbits_pick Cx N (repeat false N) (fun c => cmat Crt N (initial_circuit Crt [(s, ipow z)]) x c)). apply repeat_length.
Qed.
Lemma nonzeros_In (K : CoefRing) d (A : nat -> nat -> nat -> nat -> K) e : In e (nonzeros d A) ->
  exists i k j l, i < d /\ k < d /\ j < d /\ l < d /\ e = ((i, k, j, l), A i k j l) /\ ceqb (A i k j l) c0 = false.
Proof.
  intro I. apply filter_In in I. destruct I as [I NZ]. apply negb_true_iff in NZ.
  apply in_flat_map in I. destruct I as [i [Hi I]]. apply in_flat_map in I. destruct I as [k [Hk I]]. apply in_flat_map in I. destruct I as [j [Hj I]]. apply in_map_iff in I. destruct I as [l [<- Hl]].
  apply in_seq in Hi, Hk, Hj, Hl. exists i, k, j, l. cbn [snd] in NZ. repeat split; try lia. exact NZ.
Qed.
Lemma count_ext P Q (x : bits) : (forall k, k < length x -> P k = Q k) -> count_in P x = count_in Q x.
Proof. intro H. unfold count_in. f_equal. apply filter_ext_in. intros k I. apply in_seq in I. rewrite H by lia. reflexivity. Qed.
Lemma up_modes n k : existsb (Nat.eqb k) (seq 0 n) = (k <? n).
Proof.
  destruct (k <? n) eqn:E.
  - apply Nat.ltb_lt in E. apply existsb_exists. exists k. split; [apply in_seq; lia|apply Nat.eqb_refl].
  - apply Bool.not_true_iff_false. intro H. apply existsb_exists in H. destruct H as [j [I J]]. apply Nat.eqb_eq in J. subst j. apply in_seq in I. apply Nat.ltb_ge in E. lia.
Qed.
Lemma generator_ext N P Q (L : cfop) : (forall k, P k = Q k) -> generator N P L -> generator N Q L.
Proof.
  intros E [A [B C]]. split; [exact A|]. split; [exact B|]. intros r c Lr Lc X. rewrite <- !(count_ext P Q) by (intros; apply E). exact (C r c Lr Lc X).
Qed.
Theorem acse_electrons n a b (layers : list cfop) : a <= n -> b <= n ->
  (forall L, In L layers -> generator (2 * n) (fun _ => true) L /\ generator (2 * n) (fun k => k <? n) L /\ regular L) ->
  exists occ gs, qs_initial Default n a b = Some occ /\ acse_circuit (2 * n) occ layers = Some gs /\ (forall g, In g gs -> valid (2 * n) g) /\
    norm2 (2 * n) (prepared Crt (2 * n) gs) = c1 /\ has_up (2 * n) n a (prepared Crt (2 * n) gs) /\ has_particles (2 * n) (a + b) (prepared Crt (2 * n) gs).
Proof.
  intros A B H. destruct (acse_state n a b layers A B) as [occ [gs [E [_ [_ [EC [V [U [HU HP]]]]]]]]].
  - intros L I. destruct (H L I) as [G1 [G2 R]]. split; [now apply layer_of|]. apply layer_of; [|exact R]. apply (generator_ext _ (fun k => k <? n)); [intro k; symmetry; apply up_modes|exact G2].
  - exists occ, gs. split; [exact E|]. split; [exact EC|]. split; [exact V|]. split; [exact U|]. split; [exact HU|exact HP].
Qed.
Theorem acse_count N P occ (layers : list cfop) : NoDup occ -> (forall k, In k occ -> k < N) -> (forall L, In L layers -> generator N P L /\ regular L) ->
  exists gs, acse_circuit N occ layers = Some gs /\ (forall g, In g gs -> valid N g) /\ forall x, length x = N -> count_in P x <> length (filter P occ) -> prepared Crt N gs x = c0.
Proof.
  intros ND LT H. destruct (acse_definite N P occ layers ND LT) as [gs [E [V D]]]; [intros L I; destruct (H L I); now apply layer_of|].
  exists gs. split; [exact E|]. split; [exact V|]. intros x Lx X. apply (D x Lx). intro Q. apply X. rewrite Q. clear - ND LT.
  unfold count_in. rewrite map_length, seq_length. apply Permutation_length. apply NoDup_Permutation; [apply NoDup_filter, seq_NoDup|now apply NoDup_filter|].
  intro k. rewrite !filter_In, in_seq. rewrite andb_true_iff. split.
  - intros [[_ L] [Pk Q]]. split; [|exact Pk]. rewrite (nth_indep _ false ((fun j => existsb (Nat.eqb j) occ) 0)) in Q by (rewrite map_length, seq_length; lia).
    rewrite (map_nth (fun j => existsb (Nat.eqb j) occ)), seq_nth in Q by lia. apply existsb_exists in Q. destruct Q as [j [I J]]. apply Nat.eqb_eq in J. cbn [Nat.add] in J. now subst j.
  - intros [I Pk]. specialize (LT k I). split; [lia|]. split; [exact Pk|]. rewrite (nth_indep _ false ((fun j => existsb (Nat.eqb j) occ) 0)) by (rewrite map_length, seq_length; lia).
    rewrite (map_nth (fun j => existsb (Nat.eqb j) occ)), seq_nth by lia. apply existsb_exists. exists k. split; [exact I|apply Nat.eqb_refl].
Qed.
Theorem residual_generator n nu (K2 : tensor4) psi keep rel eps o : real_symmetric K2 -> (forall x, keep (copp x) = keep x) -> has_up (2 * n) n nu psi ->
  (forall p q s t, up_count n [p; q] <> up_count n [s; t] -> K2 p q s t = c0) -> residual_operator keep (2 * n) (2 * n) (residual_of (2 * n) K2 psi) = Some o ->
  let L := euler_operator eps (truncate_rel rel o) in regular L -> generator (2 * n) (fun _ => true) L /\ generator (2 * n) (fun k => k <? n) L.
Proof.
  intros HK Hk HU HS EO L [R1 [R2 R3]]. destruct (residual_layer n nu K2 _ psi keep rel eps o HK Hk (fun _ _ _ _ _ _ _ _ => eq_refl) HU HS EO R1 R2 R3) as [G1 G2].
  split; [now apply generator_of|]. apply (generator_ext _ (fun k => existsb (Nat.eqb k) (seq 0 n))); [apply up_modes|now apply generator_of].
Qed.
