(** Complex amplitudes: the threshold of the operator class keeps every coefficient that occurs, and the energies are
    bounded below. *)
From Coq Require Import Bool List Arith ZArith Reals Lra Lia.
From Verif Require Import Coeff ComplexR MatSpec FockSpec CircuitSpec RdmSpec HamModel HamSpec TransformModel PlanModel PlanSpec PlanProofs4.
Import ListNotations.

Lemma cx_nat n : @of_nat Cx n = (INR n, 0%R).
Proof.
  induction n as [|n IH]; [reflexivity|]. cbn [of_nat]. rewrite IH. apply C_eq; cbn [Cx cadd c1 Cadd C1 fst snd]; [rewrite S_INR; ring|ring].
Qed.
Lemma cx_half k : @cpow Cx chalf k = ((/ 2) ^ k, 0)%R.
Proof.
  induction k as [|k IH]; [reflexivity|]. cbn [cpow]. rewrite IH. apply C_eq; cbn [Cx cmul Cmul chalf Chalf fst snd pow]; ring.
Qed.
Lemma int_small (z : Z) : (IZR z * IZR z < 1)%R -> z = 0%Z.
Proof.
  intro H. rewrite <- mult_IZR in H. apply lt_IZR in H. nia.
Qed.
Lemma cx_exact (x : Cx) : dyadic 7 x -> small x = true -> x = c0.
Proof.
  intros [a [a' [b [b' E]]]] S. rewrite cx_half, !cx_nat in E.
  assert (E1 : fst x = (IZR (Z.of_nat a - Z.of_nat a') / 128)%R).
  { rewrite E. cbn [Cx cmul cadd csub ci Cmul Cadd Csub Ci fst snd pow]. rewrite minus_IZR, <- !INR_IZR_INZ. field. }
  assert (E2 : snd x = (IZR (Z.of_nat b - Z.of_nat b') / 128)%R).
  { rewrite E. cbn [Cx cmul cadd csub ci Cmul Cadd Csub Ci fst snd pow]. rewrite minus_IZR, <- !INR_IZR_INZ. field. }
  revert E1 E2. generalize (Z.of_nat a - Z.of_nat a')%Z (Z.of_nat b - Z.of_nat b')%Z. clear E. intros u v E1 E2.
  change (Csmall x = true) in S. unfold Csmall in S. destruct (Rle_dec _ _) as [l|]; [|discriminate]. rewrite E1, E2 in l.
  assert (P : (/ 10 ^ 24 < / 20000)%R).
  { apply Rinv_lt_contravar; [apply Rmult_lt_0_compat; [lra|apply pow_lt; lra]|]. cbn [pow]. lra. }
  pose proof (Rle_0_sqr (IZR u)) as Hu. pose proof (Rle_0_sqr (IZR v)) as Hv. unfold Rsqr in *.
  assert (u = 0%Z) by (apply int_small; lra). assert (v = 0%Z) by (apply int_small; lra). subst u v.
  apply C_eq; [rewrite E1|rewrite E2]; cbn [Cx c0 C0 fst snd]; field.
Qed.
Lemma crt_real : cconj Crt = Crt.
Proof. apply C_eq; cbn [Crt Cx cconj Cconj fst snd]; ring. Qed.

Theorem variational tiny simp imag N Ne nu (w : Cx) (h : nat -> nat -> Cx) (V : nat -> nat -> nat -> nat -> Cx) (en_c : Cx) prep t (low : R) : (forall x : Cx, tiny x = true -> x = c0) ->
  sized simp -> (forall g, In g prep -> valid (2 * N) g) ->
  has_up (2 * N) N nu (prepared Crt (2 * N) prep) -> has_particles (2 * N) Ne (prepared Crt (2 * N) prep) ->
  cmul (cmul (cadd (cadd (cadd c1 c1) c1) c1) w) (ofnat (Ne - 1)) = c1 -> snd w = 0%R -> snd en_c = 0%R ->
  (forall i j, snd (h i j) = 0%R) -> (forall i j, h i j = h j i) ->
  (forall p q s t, snd (V p q s t) = 0%R) -> (forall p q s t, V p q s t = V q p t s) -> (forall p q s t, V p q s t = V s t p q) ->
  (forall phi : bits -> Cx, has_particles (2 * N) Ne phi -> norm2 (2 * N) phi = c1 -> (low <= fst (expect (2 * N) (ham (2 * N) h V) phi))%R) ->
  tomography Crt tiny jw_operator simp 2 true imag N prep = Some t ->
  (low + fst en_c <= fst (evaluate (2 * N) (build_K2 (2 * N) w h V) en_c t))%R /\ snd (evaluate (2 * N) (build_K2 (2 * N) w h V) en_c t) = 0%R.
Proof.
  intros Ht Sz Va Up Pa Hw Iw Ie Ih Sh IV S1 S2 Low T.
  assert (Re : forall x : Cx, snd x = 0%R -> cconj x = x) by (intros x Hx; apply C_eq; cbn [Cx cconj Cconj fst snd]; [reflexivity|rewrite Hx; ring]).
  destruct (tomography_energy_real Cx Crt Crt_sq crt_real tiny Ht cx_exact simp imag N Ne nu w h V en_c prep t Sz Va Up Pa Hw (Re _ Iw)
    (fun i j => Re _ (Ih i j)) Sh (fun p q s t => Re _ (IV p q s t)) S1 S2 T) as [E R]. rewrite E.
  pose proof (Low _ Pa (PlanProofs3.prepared_norm Cx Crt Crt_sq crt_real (2 * N) prep Va)) as L.
  revert L R. generalize (expect (2 * N) (ham (2 * N) h V) (prepared Crt (2 * N) prep)). intros e L R. cbn [Cx cadd Cadd fst snd]. split; [apply Rplus_le_compat_r; exact L|].
  apply (f_equal snd) in R. cbn [Cx cconj Cconj snd] in R. rewrite Ie. lra.
Qed.
