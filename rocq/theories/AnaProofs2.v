(** Bounds on the eigenvalues of the blocks of a reduced density matrix. *)
From Coq Require Import Bool List Arith Reals Lra Lia.
From Verif Require Import Coeff MatSpec MatLemmas FockSpec CircuitSpec ComplexR PlanSpec HamSpec HamProofs2 RdmModel RdmSpec RdmFock EulerProofs4 RdmObjModel RdmObjSpec AnaModel AnaSpec AnaProofs.
Import ListNotations.
Local Open Scope R_scope.
Add Ring CxAna : (c_ring Cx).

Definition weight {A} (P : list (A * Cx)) : Cx := over P (fun p => cmul (cconj (snd p)) (snd p)).
Lemma weight_pos {A} (P : list (A * Cx)) : 0 <= fst (weight P).
Proof.
  induction P as [|[a [x y]] P IH]; [cbn; lra|].
  change (0 <= x * x - - y * y + fst (weight P)). nra.
Qed.
Lemma weight_strict {A} (P : list (A * Cx)) : (exists x, In x (map snd P) /\ x <> c0) -> 0 < fst (weight P).
Proof.
  induction P as [|[a [x y]] P IH]; intros [z [Hz Nz]]; [destruct Hz|]. pose proof (weight_pos P) as WP.
  change (0 < x * x - - y * y + fst (weight P)). destruct Hz as [<-|Hz].
  - destruct (Req_dec x 0) as [->|Hx]; [|nra]. destruct (Req_dec y 0) as [->|Hy]; [|nra]. exfalso. apply Nz. reflexivity.
  - assert (0 < fst (weight P)) by (apply IH; exists z; auto). nra.
Qed.

Lemma eigen_pairs B (T : list nat -> list nat -> Cx) mu : eigenvalue (matrix_of B T) mu ->
  exists P : list (list nat * Cx), map fst P = B /\ 0 < fst (weight P) /\
  (forall p, In p P -> over P (fun q => cmul (T (fst p) (fst q)) (snd q)) = cmul ((mu, 0) : Cx) (snd p)).
Proof.
  intros [v [L [NZ M]]]. unfold matrix_of in L. rewrite map_length in L. exists (combine B v).
  assert (F : map fst (combine B v) = B).
  { clear -L. revert v L. induction B as [|b B IH]; intros [|x v] L; try discriminate; [reflexivity|]. cbn [combine map fst]. f_equal. apply IH. now injection L. }
  assert (S : map snd (combine B v) = v).
  { clear -L. revert v L. induction B as [|b B IH]; intros [|x v] L; try discriminate; [reflexivity|]. cbn [combine map snd]. f_equal. apply IH. now injection L. }
  split; [exact F|]. set (P := combine B v) in *. split; [apply weight_strict; rewrite S; exact NZ|].
  unfold matvec, matrix_of in M. rewrite <- F, <- S, !map_map in M.
  assert (X : forall p, In p P -> dotp (map (fun J => T (fst p) J) (map fst P)) (map snd P) = cmul ((mu, 0) : Cx) (snd p)) by (apply ext_in_map; exact M).
  intros p Hp. rewrite <- (X p Hp), (dot_pairs Cx (fun J => T (fst p) J) P). reflexivity.
Qed.

Lemma quad_weight (P : list (list nat * Cx)) (T : list nat -> list nat -> Cx) mu :
  (forall p, In p P -> over P (fun q => cmul (T (fst p) (fst q)) (snd q)) = cmul ((mu, 0) : Cx) (snd p)) ->
  fst (over P (fun p => cmul (cconj (snd p)) (over P (fun q => cmul (T (fst p) (fst q)) (snd q))))) = mu * fst (weight P).
Proof.
  intro H. transitivity (fst (cmul ((mu, 0) : Cx) (weight P))).
  - f_equal. unfold weight. rewrite <- (ov_scal Cx). apply ov_ext. intros p Hp. rewrite (H p Hp). ring.
  - cbn [Cx cmul Cmul fst snd]. cbn [Cx]. lra.
Qed.

Lemma eigen_nonneg R psi B mu : eigenvalue (matrix_of B (rdm_of R psi)) mu -> 0 <= mu.
Proof.
  intro H. destruct (eigen_pairs B _ mu H) as [P [_ [W Q]]]. apply quad_weight in Q.
  rewrite (gram Cx R (fun J => mvec R (fock_mat (anns J)) psi) (rdm_of R psi) P) in Q by (intros; apply rdm_gram).
  pose proof (norm2_pos R (fun b => over P (fun q => cmul (snd q) (mvec R (fock_mat (anns (fst q))) psi b)))) as N. cbn [Cx] in *. nra.
Qed.

(** The one-particle block of the holes. *)
Lemma eigen_le_one R psi l mu : norm2 R psi = c1 -> NoDup l -> (forall x, In x l -> (x < R)%nat) -> eigenvalue (matrix_of (singles l) (rdm_of R psi)) mu -> mu <= 1.
Proof.
  intros U ND HB H. destruct (eigen_pairs _ _ mu H) as [P [F [W Q]]].
  assert (S : forall p, In p P -> exists i, fst p = [i] /\ (i < R)%nat).
  { intros p Hp. assert (In (fst p) (singles l)) as I by (rewrite <- F; now apply in_map). unfold singles in I. apply in_map_iff in I. destruct I as [i [E Hi]]. exists i. split; [now symmetry|now apply HB]. }
  set (h := hd 0%nat). set (chi := fun J : list nat => mvec R (@fock_mat Cx [(Cre, h J)]) psi).
  set (T' := fun I J : list nat => sumbits R (fun b => cmul (cconj (chi I b)) (chi J b))).
  (* the form of the holes *)
  assert (G := gram Cx R chi T' (map (fun p => (fst p, cconj (snd p))) P) (fun p q _ _ => eq_refl)).
  assert (OM : forall (f : list nat * Cx -> Cx), over (map (fun p => (fst p, cconj (snd p))) P) f = over P (fun p => f (fst p, cconj (snd p)))).
  { intro f. clear. induction P as [|p P IH]; [reflexivity|]. cbn [map over fold_right]. f_equal. exact IH. }
  rewrite OM in G.
  assert (G' : over P (fun p => cmul (cconj (snd p)) (over P (fun q => cmul (T' (fst q) (fst p)) (snd q)))) = norm2 R (fun b => over (map (fun p => (fst p, cconj (snd p))) P) (fun q => cmul (snd q) (chi (fst q) b)))).
  { rewrite <- G. cbn [fst snd]. transitivity (over P (fun p => over P (fun q => cmul (cconj (snd p)) (cmul (T' (fst q) (fst p)) (snd q))))).
    - apply ov_ext. intros p _. symmetry. apply ov_scal.
    - rewrite ov_swap. apply ov_ext. intros p _. rewrite OM. cbn [fst snd]. rewrite cconj_inv, <- (ov_scal Cx). apply ov_ext. intros q _. ring. }
  assert (Dl : forall p, In p P -> over P (fun q => cmul (delta Cx (h (fst p)) (h (fst q))) (snd q)) = snd p).
  { intros p Hp. set (P1 := map (fun q : list nat * Cx => (h (fst q), snd q)) P).
    assert (OP : over P (fun q => cmul (delta Cx (h (fst p)) (h (fst q))) (snd q)) = over P1 (fun q => cmul (delta Cx (h (fst p)) (fst q)) (snd q))).
    { unfold P1. clear. generalize (h (fst p)). intro n. induction P as [|q P IH]; [reflexivity|]. cbn [map over fold_right fst snd]. f_equal. exact IH. }
    rewrite OP. apply over_delta.
    - unfold P1. rewrite map_map. cbn [fst]. rewrite <- (map_map fst h), F. unfold singles. rewrite map_map. cbn [h hd]. unfold h. cbn [hd]. rewrite map_id. exact ND.
    - unfold P1. apply in_map_iff. exists p. split; [reflexivity|exact Hp]. }
  assert (E : fst (over P (fun p => cmul (cconj (snd p)) (over P (fun q => cmul (T' (fst q) (fst p)) (snd q))))) = (1 - mu) * fst (weight P)).
  { apply quad_weight with (T := fun I J => T' J I). intros p Hp. cbn beta.
    transitivity (csub (over P (fun q => cmul (delta Cx (h (fst p)) (h (fst q))) (snd q))) (over P (fun q => cmul (rdm_of R psi (fst p) (fst q)) (snd q)))).
    - transitivity (over P (fun q => cadd (cmul (delta Cx (h (fst p)) (h (fst q))) (snd q)) (cmul (copp c1) (cmul (rdm_of R psi (fst p) (fst q)) (snd q))))).
      + apply ov_ext. intros q Hq. destruct (S p Hp) as [i [Ei Hi]]. destruct (S q Hq) as [j [Ej Hj]]. rewrite Ei, Ej.
        rewrite (hole_gram Cx R psi i j Hi Hj), U. unfold T', chi, h. cbn [hd]. ring.
      + rewrite ov_add, ov_scal. ring.
    - rewrite (Dl p Hp), (Q p Hp). assert (O : ((1 - mu, 0) : Cx) = csub c1 ((mu, 0) : Cx)) by (apply C_eq; cbn; lra). rewrite O. ring. }
  rewrite G' in E. pose proof (norm2_pos R (fun b => over (map (fun p => (fst p, cconj (snd p))) P) (fun q => cmul (snd q) (chi (fst q) b)))) as N. cbn [Cx] in *. nra.
Qed.
