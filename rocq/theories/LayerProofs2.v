(** The circuits of layers without cancellation conserve what the layers conserve. *)
From Coq Require Import Bool List Arith Reals Lra Lia Ring.
From Verif Require Import Coeff ComplexR MatSpec MatLemmas AdjProofs FockSpec OpSpec OpTotal PauliModel PauliProofs PauliBasis OperatorModel OperatorProofs FermiModel TwoTerm TransformModel JWProofs
  CircuitSpec CircuitModel CircuitProofs CircuitProofs2 RdmSpec RdmFock VqeSpec VqeProofs3 VqeProofs4 QuantSpec QuantProofs QuantProofs2 StoreModel InitProofs PlanSpec PlanProofs3 PlanProofs5
  ConsSpec ConsModel ConsProofs ConsProofs2 ConsProofs3 EulerSpec EulerModel EulerProofs2 EulerProofs4 ShapeSpec ShapeProofs ShapeProofs2 JwShape LayerSpec LayerProofs InvSpec TomoModel TomoProofs.
Import ListNotations.
Local Open Scope R_scope.
Add Ring CxRingL : (c_ring Cx).

Lemma real_odd N (b : list (list pauli * Cx)) : NoDup (keys b) -> (forall e, In e b -> length (fst e) = N /\ cconj (snd e) = copp (snd e)) ->
  (forall r c, length r = N -> length c = N -> cconj (omat b r c) = omat b r c) -> forall s x, In (s, x) b -> x <> c0 -> odd_y s = true.
Proof.
  intros ND HB HR s x I X. rewrite odd_yodd. destruct (yodd s) eqn:E; [reflexivity|]. exfalso. apply X. apply (two_neq0 Cx).
  rewrite <- (total_In Cx _ _ pauli_list_eqb_spec pkeq s x b ND I) at 1.
  rewrite (pauli_unique Cx pkeq N b (map (fun e => (fst e, cmul (sgn (yodd (fst e))) (cconj (snd e)))) b)).
  - rewrite (total_In Cx _ _ pauli_list_eqb_spec pkeq s (copp x)); [reflexivity| |].
    + unfold keys. rewrite map_map. exact ND.
    + apply in_map_iff. exists (s, x). split; [|exact I]. cbn [fst snd]. pose proof (proj2 (HB _ I)) as Q. cbn [snd] in Q. rewrite E, Q. cbn [sgn]. f_equal. ring.
  - intros e He. apply HB. exact He.
  - intros e He. apply in_map_iff in He. destruct He as [e' [<- He]]. apply (HB e' He).
  - intros r c Lr Lc. rewrite <- (HR r c Lr Lc). clear. induction b as [|[u y] l IH]; cbn [map omat fst snd]; unfold madd, mscal, mzero; [apply cconj_0|].
    rewrite cconj_add, cconj_mul, IH, pmat_conj. ring.
Qed.
(** Fermionic operators with real coefficients have real matrices. *)
Lemma fock_real l r c : cconj (@fock_mat Cx l r c) = fock_mat l r c.
Proof. unfold fock_mat, pmap_mat. destruct (fock l c) as [[s m]|]; [|apply cconj_0]. destruct (bits_eqb m r); [|apply cconj_0]. destruct s; apply C_eq; cbn; ring. Qed.
Lemma fmat_real (o : cfop) r c : (forall e, In e o -> snd (snd e) = 0) -> cconj (fmat o r c) = fmat o r c.
Proof.
  induction o as [|[s [x y]] o IH]; intro H; cbn [fmat]; [unfold mzero; apply cconj_0|]. unfold madd, mscal. rewrite cconj_add, cconj_mul, IH by (intros; apply H; now right).
  unfold fstr_mat. rewrite fock_real. pose proof (H _ (or_introl eq_refl)) as Y. cbn [snd] in Y. subst y. f_equal. f_equal. apply C_eq; cbn; ring.
Qed.

(** What a layer must satisfy. *)
Record layer_ok (N : nat) (P : nat -> bool) (L : cfop) : Prop := {
  lo_size : forall e, In e L -> length (fst e) = N;
  lo_real : forall e, In e L -> snd (snd e) = 0;
  lo_anti : forall r c, length r = N -> length c = N -> cconj (fmat L c r) = copp (fmat L r c);
  lo_cons : conserves N (count_in P) (fmat L);
  lo_keep : keepable Cx L;
  lo_free : no_cancel L;
  lo_exact : meq N (omat (jw_operator L)) (fmat L) }.

Section Layer.
  Variables (N : nat) (P : nat -> bool).
  Lemma layer_strings L : layer_ok N P L -> forall e, In e (jw_operator L) -> length (fst e) = N /\ cconj (snd e) = copp (snd e) /\ odd_y (fst e) = true /\ small (snd e) = false.
  Proof.
    intros [HL HR HA HC HK HF HE] e I. destruct (jw_wf N L HL) as [WL ND].
    assert (AC : forall e, In e (jw_operator L) -> cconj (snd e) = copp (snd e)).
    { apply (anti_coeffs N _ WL ND). intros r c Lr Lc. rewrite (HE c r Lc Lr), (HE r c Lr Lc). exact (HA r c Lr Lc). }
    assert (S : small (snd e) = false) by (exact (jw_clean L e I)).
    split; [exact (WL e I)|]. split; [exact (AC e I)|]. split; [|exact S]. destruct e as [s x]. apply (real_odd N (jw_operator L) ND) with (x := x); [intros e He; split; [exact (WL e He)|exact (AC e He)]| |exact I|].
    - intros r c Lr Lc. rewrite (HE r c Lr Lc). apply fmat_real. exact HR.
    - apply small_neq0. exact S.
  Qed.
  Lemma layer_conserves L t : layer_ok N P L -> conserves N (count_in P) (cmat Crt N (gadgets (kept below14 (jw_operator L)) t)).
  Proof.
    intro H. pose proof (layer_strings L H) as HS. destruct H as [HL HR HA HC HK HF HE].
    apply grouped_conserves; [|exact HS|].
    - pose proof (jw_grouped Cx L HK HF) as G. rewrite filter_every in G; [exact G|]. intros s I. apply in_map_iff in I. destruct I as [e [<- I]]. exact (proj1 (proj2 (proj2 (HS e I)))).
    - intros r c Lr Lc X. rewrite (HE r c Lr Lc) in X. exact (HC r c Lr Lc X).
  Qed.
  Lemma conserves_mul (A B : mat Cx) f : conserves N f A -> conserves N f B -> conserves N f (mmul N A B).
  Proof. intros HA HB. apply conserves_commutes. apply commutes_mul; apply conserves_commutes; assumption. Qed.
  Lemma conserves_ext (A B : mat Cx) f : meq N A B -> conserves N f B -> conserves N f A.
  Proof. intros E H r c Lr Lc X. rewrite (E r c Lr Lc) in X. exact (H r c Lr Lc X). Qed.
  Lemma layers_conserve layers t : (forall L, In L layers -> layer_ok N P L) -> conserves N (count_in P) (cmat Crt N (gadgets (kept below14 (ansatz_strings layers)) t)).
  Proof.
    induction layers as [|L layers IH]; intro H; cbn [ansatz_strings flat_map].
    - cbn. apply conserves_commutes. apply commutes_one.
    - fold (ansatz_strings layers). unfold kept. rewrite flat_map_app. fold (kept below14 (jw_operator L)) (kept below14 (ansatz_strings layers)). unfold gadgets. rewrite flat_map_app.
      fold (gadgets (kept below14 (jw_operator L)) t) (gadgets (kept below14 (ansatz_strings layers)) t).
      eapply conserves_ext; [apply cmat_app|]. apply conserves_mul; [apply IH; intros; apply H; now right|apply layer_conserves, H; now left].
  Qed.
  Lemma layers_imag layers : (forall L, In L layers -> layer_ok N P L) -> forall e, In e (ansatz_strings layers) -> cconj (snd e) = copp (snd e).
  Proof. intros H e I. unfold ansatz_strings in I. apply in_flat_map in I. destruct I as [L [IL I]]. exact (proj1 (proj2 (layer_strings L (H L IL) e I))). Qed.
  (** The state has the count of the determinant. *)
  Theorem acse_definite occ layers : NoDup occ -> (forall k, In k occ -> (k < N)%nat) -> (forall L, In L layers -> layer_ok N P L) ->
    exists gs, acse_circuit N occ layers = Some gs /\ (forall g, In g gs -> valid N g) /\
      forall x, length x = N -> count_in P x <> count_in P (map (fun j => existsb (Nat.eqb j) occ) (seq 0 N)) -> prepared Crt N gs x = c0.
  Proof.
    intros NDo LT H. destruct (init_op Cx N occ LT) as [z0 [I0 L0]]. destruct (initial_state Cx Crt Crt_sq N occ NDo LT) as [st [z [I [z' F]]]]. rewrite I0 in I. injection I as <- Ez. rewrite <- Ez in F.
    set (dd := map (fun j => existsb (Nat.eqb j) occ) (seq 0 N)) in *. set (ini := initial_circuit Crt [(init_str N occ, ipow z0)]) in *.
    set (gs := gadgets (kept below14 (ansatz_strings layers)) (/ INR 1)).
    assert (EG : ansatz_gates 1 (ansatz_strings layers) = Some gs) by (apply gadgets_of; [apply layers_imag; exact H|lia]).
    assert (EC : acse_circuit N occ layers = Some (ini ++ gs)) by (unfold acse_circuit; rewrite I0, EG; reflexivity).
    exists (ini ++ gs). split; [exact EC|]. split.
    { apply (acse_valid N occ layers); [exact LT| |exact EC]. intros L e IL Ie. exact (lo_size N P L (H L IL) e Ie). }
    assert (S0 : forall x, length x = N -> prepared Crt N ini x = if bits_eqb x dd then ipow z' else c0).
    { intros x Lx. rewrite <- (F x Lx). unfold prepared, mvec, zero_state.
      transitivity (sumbits N (fun c => if bits_eqb c (repeat false N) then cmat Crt N ini x c else c0)).
      - apply sumbits_ext. intros c _. rewrite (bits_eqb_sym (repeat false N) c). destruct (bits_eqb c _); ring.
      - apply (sumbits_pick Cx N (repeat false N) (fun c => cmat Crt N ini x c)). apply repeat_length. }
    intros x Lx Hx. rewrite (prepared_app N ini gs x Lx). apply (definite N (count_in P) (count_in P dd)); [apply layers_conserve; exact H| |exact Lx|exact Hx].
    intros y Ly Hy. rewrite (S0 y Ly). destruct (bits_eqb y dd) eqn:Q; [|reflexivity]. apply bits_eqb_spec in Q. subst y. contradiction.
  Qed.
End Layer.
