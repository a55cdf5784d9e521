(** The transform does not increase the sum of the coefficients; one more layer changes the energy by its slope up to a term of second order. *)
From Coq Require Import Bool List Arith ZArith Reals Lra Lia Setoid Morphisms.
From Verif Require Import Coeff MatSpec MatLemmas AdjProofs OpSpec FockSpec CircuitSpec CircuitModel CircuitProofs CircuitProofs2 ComplexR PauliModel PauliBasis PauliProofs OperatorModel OperatorProofs OpTotal FermiModel FermiProofs
  InvSpec InvProofs RdmModel TransformModel QuantSpec QuantProofs QuantProofs2 RdmFock SymProofs2 VqeProofs3 AcseModel StoreModel InitProofs PlanSpec PlanProofs2 PlanProofs3 PlanProofs5 ConsModel ConsProofs ConsProofs3 EulerProofs EulerSpec EulerModel.
Import ListNotations.
Local Open Scope R_scope.
Add Ring CxRing3 : (c_ring Cx).

(** ** Sums of coefficients *)
Lemma n1_pos c : 0 <= n1 c.
Proof. unfold n1. pose proof (Rabs_pos (fst c)). pose proof (Rabs_pos (snd c)). lra. Qed.
Lemma n1_add (a b : Cx) : n1 (cadd a b) <= n1 a + n1 b.
Proof. unfold n1. cbn [Cx cadd Cadd fst snd]. pose proof (Rabs_triang (fst a) (fst b)). pose proof (Rabs_triang (snd a) (snd b)). lra. Qed.
Lemma n1_mul (a b : Cx) : n1 (cmul a b) <= n1 a * n1 b.
Proof.
  unfold n1. cbn [Cx cmul Cmul fst snd]. pose proof (Rabs_triang (fst a * fst b) (- (snd a * snd b))) as P. pose proof (Rabs_triang (fst a * snd b) (snd a * fst b)) as Q.
  rewrite Rabs_Ropp in P. unfold Rminus. rewrite !Rabs_mult in P, Q. lra.
Qed.
Lemma n1_ipow k : n1 (@ipow Cx k) = 1.
Proof.
  assert (E : n1 (c1 : Cx) = 1 /\ n1 (ci : Cx) = 1 /\ n1 (copp c1 : Cx) = 1 /\ n1 (copp ci : Cx) = 1).
  { unfold n1. cbn [Cx c1 ci copp C1 Ci Copp fst snd]. rewrite ?Rabs_Ropp, ?Rabs_R0, ?Rabs_R1.
    repeat split; lra. }
  destruct E as [E0 [E1 [E2 E3]]]. unfold ipow. repeat match goal with |- n1 (match ?x with _ => _ end) = 1 => destruct x end; assumption.
Qed.
Lemma wt_nil {A} : wt (@nil (A * Cx)) = 0. Proof. reflexivity. Qed.
Lemma wt_cons {A} (e : A * Cx) o : wt (e :: o) = n1 (snd e) + wt o. Proof. reflexivity. Qed.
Lemma wt_pos {A} (o : list (A * Cx)) : 0 <= wt o.
Proof. induction o as [|e o IH]; cbn [wt fold_right]; [lra|]. fold (wt o). pose proof (n1_pos (snd e)). lra. Qed.
Lemma wt_app {A} (o o' : list (A * Cx)) : wt (o ++ o') = wt o + wt o'.
Proof. induction o as [|e o IH]; [unfold wt at 2; cbn [app fold_right]; lra|]. cbn [wt fold_right app]. fold (wt o) (wt (o ++ o')). rewrite IH. lra. Qed.
Lemma wt_filter {A} (f : A * Cx -> bool) o : wt (filter f o) <= wt o.
Proof. induction o as [|e o IH]; cbn [wt fold_right filter]; [lra|]. fold (wt o). pose proof (n1_pos (snd e)). destruct (f e); cbn [wt fold_right]; fold (wt (filter f o)); lra. Qed.
Section Wt.
  Context {A : Type} (eqb : A -> A -> bool).
  Lemma wt_set_new k (x : Cx) o : wt (op_set eqb k x o) <= wt o + n1 x.
  Proof. induction o as [|[k' y] o IH]; cbn [op_set wt fold_right snd]; [lra|]. fold (wt o). destruct (eqb k k'); cbn [wt fold_right snd]; [fold (wt o); pose proof (n1_pos y); lra|fold (wt (op_set eqb k x o)); lra]. Qed.
  Lemma wt_set_old k (x y : Cx) o : op_get eqb k o = Some y -> wt (op_set eqb k x o) = wt o - n1 y + n1 x.
  Proof.
    induction o as [|[k' z] o IH]; cbn [op_get op_set wt fold_right snd]; [discriminate|]. fold (wt o). destruct (eqb k k'); intro H; cbn [wt fold_right snd].
    - injection H as ->. fold (wt o). lra.
    - fold (wt (op_set eqb k x o)). rewrite (IH H). lra.
  Qed.
  Lemma wt_add_string o e : wt (op_add_string eqb o e) <= wt o + n1 (snd e).
  Proof.
    unfold op_add_string. destruct (op_get eqb (fst e) o) as [y|] eqn:G; [|apply wt_set_new].
    rewrite (wt_set_old _ _ _ _ G). pose proof (n1_add y (snd e)). lra.
  Qed.
  Lemma wt_fold_add l : forall o, wt (fold_left (op_add_string eqb) l o) <= wt o + wt l.
  Proof. induction l as [|e l IH]; intro o; cbn [fold_left]; rewrite ?wt_nil, ?wt_cons; [lra|]. eapply Rle_trans; [apply IH|]. pose proof (wt_add_string o e). lra. Qed.
  Lemma wt_op_add o l : wt (op_add eqb o l) <= wt o + wt l.
  Proof. unfold op_add, op_clean. eapply Rle_trans; [apply wt_filter|apply wt_fold_add]. Qed.
  Lemma wt_op_mul (smul : A * Cx -> A * Cx -> A * Cx) o l : (forall x y, n1 (snd (smul x y)) <= n1 (snd x) * n1 (snd y)) -> wt (op_mul eqb smul o l) <= wt o * wt l.
  Proof.
    intro H. unfold op_mul, op_clean. eapply Rle_trans; [apply wt_filter|].
    assert (I : forall x o acc, wt (fold_left (fun new' s => op_add_string eqb new' (smul s x)) o acc) <= wt acc + wt o * n1 (snd x)).
    { clear - H. intros x o. induction o as [|s o IH]; intro acc; cbn [fold_left]; rewrite ?wt_nil, ?wt_cons; [lra|]. eapply Rle_trans; [apply IH|].
      pose proof (wt_add_string acc (smul s x)). pose proof (H s x). lra. }
    assert (J : forall l acc, wt (fold_left (fun new x => fold_left (fun new' s => op_add_string eqb new' (smul s x)) o new) l acc) <= wt acc + wt o * wt l).
    { clear - I. induction l as [|x l IH]; intro acc; cbn [fold_left]; rewrite ?wt_nil, ?wt_cons; [lra|]. eapply Rle_trans; [apply IH|]. pose proof (I x o acc). lra. }
    pose proof (J l []) as Q. rewrite wt_nil in Q. lra.
  Qed.
End Wt.
Lemma half_abs : Rabs (/ 2) = / 2. Proof. apply Rabs_right. lra. Qed.
Lemma wt_term N q o : wt (@jw_term Cx N q o) <= 1.
Proof.
  unfold jw_term, two_term, pop_add_string. assert (H : n1 (@chalf Cx) = / 2) by (unfold n1; cbn; rewrite half_abs, Rabs_R0; lra).
  assert (L : n1 (@ladder_c2 Cx o) = / 2 /\ n1 (@number_c2 Cx o) = / 2).
  { assert (G : forall (x : Cx) u v, x = (u, v) -> n1 x = Rabs u + Rabs v) by (intros x u v ->; reflexivity).
    assert (M : Rabs (- / 2) = / 2) by (rewrite Rabs_Ropp; apply half_abs).
    split; destruct o; cbn [ladder_c2 number_c2];
      first [rewrite (G _ (/ 2) 0); [rewrite half_abs, Rabs_R0; lra|apply C_eq; cbn; lra]
            |rewrite (G _ (- / 2) 0); [rewrite M, Rabs_R0; lra|apply C_eq; cbn; lra]
            |rewrite (G _ 0 (/ 2)); [rewrite half_abs, Rabs_R0; lra|apply C_eq; cbn; lra]
            |rewrite (G _ 0 (- / 2)); [rewrite M, Rabs_R0; lra|apply C_eq; cbn; lra]]. }
  destruct (ladder o); (eapply Rle_trans; [apply wt_add_string|]; cbn [snd];
    match goal with |- wt (op_add_string _ [] ?e) + _ <= _ => pose proof (wt_add_string pauli_list_eqb [] e) as Q end; cbn [snd] in Q; rewrite wt_nil in Q; destruct L as [L1 L2]; rewrite ?L1, ?L2; lra).
Qed.
Lemma n1_pauli_mul (x y : list pauli * Cx) : n1 (snd (pauli_mul x y)) <= n1 (snd x) * n1 (snd y).
Proof.
  unfold pauli_mul. cbn [snd]. match goal with |- n1 (cmul (cmul ?a ?b) (cmul (ipow ?u) (ipow ?v))) <= _ =>
    pose proof (n1_mul (cmul a b) (cmul (ipow u) (ipow v))) as P; pose proof (n1_mul a b) as Q; pose proof (n1_mul (ipow u) (ipow v)) as T; rewrite !n1_ipow in T;
    pose proof (n1_pos (cmul a b)); pose proof (n1_pos (cmul (ipow u) (ipow v))) end. nra.
Qed.
Lemma wt_loop N rs : forall new, wt (@jw_loop Cx N rs new) <= wt new.
Proof.
  induction rs as [|[o|] rs IH]; intro new; cbn [jw_loop]; [lra| |apply IH]. eapply Rle_trans; [apply IH|]. unfold pop_mul.
  eapply Rle_trans; [apply (wt_op_mul pauli_list_eqb pauli_mul); apply n1_pauli_mul|]. pose proof (wt_term N (length rs) o). pose proof (wt_pos new). pose proof (wt_pos (@jw_term Cx N (length rs) o)). nra.
Qed.
Lemma wt_string (x : fstr * Cx) : wt (jw_string x) <= n1 (snd x).
Proof. unfold jw_string. eapply Rle_trans; [apply wt_loop|]. unfold pop_add_string. eapply Rle_trans; [apply wt_add_string|]. cbn. lra. Qed.
Lemma wt_jw (o : cfop) : wt (jw_operator o) <= wt o.
Proof.
  unfold jw_operator, op_transform. assert (G : forall l acc, wt (fold_left (op_add pauli_list_eqb) (map jw_string l) acc) <= wt acc + wt l).
  { induction l as [|x l IH]; intro acc; cbn [map fold_left]; rewrite ?wt_nil, ?wt_cons; [lra|]. eapply Rle_trans; [apply IH|].
    pose proof (wt_op_add pauli_list_eqb acc (jw_string x)) as Q. pose proof (wt_string x) as Q'. clear - Q Q'. match goal with |- ?a + _ <= _ => change a with (wt (op_add pauli_list_eqb acc (jw_string x))) end. lra. }
  eapply Rle_trans; [exact (G o [])|]. rewrite wt_nil. lra.
Qed.
Lemma weight_kept tiny b : weight (kept tiny b) <= wt b.
Proof.
  induction b as [|[s x] b IH]; cbn [kept flat_map wt fold_right snd fst]; [cbn; lra|]. fold (wt b) (kept tiny b). unfold n1 at 1. pose proof (Rabs_pos (fst x)).
  destruct (tiny (snd x)); cbn [app weight fold_right fst]; fold (weight (kept tiny b)); pose proof (Rabs_pos (snd x)); lra.
Qed.
Lemma wt_euler eps (o : cfop) : wt (euler_operator eps o) = Rabs eps * wt o.
Proof.
  induction o as [|[s x] o IH]; cbn [euler_operator map wt fold_right snd fst]; [lra|]. fold (wt o) (euler_operator eps o) (wt (euler_operator eps o)). rewrite IH.
  unfold n1. cbn [Cx cmul Cmul fst snd]. replace (fst x * (- (1) * eps) - snd x * 0) with (- (fst x * eps)) by ring. replace (fst x * 0 + snd x * (- (1) * eps)) with (- (snd x * eps)) by ring.
  rewrite !Rabs_Ropp, !Rabs_mult. ring.
Qed.

(** ** One more layer *)
Lemma jw_wf N (o : cfop) : (forall e, In e o -> length (fst e) = N) -> (forall e, In e (jw_operator o) -> length (fst e) = N) /\ NoDup (keys (jw_operator o)).
Proof.
  intro H. unfold jw_operator, op_transform.
  destruct (TransformLin.fold_op_add Cx _ pauli_list_eqb pauli_list_eqb_spec (map jw_string o) [] ltac:(constructor)) as [D [_ [_ [H3 [_ [_ [H6 _]]]]]]]. split; [|exact H3].
  intros e He. assert (I : In (fst e) (map fst (fold_left (fun new r => op_add pauli_list_eqb new r) (map jw_string o) [] ++ D))) by (apply in_map, in_or_app; left; exact He).
  apply H6 in I. destruct I as [[]|[r [Hr Hk]]]. apply in_map_iff in Hr. destruct Hr as [[s c] [<- Hs]]. pose proof (H _ Hs) as L. cbn [fst] in L.
  apply in_map_iff in Hk. destruct Hk as [e' [E He']]. rewrite <- E, <- L. now apply (jw_string_wf Cx s c).
Qed.
Definition pdec : forall a b : list pauli, {a = b} + {a <> b}.
Proof. intros. apply list_eq_dec. decide equality. Defined.
Lemma anti_coeffs N (b : list (list pauli * Cx)) : (forall e, In e b -> length (fst e) = N) -> NoDup (keys b) ->
  (forall r c, length r = N -> length c = N -> cconj (omat b c r) = copp (omat b r c)) -> forall e, In e b -> cconj (snd e) = copp (snd e).
Proof.
  intros L ND A [k x] I. cbn [snd].
  assert (T : total pdec k (map (fun e => (fst e, cconj (snd e))) b) = total pdec k (map (fun e => (fst e, copp (snd e))) b)).
  { apply (pauli_unique Cx pdec N).
    - intros e He. apply in_map_iff in He. destruct He as [e' [<- He]]. exact (L e' He).
    - intros e He. apply in_map_iff in He. destruct He as [e' [<- He]]. exact (L e' He).
    - intros r c Lr Lc. rewrite (omat_map_conj Cx N b L r c Lr Lc), omat_map_neg. exact (A r c Lr Lc). }
  rewrite (total_map_conj Cx), (total_map_neg Cx), (total_In Cx _ pauli_list_eqb pauli_list_eqb_spec pdec k x b ND I) in T. exact T.
Qed.
Lemma pauli_set_app {T} (tiny : T -> bool) (a b : list (list pauli * (T * T))) kb : (forall c, pauli_set tiny c b = Some kb) ->
  forall c ga, pauli_set tiny c a = Some ga -> pauli_set tiny c (a ++ b) = Some (ga ++ kb).
Proof.
  intro HB. induction a as [|[s [re im]] a IH]; intros c ga H; cbn [pauli_set app] in *; [injection H as <-; apply HB|].
  destruct (if tiny im then Some re else if tiny re then Some im else c) as [x|]; [|discriminate].
  destruct (pauli_set tiny (Some x) a) as [gs|] eqn:E; [|discriminate]. injection H as <-. rewrite (IH _ _ E). destruct (tiny x); reflexivity.
Qed.
Lemma pauli_set_in {T} (tiny : T -> bool) (a : list (list pauli * (T * T))) : forall c ga, pauli_set tiny c a = Some ga -> forall w s, In (w, s) ga -> exists x, In (s, x) a.
Proof.
  induction a as [|[s [re im]] a IH]; intros c ga H w s' I; cbn [pauli_set] in *; [injection H as <-; destruct I|].
  destruct (if tiny im then Some re else if tiny re then Some im else c) as [x|]; [|discriminate].
  destruct (pauli_set tiny (Some x) a) as [gs|] eqn:E; [|discriminate]. injection H as <-. destruct (tiny x).
  - destruct (IH _ _ E w s' I) as [y J]. exists y. right. exact J.
  - destruct I as [I|I]; [injection I as _ <-; eexists; left; reflexivity|]. destruct (IH _ _ E w s' I) as [y J]. exists y. right. exact J.
Qed.
Lemma ansatz_gates_1 psi : ansatz_gates 1 psi = option_map (fun l => gadgets l (/ INR 1)) (pauli_set below14 None psi).
Proof. unfold ansatz_gates. destruct (pauli_set below14 None psi) as [[|x l]|]; reflexivity. Qed.
Lemma strings_sized N layers : sized_layers N layers -> forall e, In e (ansatz_strings layers) -> length (fst e) = N.
Proof. intros H e I. unfold ansatz_strings in I. apply in_flat_map in I. destruct I as [P [I J]]. exact (proj1 (jw_wf N P (fun e => H P e I)) e J). Qed.
Lemma acse_valid N occ layers gs : (forall k, In k occ -> (k < N)%nat) -> sized_layers N layers -> acse_circuit N occ layers = Some gs -> forall g, In g gs -> valid N g.
Proof.
  intros LT SL E g I. unfold acse_circuit in E. destruct (init_op Cx N occ LT) as [z0 [I0 L0]]. rewrite I0, ansatz_gates_1 in E.
  destruct (pauli_set below14 None (ansatz_strings layers)) as [l|] eqn:EP; [|discriminate]. cbn [option_map] in E. injection E as <-.
  apply in_app_iff in I. destruct I as [I|I].
  - unfold initial_circuit in I. cbn [flat_map fst] in I. rewrite app_nil_r in I. apply (apply_pauli_valid (init_str N occ) 0 N g); [lia|exact I].
  - apply (gadgets_valid N l (/ INR 1)); [|exact I]. intros w s J. destruct (pauli_set_in below14 _ _ _ EP w s J) as [x J']. exact (strings_sized N layers SL (s, x) J').
Qed.
Lemma prepared_app N a b r : length r = N -> prepared Crt N (a ++ b) r = mvec N (cmat Crt N b) (prepared Crt N a) r.
Proof. intro Lr. unfold prepared. rewrite (mvec_meq Cx N _ _ (zero_state N) r (cmat_app Cx Crt N a b) Lr). apply mvec_mmul. Qed.
Lemma comm_meq N (H A B : mat Cx) : meq N A B -> meq N (comm N H A) (comm N H B).
Proof. intros E r c Lr Lc. unfold comm. f_equal; unfold mmul; apply sumbits_ext; intros m Lm; rewrite E by assumption; reflexivity. Qed.
Lemma comm_one N (H : mat Cx) : meq N (comm N H mone) mzero.
Proof.
  intros r c Lr Lc. pose proof (mmul_one_l Cx N H r c Lr Lc) as Q1. pose proof (mmul_one_r Cx N H r c Lr Lc) as Q2.
  unfold comm. etransitivity; [exact (f_equal2 csub Q2 Q1)|]. unfold mzero. ring.
Qed.
(** The slope of the recorded gadgets of an operator. *)
Lemma slopes_kept N H psi (b : list (list pauli * Cx)) : (forall e, In e b -> length (fst e) = N /\ cconj (snd e) = copp (snd e) /\ small (snd e) = false) ->
  slopes N H (kept below14 b) psi = fst (expect N (comm N H (omat b)) psi).
Proof.
  intro HB. rewrite slopes_gen.
  assert (KL : forall w s, In (w, s) (kept below14 b) -> length s = N).
  { intros w s I. destruct (kept_in below14 b w s I) as [x [J _]]. exact (proj1 (HB _ J)). }
  destruct (sumop_gen N (kept below14 b) KL) as [x Hx].
  assert (M : meq N (omat b) (madd (mscal ci (gen (kept below14 b))) (mscal (cmul ci x) mone))).
  { intros r c Lr Lc. rewrite (kept_sum below14 b r c).
    - rewrite (Hx r c Lr Lc). unfold madd, mscal. ring.
    - intros e I. apply HB. exact I.
    - intros [k y] I T. exfalso. destruct (HB _ I) as [_ [A S]]. cbn [snd] in *. apply below14_small in T. pose proof (imag_part y A) as F. destruct y as [u v]. cbn [fst snd] in *. subst u. congruence. }
  rewrite (CircuitProofs2.expect_meq Cx N _ _ psi (comm_meq N H _ _ M)).
  destruct (comm_lin N H ci (gen (kept below14 b)) (mscal (cmul ci x) mone)) as [Q]. rewrite (CircuitProofs2.expect_meq Cx N _ _ psi Q), expect_plus.
  assert (Z : meq N (comm N H (mscal (cmul ci x) mone)) mzero).
  { destruct (comm_lin N H (cmul ci x) mone mzero) as [Q']. intros r c Lr Lc.
    transitivity (comm N H (madd (mscal (cmul ci x) mone) mzero) r c); [apply comm_meq; [|exact Lr|exact Lc]; intros r' c' _ _; unfold madd, mzero; ring|].
    rewrite (Q' r c Lr Lc). unfold madd, mscal. rewrite (comm_one N H r c Lr Lc).
    assert (Z0 : comm N H mzero r c = c0). { unfold comm, mmul. transitivity (csub (sumbits N (fun _ => c0 : Cx)) (sumbits N (fun _ => c0))); [|rewrite sumbits_0; ring]. f_equal; apply sumbits_ext; intros; unfold mzero; ring. }
    rewrite Z0. unfold mzero. ring. }
  rewrite (CircuitProofs2.expect_meq Cx N _ _ psi Z).
  assert (E0 : expect N mzero psi = (c0 : Cx)).
  { unfold expect. transitivity (sumbits N (fun _ => c0 : Cx)); [|apply sumbits_0]. apply sumbits_ext. intros y _. unfold mvec.
    transitivity (cmul (cconj (psi y)) (sumbits N (fun _ => c0 : Cx))); [f_equal; apply sumbits_ext; intros; unfold mzero; ring|rewrite sumbits_0; ring]. }
  rewrite E0, (expect_scal Cx). set (z := expect N (comm N H (gen (kept below14 b))) psi). replace (cadd (cmul ci z) c0 : Cx) with (cmul ci z : Cx) by ring. reflexivity.
Qed.
Theorem layer_energy N (H : mat Cx) lo hi occ layers (P : cfop) gs : within N H lo hi -> (forall k, In k occ -> (k < N)%nat) -> sized_layers N (layers ++ [P]) ->
  (forall r c, length r = N -> length c = N -> cconj (fmat P c r) = copp (fmat P r c)) -> meq N (omat (jw_operator P)) (fmat P) ->
  acse_circuit N occ layers = Some gs ->
  exists gs', acse_circuit N occ (layers ++ [P]) = Some gs' /\
    Rabs (fst (expect N H (prepared Crt N gs')) - fst (expect N H (prepared Crt N gs)) - fst (expect N (comm N H (fmat P)) (prepared Crt N gs))) <= 2 * (hi - lo) * (wt P * wt P).
Proof.
  intros B LT SL A LL E. assert (SP : forall e, In e P -> length (fst e) = N) by (intros e I; apply (SL P e); [apply in_or_app; right; left; reflexivity|exact I]).
  assert (SL0 : sized_layers N layers) by (intros Q e I J; apply (SL Q e); [apply in_or_app; left; exact I|exact J]).
  pose proof (acse_valid N occ layers gs LT SL0 E) as V. pose proof (prepared_norm Cx Crt Crt_sq crt_real N gs V) as U.
  destruct (jw_wf N P SP) as [WL ND].
  assert (AC : forall e, In e (jw_operator P) -> cconj (snd e) = copp (snd e)).
  { apply (anti_coeffs N _ WL ND). intros r c Lr Lc. rewrite (LL c r Lc Lr), (LL r c Lr Lc). exact (A r c Lr Lc). }
  set (l := kept below14 (jw_operator P)).
  assert (KL : forall w s, In (w, s) l -> length s = N).
  { intros w s I. destruct (kept_in below14 _ w s I) as [x [J _]]. exact (WL _ J). }
  exists (gs ++ gadgets l (/ INR 1)). split.
  - unfold acse_circuit in *. destruct (initial_operator N occ) as [o|]; [|discriminate]. rewrite ansatz_gates_1 in *.
    destruct (pauli_set below14 None (ansatz_strings layers)) as [ga|] eqn:EP; [|discriminate]. cbn [option_map] in E. injection E as <-.
    unfold ansatz_strings in *. rewrite flat_map_app. cbn [flat_map]. rewrite app_nil_r.
    rewrite (pauli_set_app below14 _ (jw_operator P) l) with (ga := ga); [|clear - AC; subst l|exact EP].
    + cbn [option_map]. unfold gadgets at 1. rewrite flat_map_app, app_assoc. reflexivity.
    + intro c. rewrite <- (recorded below14 below14_0 (jw_operator P) AC). rewrite !(pauli_set_own R below14); [reflexivity| |];
      intros s re im I; left; rewrite <- below14_0; f_equal; exact (imag_part _ (AC _ I)).
  - assert (F1 : / INR 1 = 1) by (cbn; lra). rewrite F1.
    assert (S' : forall r, length r = N -> prepared Crt N (gs ++ gadgets l 1) r = mvec N (flow N l 1) (prepared Crt N gs) r).
    { intros r Lr. rewrite (prepared_app N gs _ r Lr). apply (mvec_meq Cx N); [|exact Lr]. apply un. apply gadgets_flow. exact KL. }
    rewrite (expect_state N H _ _ S').
    assert (G : slopes N H l (prepared Crt N gs) = fst (expect N (comm N H (fmat P)) (prepared Crt N gs))).
    { unfold l. rewrite (slopes_kept N H _ (jw_operator P)).
      - rewrite (CircuitProofs2.expect_meq Cx N _ _ _ (comm_meq N H _ _ LL)). reflexivity.
      - intros e I. split; [exact (WL e I)|]. split; [exact (AC e I)|exact (jw_clean P e I)]. }
    rewrite <- G. eapply Rle_trans; [apply (second_order N H lo hi l B KL _ U)|].
    assert (W : weight l <= wt P) by (eapply Rle_trans; [apply weight_kept|apply wt_jw]). pose proof (weight_pos l). pose proof (wt_pos P). pose proof (B _ U) as [B1 B2].
    apply Rmult_le_compat_l; [lra|]. nra.
Qed.
