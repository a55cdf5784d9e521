(** The energy functional of the projected reduced Hamiltonian. *)
From Coq Require Import Bool List Arith Lia Permutation.
From Verif Require Import Coeff MatSpec MatLemmas FockSpec OpSpec PauliModel OperatorModel OperatorProofs OpTotal FermiModel FermiProofs AdjProofs
  InvModel InvSpec InvProofs CircuitSpec RdmSpec RdmFock TaperProofs TaperProofs2 HamModel HamSpec HamProofs HamProofs2 HamProofs3 ResSpec ResProofs OrderModel OrderProofs KeyProofs ProjModel ProjProofs ProjProofs2.
Import ListNotations.

Definition fdec2 : forall a b : fstr, {a = b} + {a <> b}.
Proof. apply list_eq_dec. intros a b. decide equality. decide equality. Defined.

Section Energy.
  Variable K : CoefRing.
  Add Ring KRing : (c_ring K).
  Local Open Scope coef_scope.
  Notation tensor4 := (nat -> nat -> nat -> nat -> K).
  Lemma fock_real l r c : cconj (@fock_mat K l r c) = fock_mat l r c.
  Proof. unfold fock_mat, pmap_mat. destruct (fock l c) as [[s m]|]; [|apply cconj_0]. destruct (bits_eqb m r); [|apply cconj_0]. apply (pm_conj K _ (pm_sgn K s)). Qed.
  Lemma fock_transpose l n r c : length r = n -> length c = n -> @fock_mat K (rev (map cadj l)) r c = fock_mat l c r.
  Proof. intros Lr Lc. rewrite (fock_mat_adj K l n r c Lr Lc). unfold madj. apply fock_real. Qed.
  (** The expectation of the transposed string. *)
  Definition texp (R : nat) (psi : bits -> K) (s : fstr) : K := expect R (fun x y => fstr_mat s y x) psi.
  Lemma texp_key R psi w s u : wkey K R w s u -> texp R psi s = u * expect R (fock_mat (rev (map cadj w))) psi.
  Proof.
    intros [L [P [M _]]]. unfold texp. rewrite <- expect_scal. apply expect_ext. intros x y Hx Hy. unfold mscal. rewrite (fock_transpose w R x y Hx Hy), M.
    transitivity ((u * u) * fstr_mat s y x); [rewrite (pm_sq K u P); ring|ring].
  Qed.
  Lemma texp_sum R psi (G : list (fstr * K)) : expect R (fun x y => fmat G y x) psi = over G (fun e => snd e * texp R psi (fst e)).
  Proof.
    transitivity (over G (fun e => expect R (mscal (snd e) (fun x y => fstr_mat (fst e) y x)) psi)); [|apply over_ext; intros e _; apply expect_scal].
    transitivity (expect R (fun x y => lsum G (fun e => mscal (snd e) (fun x y => fstr_mat (fst e) y x) x y)) psi).
    - apply expect_ext. intros x y _ _. rewrite fmat_lin. induction G as [|[k c] G IH]; [reflexivity|]. cbn [lin lsum fold_right fst snd]. unfold lsum in IH. now rewrite <- IH.
    - symmetry. exact (lsum_expect K R G (fun e => mscal (snd e) (fun x y => fstr_mat (fst e) y x)) psi).
  Qed.

  Variables (tiny : K -> bool) (n d Ne : nat) (w : K) (h : nat -> nat -> K) (V : tensor4).
  Hypothesis Hd : (n + n <= d)%nat.
  Hypothesis tiny_0 : tiny 0 = true.
  Hypothesis th : forall a b, tiny (h a b) = true -> h a b = 0.
  Hypothesis tV : forall a b c e, tiny (V a b c e) = true -> V a b c e = 0.
  Let R := (2 * n)%nat.
  Variable psi : bits -> K.
  Hypothesis Hpsi : has_particles R Ne psi.
  Hypothesis Hw : (1 + 1 + 1 + 1) * w * ofnat (Ne - 1) = 1.
  Notation D := (fun a b c e => rdm_of R psi [a; b] [c; e]).
  Notation gain us := (over us (fun u => let '(a, b, c, e, v) := u in v * rdm_of R psi [c; e] [a; b])).
  Lemma gain1 i j : gain (proj_entries R w h V [i; j]) = h i j * rdm_of R psi [j] [i].
  Proof.
    cbn [proj_entries]. rewrite over_flat_map.
    rewrite (over_ext K (seq 0 R) _ (fun k => ((1 + 1 + 1 + 1) * (h i j * w)) * rdm_of R psi [j; k] [i; k])).
    2:{ intros k _. rewrite <- (one_body_value K (fun a => a) R psi (h i j * w) i j k). cbn [one_body over fold_right]. ring. }
    rewrite over_scal. change (over (seq 0 R) (fun k => rdm_of R psi [j; k] [i; k])) with (upto R (fun k => rdm_of R psi [j; k] [i; k])). rewrite (contract2 K R Ne psi j i Hpsi).
    transitivity (((1 + 1 + 1 + 1) * w * ofnat (Ne - 1)) * (h i j * rdm_of R psi [j] [i])); [ring|rewrite Hw; ring].
  Qed.
  Lemma gain2 i k l j : gain (proj_entries R w h V [i; k; l; j]) = anti K V i k j l * rdm_of R psi [j; l] [i; k].
  Proof.
    cbn [proj_entries over fold_right]. unfold anti.
    rewrite (D_swap_ann K R psi j l i k), (D_swap_both K R psi j l i k).
    assert (E : rdm_of R psi [l; j] [i; k] = - rdm_of R psi [j; l] [i; k]). { assert (A := rdm_antisym_cre K R psi [] l j [] [i; k]). cbn [app] in A. exact A. }
    rewrite E. ring.
  Qed.
  Lemma anti_cre i k j l : anti K V k i j l = - anti K V i k j l.
  Proof. unfold anti. ring. Qed.
  Lemma anti_ann i k j l : anti K V i k l j = - anti K V i k j l.
  Proof. unfold anti. ring. Qed.
  Variable F : list (fstr * K).
  Hypothesis HF : fermi_operator tiny d n 0 n h V = Some F.
  Lemma string_gain fuel s c : (16 < fuel)%nat -> In (s, c) F -> exists c' l, order_as_D_matrix fuel (s, c) = Some [(c', l)] /\ (forall x, In x (map snd l) -> (x < R)%nat) /\
    gain (proj_entries R w h V (map snd l)) = c * texp R psi s.
  Proof.
    intros Hf I. destruct (strings_of K tiny n d h V Hd tiny_0 fdec2 th tV F HF s c I) as [[i [j [u [Hi [Hj [Q ->]]]]]]|[i [k [l [j [u [Hi [Hk [Hl [Hj [Nik [Njl [Q ->]]]]]]]]]]]]].
    - destruct (order_key K _ _ s u (h i j * u) fuel Q) as [c' [a [b [E [Pa Pb]]]]]; try discriminate; [cbn; lia|]. exists c', (a ++ b). split; [exact E|].
      cbn in Pa, Pb. apply Permutation_sym, Permutation_length_1_inv in Pa. apply Permutation_sym, Permutation_length_1_inv in Pb. rewrite map_app, Pa, Pb. cbn [app]. split.
      + intros x [<-|[<-|[]]]; assumption.
      + rewrite gain1, (texp_key R psi _ s u Q). assert (P := pm_sq K u (proj1 (proj2 Q))).
        change (expect R (fock_mat (rev (map cadj (w1 i j)))) psi) with (rdm_of R psi [j] [i]). transitivity ((u * u) * (h i j * rdm_of R psi [j] [i])); [rewrite P; ring|ring].
    - destruct (order_key K _ _ s u (anti K V i k j l * u) fuel Q) as [c' [a [b [E [Pa Pb]]]]]; try discriminate; [cbn; lia|]. exists c', (a ++ b). split; [exact E|].
      cbn in Pa, Pb. apply Permutation_sym, Permutation_length_2_inv in Pa. apply Permutation_sym, Permutation_length_2_inv in Pb.
      assert (T : anti K V i k j l * rdm_of R psi [j; l] [i; k] = anti K V i k j l * u * texp R psi s).
      { rewrite (texp_key R psi _ s u Q). assert (P := pm_sq K u (proj1 (proj2 Q))).
        change (expect R (fock_mat (rev (map cadj (w2 i k l j)))) psi) with (rdm_of R psi [j; l] [i; k]). transitivity ((u * u) * (anti K V i k j l * rdm_of R psi [j; l] [i; k])); [rewrite P; ring|ring]. }
      assert (S1 : forall p q, rdm_of R psi [l; j] [p; q] = - rdm_of R psi [j; l] [p; q]). { intros p q. assert (A := rdm_antisym_cre K R psi [] l j [] [p; q]). cbn [app] in A. exact A. }
      rewrite map_app. split.
      + intros x Hx. destruct Pa as [Pa|Pa], Pb as [Pb|Pb]; rewrite Pa, Pb in Hx; destruct Hx as [<-|[<-|[<-|[<-|[]]]]]; assumption.
      + rewrite <- T. destruct Pa as [Pa|Pa], Pb as [Pb|Pb]; rewrite Pa, Pb; cbn [app]; rewrite gain2.
        * ring.
        * rewrite (anti_ann i k j l), (S1 i k). ring.
        * rewrite (anti_cre i k j l), (D_swap_ann K R psi j l i k). ring.
        * rewrite (anti_cre i k l j), (anti_ann i k j l), (S1 k i), (D_swap_ann K R psi j l i k). ring.
  Qed.
  Lemma entries_bound inds x : (forall i, In i inds -> (i < R)%nat) -> In x (proj_entries R w h V inds) -> let '(a, b, c, e, _) := x in (a < R /\ b < R /\ c < R /\ e < R)%nat.
  Proof.
    intros H Hx. destruct inds as [|i [|k [|l [|j [|? ?]]]]]; try (destruct Hx; fail); cbn [proj_entries] in Hx.
    - assert (Hi := H i (or_introl eq_refl)). assert (Hk := H k (or_intror (or_introl eq_refl))). apply in_flat_map in Hx. destruct Hx as [m [Hm Hx]]. apply in_seq in Hm.
      destruct Hx as [<-|[<-|[<-|[<-|[]]]]]; lia.
    - assert (Hi := H i (or_introl eq_refl)). assert (Hk := H k (or_intror (or_introl eq_refl))). assert (Hl := H l (or_intror (or_intror (or_introl eq_refl)))). assert (Hj := H j (or_intror (or_intror (or_intror (or_introl eq_refl))))).
      destruct Hx as [<-|[<-|[<-|[<-|[]]]]]; lia.
  Qed.
  Lemma project_gain fuel discard : (16 < fuel)%nat -> forall G (t : tensor4), (forall e, In e G -> In e F) ->
    exists t', project fuel R w h V discard G t = Some t' /\ observable R t' D = observable R t D + over (filter (fun e => negb (discard e)) G) (fun e => snd e * texp R psi (fst e)).
  Proof.
    intro Hf. induction G as [|[s c] G IH]; intros t HG; [exists t; split; [reflexivity|cbn; ring]|]. cbn [project filter].
    destruct (discard (s, c)); cbn [negb].
    - apply IH. intros e He. apply HG. now right.
    - destruct (string_gain fuel s c Hf (HG _ (or_introl eq_refl))) as [c' [l [E [Hb Hg]]]]. rewrite E.
      destruct (IH (apply_all (proj_entries R w h V (map snd l)) t)) as [t' [E' H']]; [intros e He; apply HG; now right|]. exists t'. split; [exact E'|]. rewrite H'.
      rewrite observable_apply by (intros a b c0 e v Hi; exact (entries_bound (map snd l) (a, b, c0, e, v) Hb Hi)). cbn [over fold_right fst snd]. rewrite Hg. unfold over. ring.
  Qed.
End Energy.

Section Final.
  Variable K : CoefRing.
  Add Ring KRing2 : (c_ring K).
  Local Open Scope coef_scope.
  Lemma observable_zero r (D : nat -> nat -> nat -> nat -> K) : observable r (fun _ _ _ _ => 0) D = 0.
  Proof. rewrite observable_eq. apply upto_zero. intros. apply upto_zero. intros. apply upto_zero. intros. apply upto_zero. intros. ring. Qed.
  Lemma projected_energy fuel (tiny : K -> bool) n d Ne (w : K) h V discard (psi : bits -> K) : (16 < fuel)%nat -> (2 * n <= d)%nat -> tiny 0 = true ->
    (forall a b, tiny (h a b) = true -> h a b = 0) -> (forall a b c e, tiny (V a b c e) = true -> V a b c e = 0) ->
    has_particles (2 * n) Ne psi -> (1 + 1 + 1 + 1) * w * ofnat (Ne - 1) = 1 ->
    exists F K2, fermi_operator tiny d n 0 n h V = Some F /\ build_projected_K2 fuel tiny d n 0 n w h V discard = Some K2 /\
      observable (2 * n) K2 (fun a b c e => rdm_of (2 * n) psi [a; b] [c; e]) = expect (2 * n) (fun x y => fmat (filter (fun f => negb (discard f)) F) y x) psi.
  Proof.
    intros Hf Hd T0 Th TV HP Hw. destruct (fermi_operator_spec K tiny d n 0 n h V ltac:(lia) ltac:(lia)) as [F [E _]].
    destruct (project_gain K tiny n d Ne w h V ltac:(lia) T0 Th TV psi HP Hw F E fuel discard Hf F (fun _ _ _ _ => 0) (fun e He => He)) as [K2 [E2 G]].
    exists F, K2. split; [exact E|]. split; [unfold build_projected_K2; rewrite E; exact E2|]. rewrite texp_sum. etransitivity; [exact G|]. rewrite observable_zero. ring.
  Qed.
  (** Real states: the transposition does not matter. *)
  Lemma expect_transpose R (A : mat K) (psi : bits -> K) : (forall x, length x = R -> cconj (psi x) = psi x) -> expect R (fun x y => A y x) psi = expect R A psi.
  Proof.
    intro Hr. unfold expect, mvec.
    transitivity (sumbits R (fun r => sumbits R (fun c => psi r * A c r * psi c))).
    - apply sumbits_ext. intros r Lr. rewrite <- sumbits_scal. apply sumbits_ext. intros c Lc. rewrite (Hr r Lr). ring.
    - rewrite sumbits_swap. apply sumbits_ext. intros r Lr. rewrite <- sumbits_scal. apply sumbits_ext. intros c Lc. rewrite (Hr r Lr). ring.
  Qed.
  Lemma projected_real fuel (tiny : K -> bool) n d Ne (w : K) h V discard (psi : bits -> K) : (16 < fuel)%nat -> (2 * n <= d)%nat -> tiny 0 = true ->
    (forall a b, tiny (h a b) = true -> h a b = 0) -> (forall a b c e, tiny (V a b c e) = true -> V a b c e = 0) ->
    has_particles (2 * n) Ne psi -> (1 + 1 + 1 + 1) * w * ofnat (Ne - 1) = 1 -> (forall x, length x = (2 * n)%nat -> cconj (psi x) = psi x) ->
    exists F K2, fermi_operator tiny d n 0 n h V = Some F /\ build_projected_K2 fuel tiny d n 0 n w h V discard = Some K2 /\
      observable (2 * n) K2 (fun a b c e => rdm_of (2 * n) psi [a; b] [c; e]) = expect (2 * n) (fmat (filter (fun f => negb (discard f)) F)) psi.
  Proof.
    intros Hf Hd T0 Th TV HP Hw Hr. destruct (projected_energy fuel tiny n d Ne w h V discard psi Hf Hd T0 Th TV HP Hw) as [F [K2 [E [E2 G]]]].
    exists F, K2. split; [exact E|]. split; [exact E2|]. rewrite G. exact (expect_transpose (2 * n) (fmat (filter (fun f => negb (discard f)) F)) psi Hr).
  Qed.
  Lemma projected_nothing fuel (tiny : K -> bool) n d Ne (w : K) h V (psi : bits -> K) : (16 < fuel)%nat -> (2 * n <= d)%nat -> tiny 0 = true ->
    (forall a b, tiny (h a b) = true -> h a b = 0) -> (forall a b c e, tiny (V a b c e) = true -> V a b c e = 0) ->
    has_particles (2 * n) Ne psi -> (1 + 1 + 1 + 1) * w * ofnat (Ne - 1) = 1 ->
    exists K2, build_projected_K2 fuel tiny d n 0 n w h V (fun _ => false) = Some K2 /\
      observable (2 * n) K2 (fun a b c e => rdm_of (2 * n) psi [a; b] [c; e]) = observable (2 * n) (build_K2 (2 * n) w h V) (fun a b c e => rdm_of (2 * n) psi [a; b] [c; e]).
  Proof.
    intros Hf Hd T0 Th TV HP Hw. destruct (projected_energy fuel tiny n d Ne w h V (fun _ => false) psi Hf Hd T0 Th TV HP Hw) as [F [K2 [E [E2 G]]]].
    exists K2. split; [exact E2|]. rewrite G, (K2_energy K (2 * n) Ne w h V psi HP Hw).
    destruct (fermi_operator_spec K tiny d n 0 n h V ltac:(lia) ltac:(lia)) as [F' [E' [_ M]]]. rewrite E in E'. injection E' as <-.
    assert (FF : filter (fun f => negb (false : bool)) F = F) by (clear; induction F as [|f F IH]; [reflexivity|exact (f_equal (cons f) IH)]). 
    apply expect_ext. intros x y Hx Hy. transitivity (fmat F y x); [exact (f_equal (fun o => fmat o y x) FF)|]. rewrite (M y x Hy Hx). unfold ham.
    assert (OI : forall i, (i < 2 * n)%nat -> orb n 0 n i = i) by (intros i Hi; unfold orb; destruct (Nat.ltb_spec i n); lia).
    f_equal.
    - rewrite upto_swap. apply upto_ext. intros p Hp. apply upto_ext. intros q Hq. rewrite !OI by assumption.
      assert (C : HamProofs.cut K tiny (h q p) = h q p) by (unfold HamProofs.cut; destruct (tiny (h q p)) eqn:Q; [now rewrite (Th _ _ Q)|reflexivity]). rewrite C. f_equal.
      transitivity (@fock_mat K [(Cre, q); (Ann, p)] y x); [exact (word2 K (2 * n) (Cre, q) (Ann, p) y x Hy Hx)|].
      transitivity (@fock_mat K [(Cre, p); (Ann, q)] x y); [exact (eq_sym (fock_transpose K [(Cre, q); (Ann, p)] (2 * n) x y Hx Hy))|symmetry; exact (word2 K (2 * n) (Cre, p) (Ann, q) x y Hx Hy)].
    - f_equal.
      transitivity (upto (2 * n) (fun q => upto (2 * n) (fun s => upto (2 * n) (fun p => upto (2 * n) (fun t => V q s p t * mmul (2 * n) (cre p) (mmul (2 * n) (cre t) (mmul (2 * n) (ann s) (ann q))) x y))))).
      + apply upto_ext. intros q Hq. apply upto_ext. intros s Hs. apply upto_ext. intros p Hp. apply upto_ext. intros t Ht. rewrite !OI by assumption.
        assert (C : HamProofs.cut K tiny (V q s p t) = V q s p t) by (unfold HamProofs.cut; destruct (tiny (V q s p t)) eqn:Q; [now rewrite (TV _ _ _ _ Q)|reflexivity]). rewrite C. f_equal.
        transitivity (@fock_mat K [(Cre, q); (Cre, s); (Ann, t); (Ann, p)] y x); [exact (word4 K (2 * n) (Cre, q) (Cre, s) (Ann, t) (Ann, p) y x Hy Hx)|].
        transitivity (@fock_mat K [(Cre, p); (Cre, t); (Ann, s); (Ann, q)] x y); [exact (eq_sym (fock_transpose K [(Cre, q); (Cre, s); (Ann, t); (Ann, p)] (2 * n) x y Hx Hy))|symmetry; exact (word4 K (2 * n) (Cre, p) (Cre, t) (Ann, s) (Ann, q) x y Hx Hy)].
      + transitivity (upto (2 * n) (fun p => upto (2 * n) (fun q => upto (2 * n) (fun s => upto (2 * n) (fun t => V q s p t * mmul (2 * n) (cre p) (mmul (2 * n) (cre t) (mmul (2 * n) (ann s) (ann q))) x y))))).
        * rewrite (upto_swap K (2 * n) (2 * n) (fun p q => upto (2 * n) (fun s => upto (2 * n) (fun t => V q s p t * mmul (2 * n) (cre p) (mmul (2 * n) (cre t) (mmul (2 * n) (ann s) (ann q))) x y)))). apply upto_ext. intros q _. apply upto_swap.
        * apply upto_ext. intros p _. transitivity (upto (2 * n) (fun q => upto (2 * n) (fun t => upto (2 * n) (fun s => V q s p t * mmul (2 * n) (cre p) (mmul (2 * n) (cre t) (mmul (2 * n) (ann s) (ann q))) x y)))).
          -- apply upto_ext. intros q _. apply upto_swap.
          -- apply upto_swap.
  Qed.
End Final.
