(** The operators built from a Cholesky decomposition. *)
From Coq Require Import Bool List Arith Lia ZArith.
From Verif Require Import Coeff MatSpec MatLemmas FockSpec OpSpec PauliModel OperatorModel OperatorProofs FermiModel FermiProofs
  InvModel InvSpec InvProofs CircuitSpec RdmSpec RdmFock HamModel HamSpec HamProofs HamProofs2 HamProofs3 HamProofs5 CholOpModel CholOpSpec.
Import ListNotations.
Section CholOp.
  Variable K : CoefRing.
  Add Ring KRing : (c_ring K).
  Local Open Scope coef_scope.
  Notation occ := (@occ K).
  Notation cut := HamSpec.cut.
  Lemma upto_zero m (f : nat -> K) : (forall i, (i < m)%nat -> f i = 0) -> upto m f = 0.
  Proof. intro H. unfold upto. rewrite (over_ext K (seq 0 m) f (fun _ => 0)) by (intros i Hi; apply in_seq in Hi; apply H; lia). apply over_0. Qed.
  Lemma word_nn i j r c : @fock_mat K [(Cre, i); (Ann, i); (Cre, j); (Ann, j)] r c = diag (fun x => occ i x * occ j x) r c.
  Proof.
    unfold diag. assert (S : bits_eqb r c = bits_eqb c r).
    { destruct (bits_eqb r c) eqn:E; [apply bits_eqb_spec in E; subst; symmetry; now apply bits_eqb_spec|destruct (bits_eqb c r) eqn:E'; [apply bits_eqb_spec in E'; subst; rewrite (proj2 (bits_eqb_spec r r) eq_refl) in E; discriminate|reflexivity]]. }
    rewrite S. unfold fock_mat, pmap_mat, CholOpSpec.occ. rewrite !fock_pair_par. cbn [fock bindo]. rewrite fock1_par. destruct (nth j c false); cbn [flipo bindo].
    - rewrite fock1_par. destruct (nth i c false); cbn [flipo bindo xorb sgn]; destruct (bits_eqb c r); ring.
    - destruct (nth i c false); destruct (bits_eqb c r); ring.
  Qed.
  Variables (tiny6 tiny8 : K -> bool).
  Lemma nf_sum n lam r c :
    over (flat_map (fun i => if tiny6 (lam i) then [] else flat_map (fun j => if tiny6 (lam j) then [] else nf_terms n lam i j) (seq 0 n)) (seq 0 n)) (fun e => fst e * fock_mat (snd e) r c)
    = diag (fun x => chalf * (weight n (fun i => cut tiny6 (lam i)) x * weight n (fun i => cut tiny6 (lam i)) x)) r c.
  Proof.
    rewrite over_flat_map.
    transitivity (upto n (fun i => upto n (fun j => chalf * (cut tiny6 (lam i) * cut tiny6 (lam j)) * diag (fun x => (occ i x + occ (i + n) x) * (occ j x + occ (j + n) x)) r c))).
    - apply over_ext. intros i _. unfold HamSpec.cut at 1. destruct (tiny6 (lam i)) eqn:Ti.
      + cbn [over fold_right]. symmetry. apply upto_zero. intros j _. unfold HamSpec.cut. ring.
      + rewrite over_flat_map. apply over_ext. intros j _. unfold HamSpec.cut. destruct (tiny6 (lam j)) eqn:Tj; [cbn [over fold_right]; ring|].
        cbn [nf_terms nn over fold_right fst snd]. rewrite !word_nn. unfold diag. destruct (bits_eqb r c); ring.
    - unfold diag. destruct (bits_eqb r c) eqn:E.
      + unfold weight at 1. transitivity (upto n (fun i => chalf * (cut tiny6 (lam i) * (occ i c + occ (i + n) c)) * weight n (fun i => cut tiny6 (lam i)) c)).
        * apply upto_ext. intros i _. unfold weight. rewrite <- upto_scal. apply upto_ext. intros j _. ring.
        * transitivity (weight n (fun i => cut tiny6 (lam i)) c * upto n (fun i => chalf * (cut tiny6 (lam i) * (occ i c + occ (i + n) c)))).
          -- rewrite <- upto_scal. apply upto_ext. intros i _. ring.
          -- rewrite upto_scal. ring.
      + apply upto_zero. intros i _. apply upto_zero. intros j _. ring.
  Qed.
  Lemma chol_Nf_spec n (lam : nat -> K) : exists F, chol_Nf tiny6 n lam = Some F /\ fwf K (2 * n) F /\
    meq (2 * n) (fmat F) (diag (fun x => chalf * (weight n (fun i => cut tiny6 (lam i)) x * weight n (fun i => cut tiny6 (lam i)) x))).
  Proof.
    unfold chol_Nf. destruct (add_strings_spec K (2 * n) (flat_map (fun i => if tiny6 (lam i) then [] else flat_map (fun j => if tiny6 (lam j) then [] else nf_terms n lam i j) (seq 0 n)) (seq 0 n)) []) as [F [E [W M]]].
    - intros e [].
    - intros e He x Hx. apply in_flat_map in He. destruct He as [i [Hi He]]. destruct (tiny6 (lam i)); [destruct He|]. apply in_flat_map in He. destruct He as [j [Hj He]].
      apply in_seq in Hi, Hj. destruct (tiny6 (lam j)); [destruct He|]. destruct He as [<-|[<-|[<-|[<-|[]]]]]; destruct Hx as [<-|[<-|[<-|[<-|[]]]]]; cbn [snd]; lia.
    - exists F. split; [exact E|]. split; [exact W|]. intros r c _ _. rewrite M, nf_sum. cbn [fmat]. unfold mzero. ring.
  Qed.
  (** The one-body operator. *)
  Lemma hop_val (x : K) i j n r c : length r = (2 * n)%nat -> length c = (2 * n)%nat -> fst (hop x i j) * fock_mat (snd (hop x i j)) r c = chalf * x * mmul (2 * n) (cre i) (ann j) r c.
  Proof. intros Hr Hc. cbn [hop fst snd]. unfold cre, ann. now rewrite (word2 K (2 * n) _ _ r c Hr Hc). Qed.
  Lemma chol_Hp_spec n (h : nat -> nat -> K) (V : nat -> nat -> nat -> nat -> K) : exists F, chol_Hp tiny8 n 0 n h V = Some F /\ fwf K (2 * n) F /\
    meq (2 * n) (fmat F) (fun x y =>
      upto (2 * n) (fun p => upto (2 * n) (fun q => chalf * cut tiny8 (h p q) * mmul (2 * n) (cre p) (ann q) x y)) +
      upto n (fun p => upto n (fun q => chalf * upto (2 * n) (fun k => cut tiny8 (V p k q k)) * mmul (2 * n) (cre p) (ann q) x y)) +
      upto n (fun p => upto n (fun q => chalf * upto (2 * n) (fun k => V (p + n)%nat k (q + n)%nat k) * mmul (2 * n) (cre (p + n)) (ann (q + n)) x y))).
  Proof.
    unfold chol_Hp.
    assert (EA : alpha_active n 0 = seq 0 n) by (unfold alpha_active; rewrite <- (map_id (seq 0 n)) at 2; apply map_ext; intro; lia).
    assert (EB : beta_active n 0 n = map (fun i => i + n)%nat (seq 0 n)) by (unfold beta_active; apply map_ext; intro; lia).
    assert (EAB : seq 0 n ++ map (fun i => i + n)%nat (seq 0 n) = seq 0 (2 * n)).
    { replace (2 * n)%nat with (n + n)%nat by lia. rewrite seq_app. f_equal.
      assert (G : forall m b, map (fun i => (i + n)%nat) (seq b m) = seq (n + b) m) by (induction m as [|m IH]; intro b; [reflexivity|]; cbn [seq map]; rewrite IH; f_equal; [lia|f_equal; lia]). rewrite G. f_equal. lia. }
    rewrite EA, EB, EAB, seq_length.
    destruct (add_strings_spec K (2 * n) (hp_alpha tiny8 V (seq 0 n) (map (fun i => (i + n)%nat) (seq 0 n)) ++ hp_beta V (seq 0 n) (map (fun i => (i + n)%nat) (seq 0 n)) ++ hp_core tiny8 h (seq 0 (2 * n))) []) as [F [E [W M]]].
    - intros e [].
    - intros e He x Hx. apply in_app_or in He. destruct He as [He|He]; [|apply in_app_or in He; destruct He as [He|He]]; apply in_flat_map in He; destruct He as [i [Hi He]]; apply in_flat_map in He; destruct He as [j [Hj He]].
      + apply in_flat_map in He. destruct He as [k [Hk He]]. apply in_seq in Hi, Hj. destruct (tiny8 (V i k j k)); [destruct He|]. destruct He as [<-|[]]. destruct Hx as [<-|[<-|[]]]; cbn [snd]; lia.
      + apply in_map_iff in He. destruct He as [k [<- Hk]]. apply in_map_iff in Hi, Hj. destruct Hi as [i' [<- Hi]], Hj as [j' [<- Hj]]. apply in_seq in Hi, Hj. destruct Hx as [<-|[<-|[]]]; cbn [snd]; lia.
      + apply in_seq in Hi, Hj. destruct (tiny8 (h i j)); [destruct He|]. destruct He as [<-|[]]. destruct Hx as [<-|[<-|[]]]; cbn [snd]; lia.
    - exists F. split; [exact E|]. split; [exact W|]. intros r c Hr Hc. rewrite M, !over_app. cbn [fmat]. unfold mzero, hp_alpha, hp_beta, hp_core. rewrite EAB.
      rewrite !over_flat_map.
      rewrite (over_ext K (seq 0 n) _ (fun p => upto n (fun q => chalf * upto (2 * n) (fun k => cut tiny8 (V p k q k)) * mmul (2 * n) (cre p) (ann q) r c))).
      2:{ intros p _. rewrite over_flat_map. apply over_ext. intros q _. rewrite over_flat_map.
          transitivity ((chalf * mmul (2 * n) (cre p) (ann q) r c) * upto (2 * n) (fun k => cut tiny8 (V p k q k))); [|ring]. rewrite <- upto_scal. apply over_ext. intros k _. unfold HamSpec.cut.
          destruct (tiny8 (V p k q k)); [cbn [over fold_right]; ring|]. unfold over. cbn [fold_right]. rewrite (hop_val _ p q n r c Hr Hc). ring. }
      rewrite over_map.
      set (A := over (seq 0 n) (fun p => upto n (fun q => chalf * upto (2 * n) (fun k => cut tiny8 (V p k q k)) * mmul (2 * n) (cre p) (ann q) r c))).
      rewrite (over_ext K (seq 0 n) _ (fun p => upto n (fun q => chalf * upto (2 * n) (fun k => V (p + n)%nat k (q + n)%nat k) * mmul (2 * n) (cre (p + n)) (ann (q + n)) r c))).
      2:{ intros p _. rewrite over_flat_map, over_map. apply over_ext. intros q _. rewrite over_map.
          transitivity ((chalf * mmul (2 * n) (cre (p + n)) (ann (q + n)) r c) * upto (2 * n) (fun k => V (p + n)%nat k (q + n)%nat k)); [|ring]. rewrite <- upto_scal. apply over_ext. intros k _.
          rewrite (hop_val _ _ _ n r c Hr Hc). ring. }
      rewrite (over_ext K (seq 0 (2 * n)) _ (fun p => upto (2 * n) (fun q => chalf * cut tiny8 (h p q) * mmul (2 * n) (cre p) (ann q) r c))).
      2:{ intros p _. rewrite over_flat_map. apply over_ext. intros q _. unfold HamSpec.cut. destruct (tiny8 (h p q)); [cbn [over fold_right]; ring|]. unfold over. cbn [fold_right]. rewrite (hop_val _ p q n r c Hr Hc). ring. }
      unfold A, upto. ring.
  Qed.
  Lemma chol_Nf_matrix n (lam : nat -> K) : exists F, chol_Nf tiny6 n lam = Some F /\
    meq (2 * n) (fmat F) (diag (fun x => chalf * (weight n (fun i => cut tiny6 (lam i)) x * weight n (fun i => cut tiny6 (lam i)) x))).
  Proof. destruct (chol_Nf_spec n lam) as [F [E [_ M]]]. exists F. now split. Qed.
  Lemma chol_Hp_matrix n (h : nat -> nat -> K) (V : nat -> nat -> nat -> nat -> K) : exists F, chol_Hp tiny8 n 0 n h V = Some F /\
    meq (2 * n) (fmat F) (fun x y =>
      upto (2 * n) (fun p => upto (2 * n) (fun q => chalf * cut tiny8 (h p q) * mmul (2 * n) (cre p) (ann q) x y)) +
      upto n (fun p => upto n (fun q => chalf * upto (2 * n) (fun k => cut tiny8 (V p k q k)) * mmul (2 * n) (cre p) (ann q) x y)) +
      upto n (fun p => upto n (fun q => chalf * upto (2 * n) (fun k => V (p + n)%nat k (q + n)%nat k) * mmul (2 * n) (cre (p + n)) (ann (q + n)) x y))).
  Proof. destruct (chol_Hp_spec n h V) as [F [E [_ M]]]. exists F. now split. Qed.
End CholOp.
