(** Proofs about the two-qubit circuits. *)
From Coq Require Import Bool List Arith Lia Ring Setoid Morphisms.
From Verif Require Import Coeff MatSpec MatLemmas KronLemmas CircuitSpec CircuitProofs CircuitProofs2 SpecialModel SpecialSpec.
Import ListNotations.

Section SpecialP.
  Variable K : CoefRing.
  Add Ring KRing : (c_ring K).
  Local Open Scope coef_scope.
  Variable rt : K.

  Ltac bits2 := intros [|[|] [|[|] [|]]] [|[|] [|[|] [|]]] Hr Hc; try discriminate Hr; try discriminate Hc; clear Hr Hc.
  Ltac entry := cbv [gmat at1 kron repeat app Nat.sub rot madd mscal mone pmat pauli1 rx2 ry2 rz2 m2 bits_eqb cx_bits firstn skipn nth xorb
                     mmul sumbits map fst snd eqb Bool.eqb andb] ; pose proof (Ci K) as Ci; ring [Ci].
  Lemma rz0 t : meq 2 (gmat rt 2 (Grz t 0)) (rot t [PZ; PI]). Proof. destruct t as [a b]. bits2; entry. Qed.
  Lemma rz1 t : meq 2 (gmat rt 2 (Grz t 1)) (rot t [PI; PZ]). Proof. destruct t as [a b]. bits2; entry. Qed.
  Lemma rx0 t : meq 2 (gmat rt 2 (Grx t 0)) (rot t [PX; PI]). Proof. destruct t as [a b]. bits2; entry. Qed.
  Lemma ry0 t : meq 2 (gmat rt 2 (Gry t 0)) (rot t [PY; PI]). Proof. destruct t as [a b]. bits2; entry. Qed.
  Notation CX a b := (gmat rt 2 (Gcx a b)).
  Lemma cx_rot a b P P' t : meq 2 (mmul 2 (CX a b) (pmat P)) (mmul 2 (pmat P') (CX a b)) ->
    meq 2 (mmul 2 (CX a b) (rot t P)) (mmul 2 (rot t P') (CX a b)).
  Proof.
    intro H. unfold rot. eapply meq_trans; [apply mmul_add_r|]. eapply meq_trans; [|apply meq_sym, mmul_add_l].
    apply madd_meq.
    - eapply meq_trans; [apply mmul_scal_r|]. eapply meq_trans; [|apply meq_sym, mmul_scal_l]. apply mscal_meq.
      eapply meq_trans; [apply mmul_one_r|apply meq_sym, mmul_one_l].
    - eapply meq_trans; [apply mmul_scal_r|]. eapply meq_trans; [|apply meq_sym, mmul_scal_l]. apply mscal_meq. exact H.
  Qed.
  Lemma cx_xi : meq 2 (mmul 2 (CX 0 1) (pmat [PX; PI])) (mmul 2 (pmat [PX; PX]) (CX 0 1)). Proof. bits2; entry. Qed.
  Lemma cx_iz : meq 2 (mmul 2 (CX 0 1) (pmat [PI; PZ])) (mmul 2 (pmat [PZ; PZ]) (CX 0 1)). Proof. bits2; entry. Qed.
  Lemma cx_zi : meq 2 (mmul 2 (CX 0 1) (pmat [PZ; PI])) (mmul 2 (pmat [PZ; PI]) (CX 0 1)). Proof. bits2; entry. Qed.
  Lemma cx_yi : meq 2 (mmul 2 (CX 1 0) (pmat [PY; PI])) (mmul 2 (pmat [PY; PZ]) (CX 1 0)). Proof. bits2; entry. Qed.

  Inductive sm (A B : mat K) : Prop := Sm : meq 2 A B -> sm A B.
  Instance sm_equiv : Equivalence sm.
  Proof.
    split; [intro A; constructor; apply meq_refl|intros A B [H]; constructor; apply meq_sym, H|].
    intros A B C [H] [G]. constructor. exact (meq_trans _ _ _ _ _ H G).
  Qed.
  Instance sm_mul : Proper (sm ==> sm ==> sm) (mmul 2).
  Proof. intros A A' [H] B B' [G]. constructor. apply mmul_meq; assumption. Qed.
  Lemma as_ A B C : sm (mmul 2 (mmul 2 A B) C) (mmul 2 A (mmul 2 B C)). Proof. constructor. apply meq_sym, mmul_assoc. Qed.
  Lemma ol A : sm (mmul 2 mone A) A. Proof. constructor. apply mmul_one_l. Qed.
  Lemma or_ A : sm (mmul 2 A mone) A. Proof. constructor. apply mmul_one_r. Qed.
  Lemma cx2 a b : a <> b -> b < 2 -> sm (mmul 2 (CX a b) (CX a b)) mone.
  Proof. intros H L. constructor. apply cx_sq; assumption. Qed.
  Lemma past a b P P' t X : meq 2 (mmul 2 (CX a b) (pmat P)) (mmul 2 (pmat P') (CX a b)) ->
    sm (mmul 2 (CX a b) (mmul 2 (rot t P) X)) (mmul 2 (rot t P') (mmul 2 (CX a b) X)).
  Proof. intro H. rewrite <- !as_. apply sm_mul; [constructor; apply cx_rot, H|reflexivity]. Qed.
  Lemma gone a b X : a <> b -> b < 2 -> sm (mmul 2 (CX a b) (mmul 2 (CX a b) X)) X.
  Proof. intros H L. rewrite <- as_, (cx2 a b H L). apply ol. Qed.

  Theorem h2_spec zi iz zz xx :
    meq 2 (cmat rt 2 (h2_hamiltonian zi iz zz xx)) (rots 2 [(zi, [PZ; PI]); (iz, [PI; PZ]); (xx, [PX; PX]); (zz, [PZ; PZ])]).
  Proof.
    enough (E : sm (cmat rt 2 (h2_hamiltonian zi iz zz xx)) (rots 2 [(zi, [PZ; PI]); (iz, [PI; PZ]); (xx, [PX; PX]); (zz, [PZ; PZ])])) by (destruct E; assumption).
    cbn [cmat h2_hamiltonian rots]. rewrite !as_, !ol.
    rewrite (Sm _ _ (rz1 zz)), (Sm _ _ (rx0 xx)), (Sm _ _ (rz1 iz)), (Sm _ _ (rz0 zi)).
    rewrite (past 0 1 _ _ zz _ cx_iz), (past 0 1 _ _ xx _ cx_xi), gone by lia. reflexivity.
  Qed.
  Theorem ih_spec xy yx zi iz zz xx :
    meq 2 (cmat rt 2 (xy_yx_ih_simple xy yx zi iz zz xx))
          (mmul 2 (rots 2 [(xx, [PX; PX]); (zi, [PZ; PI]); (zz, [PZ; PZ]); (iz, [PI; PZ])]) (cmat rt 2 (xy_yx_simple xy yx))).
  Proof.
    enough (E : sm (cmat rt 2 (xy_yx_ih_simple xy yx zi iz zz xx))
          (mmul 2 (rots 2 [(xx, [PX; PX]); (zi, [PZ; PI]); (zz, [PZ; PZ]); (iz, [PI; PZ])]) (cmat rt 2 (xy_yx_simple xy yx)))) by (destruct E; assumption).
    cbn [cmat xy_yx_ih_simple xy_yx_simple rots]. rewrite !as_, !ol.
    rewrite (Sm _ _ (rz1 zz)), (Sm _ _ (rz1 iz)), (Sm _ _ (rx0 xx)), (Sm _ _ (rz0 zi)).
    rewrite (past 0 1 _ _ zz _ cx_iz), (past 0 1 _ _ zi _ cx_zi), (past 0 1 _ _ xx _ cx_xi). reflexivity.
  Qed.
  Theorem gate_spec xy yx : meq 2 (cmat rt 2 (xy_yx_gate xy yx)) (rots 2 [(xy, [PY; PI]); (xy, [PY; PZ])]).
  Proof.
    enough (E : sm (cmat rt 2 (xy_yx_gate xy yx)) (rots 2 [(xy, [PY; PI]); (xy, [PY; PZ])])) by (destruct E; assumption).
    cbn [cmat xy_yx_gate rots]. rewrite !as_, !ol. rewrite !(Sm _ _ (ry0 xy)).
    rewrite (past 1 0 _ _ xy _ cx_yi), gone by lia. reflexivity.
  Qed.
  Theorem simple_spec xy yx r : length r = 2 ->
    cmat rt 2 (xy_yx_simple xy yx) r [false; false] = rots 2 [(xy, [PX; PY]); (yx, [PY; PX])] r [false; false].
  Proof.
    destruct xy as [a b], yx as [c d]. pose proof (Ci K) as Ci. intro Hr. destruct r as [|[|] [|[|] [|]]]; try discriminate Hr; clear Hr;
    cbv [cmat rots xy_yx_simple plus_angle gmat at1 kron repeat app Nat.sub rot madd mscal mone pmat pauli1 rx2 ry2 rz2 m2 bits_eqb cx_bits firstn skipn nth xorb
                     mmul sumbits map fst snd eqb Bool.eqb andb]; ring [Ci].
  Qed.
  (** The rotations about XY and YX keep the parity; [xy_yx_gate] does not. *)
  Theorem rots_parity xy yx : rots 2 [(xy, [PX; PY]); (yx, [PY; PX])] [true; false] [false; false] = 0 :> K.
  Proof.
    destruct xy as [a b], yx as [c d]. pose proof (Ci K) as Ci.
    cbv [rots rot madd mscal mone pmat pauli1 bits_eqb mmul sumbits fst snd eqb Bool.eqb andb]. ring [Ci].
  Qed.
  Theorem gate_parity xy yx : cmat rt 2 (xy_yx_gate xy yx) [true; false] [false; false] = sin_of xy.
  Proof.
    rewrite gate_spec by reflexivity. destruct xy as [a b]. pose proof (Ci K) as Ci.
    cbv [rots rot madd mscal mone pmat pauli1 bits_eqb mmul sumbits fst snd eqb Bool.eqb andb sin_of]. ring [Ci].
  Qed.
End SpecialP.
