(** The spin-up block of the 2-RDM. *)
From Coq Require Import Bool List Arith Lia Ring.
From Verif Require Import Coeff MatSpec FockSpec RdmModel RdmSpec RdmFock HamModel HamSpec HamProofs HamProofs2 HamProofs3 RdmObjModel RdmObjProofs2 RdmObjProofs4 UpBlockModel.
Import ListNotations.
Section Sym.
  Variable K : CoefRing.
  Add Ring KRing : (c_ring K).
  Local Open Scope coef_scope.
  Notation tensor4 := (nat -> nat -> nat -> nat -> K).
  Notation dl := (delta K).
  (** Default numbering, inside. *)
  Lemma sym_block_get R (t : tensor4) i k j l :
    symmetric_block R (seq 0 R) t i k j l = if (i <? R) && (k <? R) && (j <? R) && (l <? R) then t i k j l else 0.
  Proof.
    unfold symmetric_block. rewrite apply_get. unfold zero4 at 1. rewrite over_flat_map. change (over (seq 0 R)) with (@upto K R).
    rewrite (upto_ext K R _ (fun i' => upto R (fun j' => upto R (fun k' => upto R (fun l' => dl (0 + i') i * (dl (0 + k') k * (dl (0 + j') j * (dl (0 + l') l * t i' k' j' l')))))))).
    - rewrite (block_sum K R 0 0 0 0 i k j l t). unfold hit. rewrite !Nat.sub_0_r. cbn [Nat.leb andb]. destruct ((i <? R) && (k <? R) && (j <? R) && (l <? R)); ring.
    - intros i' Hi'. rewrite over_flat_map. apply upto_ext. intros j' Hj'. rewrite over_flat_map. apply upto_ext. intros k' Hk'.
      rewrite !over_map. apply upto_ext. intros l' Hl'. cbn [at4]. rewrite !Nat.add_0_l, !Nat.mod_small by assumption. reflexivity.
  Qed.
End Sym.
