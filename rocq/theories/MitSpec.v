(** Specification of the shift error mitigation. *)
From Coq Require Import List.
From Verif Require Import Coeff OperatorModel.
Import ListNotations.

Section Spec.
  Variable K : CoefRing.
  Variable key : Type.
  Variable idx : Type.
  Notation layer := (opv K key).
  Notation rdm := (idx -> K).
  Local Open Scope coef_scope.

  (** A layer with every coefficient multiplied by [eps]. *)
  Definition damped (eps : K) (l : layer) : layer := map (fun e => (fst e, snd e * eps)) l.

  (** What remains in the corrected matrix: the effect of each scaled last layer. *)
  Fixpoint leftover (tr : list layer -> rdm) (hf : rdm) (eps : K) (done rest : list layer) (i : idx) : K :=
    match rest with
    | [] => c0
    | l :: rest' =>
        ((match done with [] => hf i | _ => tr done i end) - tr (done ++ [damped eps l]) i)
        + leftover tr hf eps (done ++ [l]) rest' i
    end.
End Spec.
Arguments damped {_ _}. Arguments leftover {_ _ _}.
