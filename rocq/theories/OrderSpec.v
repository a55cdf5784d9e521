From Coq Require Import Bool List Arith.
From Verif Require Import Coeff FockSpec.
Import ListNotations.
Local Open Scope coef_scope.
(** The matrix of a sum of products of ladder letters. *)
Definition words_mat {K : CoefRing} (l : list (K * list (fop * nat))) (r d : list bool) : K :=
  fold_right (fun e s => fst e * fock_mat (snd e) r d + s) 0 l.
(** All creators before all annihilators. *)
Definition normal_ordered (w : list (fop * nat)) : Prop :=
  exists a b, w = a ++ b /\ (forall x, In x a -> fst x = Cre) /\ (forall x, In x b -> fst x = Ann).
