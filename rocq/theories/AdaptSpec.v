(** Specification for C114: what is expected of an optimiser.  Started at [para] for the ansatz [terms] it returns
    one row of parameters of the same length, the energy there, and never a higher energy than at the start. *)
From Coq Require Import List QArith.
From Verif Require Import Coeff MatSpec AdaptModel.
Import ListNotations.
Definition honest {K : CoefRing} {G : Type} (prog : list (list nat) -> list K -> option G) (E : G -> Q)
    (m : micro K) (terms : list (list nat)) (para : list K) : Prop :=
  exists row g0 g1, mi_best_x m = Mat [row] /\ length row = length terms /\ prog terms para = Some g0 /\ prog terms row = Some g1 /\
    (mi_first m <= E g0)%Q /\ (mi_best_f m <= mi_first m)%Q /\ (mi_best_f m == E g1)%Q.
