(** Model of symmetric_block, hqca/tools/rdm/_spin_rdm.py l.143-157.  Arrays of four indices as functions, as in
    RdmObjModel.v; [al] is self.alp, the list of the spin-up orbitals. *)
From Coq Require Import List Arith.
From Verif Require Import Coeff HamModel RdmObjModel.
Import ListNotations.
(** l.143-157 ([symmetric_block]): the updates in the order of the loops. *)
Definition symmetric_block {K : CoefRing} (R : nat) (al : list nat) (t : nat -> nat -> nat -> nat -> K) : nat -> nat -> nat -> nat -> K :=
  apply_all (flat_map (fun i => flat_map (fun j => flat_map (fun k => map (fun l =>
    ((i mod R, k mod R, j mod R, l mod R)%nat, t i k j l)) al) al) al) al) zero4.
