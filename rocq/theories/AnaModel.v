(** Model of RDM.analysis (hqca/tools/rdm/_spin_rdm.py l.215-330): the eigenvalues of the spin blocks of an RDM object.
    The printing is left out.  [eig] is np.linalg.eigvalsh; the result of a call on an object of order 2 is a tuple of
    five results of [eig]. *)
From Coq Require Import Bool List Arith.
From Verif Require Import Coeff InvModel RdmModel RdmObjModel.
Import ListNotations.

(** l.223-226 and l.230-233: aa_basis and bb_basis, the ordered pairs of one spin. *)
Definition up_pairs (l : list nat) : list (list nat) := flat_map (fun i => map (fun j => [i; j]) (filter (fun j => i <? j) l)) l.
(** l.227-229: ab_basis. *)
Definition mixed_pairs (a b : list nat) : list (list nat) := flat_map (fun i => map (fun j => [i; j]) b) a.
(** l.286-289: the indices of the one-particle blocks. *)
Definition singles (l : list nat) : list (list nat) := map (fun i => [i]) l.

Section Ana.
  Variable K : CoefRing.
  Variable E : Type.
  Variable eig : list (list K) -> E.
  Local Open Scope coef_scope.

  (** l.240-251 and l.286-293: the matrix of the elements t[I+J]; [None] is IndexError. *)
  Definition block (t : list nat -> option K) (basis : list (list nat)) : option (list (list K)) :=
    all_some (map (fun I => all_some (map (fun J => t (I ++ J)) basis)) basis).
  (** l.284, l.310: b1 = np.zeros((len(self.alp),len(self.alp))) holds the block of the beta orbitals: IndexError when
      there are more of them than alpha orbitals, zeros where there are fewer. *)
  Definition pad (n : nat) (M : list (list K)) : option (list (list K)) :=
    if (n <? length M)%nat then None
    else Some (map (fun row => row ++ repeat 0 (n - length M)) M ++ repeat (repeat 0 n) (n - length M)).
  (** l.285: rdm1.rdm, of shape (r,r).  The array has been expanded, so every element that [reduce_order] reads exists. *)
  Definition rdm1_ (w : K) (o : rdm K) (ind : list nat) : option K :=
    match ind with
    | [i; j] =>
        if (i <? so o)%nat && (j <? so o)%nat
        then Some (reduce_order 2 (so o) w (fun ix => match get (arr o) ix with Some x => x | None => 0 end) ind)
        else None
    | _ => None
    end.
  (** l.215-330 ([analysis]): the object afterwards and what is returned (None for orders other than 2).  [w] is
      1/(Ne-1) (the case Ne = 1, a division by zero, is left out). *)
  Definition analysis (w : K) (o : rdm K) : option (rdm K * option (E * E * E * E * E)) :=
    match expand o with
    | None => None
    | Some o1 =>
        let beta_block t := match block t (singles (bet o1)) with Some M => pad (length (alp o1)) M | None => None end in
        match ord o1 with
        | 2%nat =>
            match block (get (arr o1)) (up_pairs (alp o1)), block (get (arr o1)) (mixed_pairs (alp o1) (bet o1)),
                  block (get (arr o1)) (up_pairs (bet o1)), block (rdm1_ w o1) (singles (alp o1)), beta_block (rdm1_ w o1) with
            | Some aa, Some ab, Some bb, Some a1, Some b1 => Some (o1, Some (eig aa, eig bb, eig ab, eig a1, eig b1))
            | _, _, _, _, _ => None
            end
        | 1%nat =>
            match block (get (arr o1)) (singles (alp o1)), beta_block (get (arr o1)) with
            | Some _, Some _ => Some (o1, None)
            | _, _ => None
            end
        | _ => Some (o1, None)
        end
    end.
End Ana.
Arguments block {_}. Arguments pad {_}. Arguments rdm1_ {_}. Arguments analysis {_ _}.
