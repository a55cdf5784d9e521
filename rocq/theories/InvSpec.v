(** Matrix of a sum of fermionic strings. *)
From Coq Require Import List.
From Verif Require Import Coeff MatSpec FockSpec.
Import ListNotations.
Section InvSpec.
  Variable K : CoefRing.
  Fixpoint fmat (o : list (fstr * K)) : mat K :=
    match o with
    | [] => mzero
    | (s, x) :: o' => madd (mscal x (fstr_mat s)) (fmat o')
    end.
End InvSpec.
Arguments fmat {_}.
