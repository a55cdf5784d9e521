(** Model of hqca/acse/_class_A_acse.py (solvecACSE), of the operator built by hqca/acse/_quant_A_acse.py
    (solveqACSE, l.49-68) and of hqca/acse/_tools_acse.py (vector_to_operator, l.161-214).

    Measured RDMs and the reduced Hamiltonian are given arrays.  The verbose printing and the norm that is returned
    beside the operator are not modelled here (ResNorm models the norm check). *)
From Coq Require Import Bool List Arith.
From Verif Require Import Coeff MatSpec FockSpec FermiModel OperatorModel RdmModel InvModel HamModel.
Import ListNotations.
Section Res.
  Variable K : CoefRing.
  Local Open Scope coef_scope.
  Notation tensor4 := (nat -> nat -> nat -> nat -> K).
  Notation fop_ := (list (fstr * K)).

  (** np.real. *)
  Definition re (x : K) : K := chalf * (x + cconj x).
  (** [np.dot(X,Y.T).trace()] of d by d arrays. *)
  Definition tr2 (d : nat) (X Y : nat -> nat -> K) : K := sum_range d (fun a => sum_range d (fun b => X a b * Y a b)).

  (** l.39-63: the RDMs that are used; [t] is the measured one, of order [p]; [w] is 1/(Ne-p+1) of reduce_order.
      [None]: ResidualError. *)
  Definition class_rdms (Ne p d : nat) (w : K) (t : tensor K) : option (tensor K * tensor K) :=
    if (Ne <? 3) && Nat.eqb p 2 then Some (t, fun _ => 0)
    else if Nat.eqb p 3 then Some (reduce_order 3 d w t, t)
    else None.
  (** l.84. *)
  Definition antisymmetrised (K2 : tensor4) : tensor4 := fun a b c d => K2 a b c d + - K2 a b d c.
  (** l.79, l.85-97, with the real RDMs of l.71-72. *)
  Definition class_updates (d : nat) (so : list nat) (D2 D3 : tensor K) (W : tensor4) : list ((nat * nat * nat * nat) * K) :=
    flat_map (fun i => flat_map (fun j => flat_map (fun k => flat_map (fun l =>
      ((i, k, j, l), - tr2 d (fun a b => D2 [a; b; j; l]) (fun a b => W a b i k)) ::
      ((i, k, j, l), tr2 d (fun a b => D2 [a; b; i; k]) (fun a b => W a b j l)) ::
      flat_map (fun r =>
        [((i, k, j, l), tr2 d (fun a b => D3 [a; r; k; j; l; b]) (fun a b => W a r i b));
         ((i, k, j, l), - tr2 d (fun a b => D3 [a; r; i; j; l; b]) (fun a b => W a r k b));
         ((i, k, j, l), - tr2 d (fun a b => D3 [i; k; a; r; b; j]) (fun a b => W a l r b));
         ((i, k, j, l), tr2 d (fun a b => D3 [i; k; a; r; b; l]) (fun a b => W a j r b))]) so) so) so) so) so.
  (** The array A of solvecACSE. *)
  Definition class_residual (Ne p d : nat) (w : K) (so : list nat) (t : tensor K) (K2 : tensor4) : option tensor4 :=
    match class_rdms Ne p d w t with
    | None => None
    | Some (D2, D3) =>
        Some (apply_all (class_updates d so (fun x => re (D2 x)) (fun x => re (D3 x)) (antisymmetrised K2)) (fun _ _ _ _ => 0))
    end.

  (** l.98-106: the vector returned with matrix=True; assigning to the float array keeps the real part.  A key of
      another shape does not occur ([None]: the unpacking raises). *)
  Definition class_entry (A : tensor4) (key : list nat) : option K :=
    match key with
    | i :: k :: l :: j :: _ => Some (- re (A i k l j))
    | _ => None
    end.

  (** np.nonzero of a d by d by d by d array, with the values. *)
  Definition nonzeros (d : nat) (A : tensor4) : list ((nat * nat * nat * nat) * K) :=
    filter (fun e => negb (ceqb (snd e) 0))
      (flat_map (fun i => flat_map (fun k => flat_map (fun j => map (fun l => ((i, k, j, l), A i k j l)) (seq 0 d)) (seq 0 d)) (seq 0 d)) (seq 0 d)).
  (** _class_A_acse.py l.108-121, _quant_A_acse.py l.52-66: the operator.  [keep x] is [abs(x)>=S_min]; [N] is the
      number of modes of the strings. *)
  Definition residual_operator (keep : K -> bool) (d N : nat) (A : tensor4) : option fop_ :=
    add_strings N
      (map (fun e => let '(i, k, j, l, x) := e in (- x, [(Cre, i); (Cre, k); (Ann, l); (Ann, j)]))
        (filter (fun e => keep (snd e)) (nonzeros d A))) [].

  (** _tools_acse.py l.161-203 with fermi=True, user=False, for a column vector; [drop x] is [abs(x)<=S_min]. *)
  Definition vector_terms (drop : K -> bool) (kv : list (list nat * K)) : option (list (K * list (fop * nat))) :=
    all_some (map (fun e : list nat * K =>
      match firstn 2 (fst e) ++ rev (skipn 2 (fst e)) with
      | [a; b; c; e'] => Some ((1 + 1 + 1 + 1) * snd e, [(Cre, a); (Cre, b); (Ann, c); (Ann, e')])
      | _ => None
      end) (filter (fun e => negb (drop (snd e))) kv)).
  Definition vector_to_operator (drop : K -> bool) (N : nat) (kv : list (list nat * K)) : option fop_ :=
    match vector_terms drop kv with
    | Some l => add_strings N l []
    | None => None
    end.
End Res.
Arguments re {_}. Arguments tr2 {_}. Arguments class_rdms {_}. Arguments antisymmetrised {_}. Arguments class_updates {_}.
Arguments class_residual {_}. Arguments class_entry {_}. Arguments nonzeros {_}. Arguments residual_operator {_}.
Arguments vector_terms {_}. Arguments vector_to_operator {_}.
