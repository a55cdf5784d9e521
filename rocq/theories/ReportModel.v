(** Model of StorageACSE.analysis (hqca/acse/_store_acse.py l.73-109) of a fermionic model: what it prints about an
    RDM object.  [eig] is np.linalg.eigvalsh; the printed lists leave out eigenvalues of modulus at most 1e-10, which is
    left to the reader of [r_eig2] and [r_eig1].  np.real of the printed numbers is left out, too. *)
From Coq Require Import Bool List Arith.
From Verif Require Import Coeff InvModel RdmModel HamModel RdmObjModel AnaModel.
Import ListNotations.

Record report {K : CoefRing} {E : Type} := Report { r_sz : K; r_s2 : K; r_n : traced K; r_eig2 : E; r_eig1 : E }.
Arguments report : clear implicits.

Section Report.
  Variable K : CoefRing.
  Variable E : Type.
  Variable eig : list (list K) -> E.
  Local Open Scope coef_scope.

  (** The rows of an array with two axes; eigvalsh raises for an array that is not a square matrix (stacks of matrices
      are left out). *)
  Definition rows (a : nda K) : option (list (list K)) :=
    match shape a with
    | [n; m] => if Nat.eqb n m then all_some (map (fun i => all_some (map (fun j => get a [i; j]) (seq 0 m))) (seq 0 n)) else None
    | _ => None
    end.
  (** rdm1.rdm after _spin_rdm.py l.375-402 ([reduce_order]) of an object whose array has been expanded. *)
  Definition rows1 (w : K) (o : rdm K) : option (list (list K)) := block (rdm1_ w o) (singles (seq 0 (so o))).
  (** l.73-105.  l.77: get_spin_properties (_spin_rdm.py l.539-554) sets sz and s2 for order 2 only (for other orders
      l.78 raises AttributeError), and expands the array (l.384 of _spin_rdm.py).  l.80: trace.  l.82, l.90: the eigenvalues
      of the contracted array.  l.98-99: expand and reduce_order.  l.102: the eigenvalues of the 1-RDM. *)
  Definition store_analysis (w : K) (o : rdm K) : option (rdm K * report K E) :=
    if negb (Nat.eqb (ord o) 2) then None
    else
      match expand o with
      | None => None
      | Some o1 =>
          match spin_properties w (alp o1) (bet o1) (fun ix => match get (arr o1) ix with Some x => x | None => 0 end) with
          | None => None
          | Some (sz, s2) =>
              match trace_ o1 with
              | None => None
              | Some (o2, n) =>
                  match contract o2 with
                  | None => None
                  | Some o3 =>
                      match rows (arr o3), expand o3 with
                      | Some M2, Some o4 => option_map (fun M1 => (o4, Report K E sz s2 n (eig M2) (eig M1))) (rows1 w o4)
                      | _, _ => None
                      end
                  end
              end
          end
      end.
End Report.
Arguments rows {_}. Arguments rows1 {_}. Arguments store_analysis {_ _}.
