(** Model of [compare_tomography] (hqca/tomography/_reduce_circuit.py l.174-235) and of the dispatch of [Graph.color]
    (hqca/tomography/__graph.py l.32-78).  Colourings computed by the external libraries are given.  [None]: an exception. *)
From Coq Require Import Bool List Arith.
From Verif Require Import MatSpec CircuitModel TomoModel.
Import ListNotations.
Local Open Scope nat_scope.

(** One pair of zip(methods,strategies): 'greedy' calls [greedy_color], which no module defines or imports (l.44); 'gt' with 'default',
    with 'rlf', with 'largest_first' or 'lf'; anything else (l.43-78: no branch). *)
Inductive color_call := Greedy | GtDefault (alg : list nat) | GtRlf | GtLargest (alg : list nat) | NoBranch.
(** The attribute [colors] after the call; before the first call it is absent.  l.56-61: 'default' does not reset it, so without an
    earlier colouring the handler itself raises (when there is a vertex).  l.62-63, l.83-160: 'rlf' uses numpy, which is not imported. *)
Definition color (n : nat) (c : color_call) (colors : option (list (nat * list nat))) : option (option (list (nat * list nat))) :=
  match c with
  | Greedy => None
  | GtDefault alg =>
      match colors, alg with
      | None, [] => Some None
      | None, _ :: _ => None
      | Some d, _ => Some (Some (color_dict 0 alg d))
      end
  | GtRlf => if Nat.eqb n 0 then Some (Some []) else None
  | GtLargest alg => Some (Some (color_dict 0 alg []))
  | NoBranch => Some colors
  end.
(** l.205-234: one turn; l.219: max of an empty list raises.  There is no check of the result. *)
Definition measurements (operators : list (list pauli)) (colors : list (nat * list nat)) : option (list (list pauli) * pdict) :=
  match colors with
  | [] => None
  | _ =>
      match option_seq (map (fun c => match dget c colors with
                                      | None => None
                                      | Some v => match select operators v with None => None | Some A => find_largest A end
                                      end) (seq 0 (length colors))) with
      | None => None
      | Some ops => match build_paulis operators ops colors [] with None => None | Some paulis => Some (ops, paulis) end
      end
  end.
Fixpoint compare_loop (operators : list (list pauli)) (calls : list color_call) (colors : option (list (nat * list nat))) (result : option (list (list pauli) * pdict)) : option (list (list pauli) * pdict) :=
  match calls with
  | [] => result
  | c :: calls' =>
      match color (length operators) c colors with
      | None | Some None => None
      | Some (Some d) => match measurements operators d with None => None | Some r => compare_loop operators calls' (Some d) (Some r) end
      end
  end.
(** l.174-235; l.235 raises when the loop has not been entered. *)
Definition compare_tomography (rel : relation) (operators : list (list pauli)) (calls : list color_call) : option (list (list pauli) * pdict) :=
  match graph_edges rel operators with
  | None => None
  | Some _ => compare_loop operators calls None None
  end.
