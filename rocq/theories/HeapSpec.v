(** What a user observes of the operators of a heap state: the dictionary keys with the string
    objects stored under them. *)
From Coq Require Import List.
From Verif Require Import Coeff OperatorHeap.
Import ListNotations.

Section HeapSpec.
  Variable K : CoefRing.
  Variable key : Type.

  (** Operator [i]: for each dictionary key the object (letters, coefficient) stored under it. *)
  Definition contents (st : state K key) (i : nat) : option (list (key * option (key * K))) :=
    option_map (map (fun e => (fst e, nth_error (hp st) (snd e)))) (nth_error (ops st) i).

  (** Operator [i] holds exactly these strings with these coefficients, each under its own key. *)
  Definition holds (st : state K key) (i : nat) (v : list (key * K)) : Prop :=
    contents st i = Some (map (fun e => (fst e, Some e)) v).

  (** Operators [i] and [j] store no common string object. *)
  Definition share_nothing (st : state K key) (i j : nat) : Prop :=
    forall d e a k k', nth_error (ops st) i = Some d -> nth_error (ops st) j = Some e ->
      In (k, a) d -> In (k', a) e -> False.
  (** Operator [i] does not store the string object [a]. *)
  Definition not_stored (st : state K key) (i a : nat) : Prop :=
    forall d k, nth_error (ops st) i = Some d -> ~ In (k, a) d.

  (** The operator a call modifies in place, if any. *)
  Definition target (c : cmd K key) : option nat :=
    match c with
    | AddStr i _ | AddOp i _ | SubStr i _ | SubOp i _ | Clean i | Remove i _ => Some i
    | _ => None
    end.
  (** The in-place negating calls. *)
  Definition is_sub (c : cmd K key) : bool := match c with SubStr _ _ | SubOp _ _ => true | _ => false end.

  (** The operator whose terms a call cleans: the modified or the newly created one. *)
  Definition cleaned (c : cmd K key) (st : state K key) : option nat :=
    match c with
    | AddOp i _ | SubOp i _ | Clean i => Some i
    | MulStr _ _ | MulOp _ _ => Some (length (ops st))
    | _ => None
    end.
End HeapSpec.
Arguments target {_ _}. Arguments is_sub {_ _}. Arguments cleaned {_ _}.
Arguments contents {_ _}. Arguments holds {_ _}. Arguments share_nothing {_ _}. Arguments not_stored {_ _}.

(** The state inside a successful result (used to name concrete states in examples). *)
Definition get_state {K key} (o : option (state K key)) : state K key :=
  match o with Some st => st | None => init end.
Definition succeeds {K key} (o : option (state K key)) : bool := match o with Some _ => true | None => false end.
Lemma succeeds_get {K key} (o : option (state K key)) : succeeds o = true -> o = Some (get_state o).
Proof. destruct o; [reflexivity|discriminate]. Qed.
