(** hqca/core/primitives/_special.py: two-qubit circuits, importable by the full name of the module only (they are commented out
    in the package's __all__).  An angle theta is the pair (cos(theta/2), sin(theta/2)); the products angle*scaling of the code
    are given as angles.  Left out: the branch v2=False of [xy_yx_gate] (it uses the gate cz). *)
From Coq Require Import List.
From Verif Require Import Coeff MatSpec CircuitSpec.
Import ListNotations.
Local Open Scope coef_scope.

Section Special.
  Variable K : CoefRing.
  (** The sum of two angles, as in [xy+yx]. *)
  Definition plus_angle (a b : angle K) : angle K := (fst a * fst b - snd a * snd b, snd a * fst b + fst a * snd b).
  (** l.3-9 *)
  Definition h2_hamiltonian (zi iz zz xx : angle K) : list (gate K) := [Grz zi 0; Grz iz 1; Gcx 0 1; Grx xx 0; Grz zz 1; Gcx 0 1].
  (** l.11-17 *)
  Definition xy_yx_ih_simple (xy yx zi iz zz xx : angle K) : list (gate K) :=
    [Gry (plus_angle xy yx) 0; Grx xx 0; Grz zi 0; Grz zz 1; Gcx 0 1; Grz iz 1].
  (** l.19-21 *)
  Definition xy_yx_simple (xy yx : angle K) : list (gate K) := [Gry (plus_angle xy yx) 0; Gcx 0 1].
  (** l.24-29, the default v2=True. *)
  Definition xy_yx_gate (xy yx : angle K) : list (gate K) := [Gry xy 0; Gcx 1 0; Gry xy 0; Gcx 1 0].
End Special.
Arguments plus_angle {_}. Arguments h2_hamiltonian {_}. Arguments xy_yx_ih_simple {_}. Arguments xy_yx_simple {_}. Arguments xy_yx_gate {_}.
