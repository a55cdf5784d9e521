(** C181: the two-qubit circuits of core/primitives/_special.py, for all angles, each the pair (cos(theta/2), sin(theta/2)). *)
From Coq Require Import Bool List Arith ZArith.
From Verif Require Import Coeff Sqrt2 MatSpec CircuitSpec PlanSpec SpecialModel SpecialSpec SpecialProofs.
Import ListNotations.
Local Open Scope nat_scope.

(** [h2_hamiltonian] is one Trotter step: the rotations about ZI, IZ, XX and ZZ by the angles given, in this order. *)
Theorem C181_h2 : forall (K : CoefRing) (rt : K) (zi iz zz xx : angle K),
  meq 2 (cmat rt 2 (h2_hamiltonian zi iz zz xx)) (rots 2 [(zi, [PZ; PI]); (iz, [PI; PZ]); (xx, [PX; PX]); (zz, [PZ; PZ])]).
Proof. exact h2_spec. Qed.
Print Assumptions C181_h2.

(** [xy_yx_simple] makes from |00> the state that the rotations about XY and YX make. *)
Theorem C181_simple : forall (K : CoefRing) (rt : K) (xy yx : angle K) r, length r = 2 ->
  cmat rt 2 (xy_yx_simple xy yx) r [false; false] = rots 2 [(xy, [PX; PY]); (yx, [PY; PX])] r [false; false].
Proof. exact simple_spec. Qed.
Print Assumptions C181_simple.

(** [xy_yx_ih_simple] is [xy_yx_simple] followed by the four rotations of the Hamiltonian, here about XX, ZI, ZZ and IZ. *)
Theorem C181_combined : forall (K : CoefRing) (rt : K) (xy yx zi iz zz xx : angle K),
  meq 2 (cmat rt 2 (xy_yx_ih_simple xy yx zi iz zz xx))
        (mmul 2 (rots 2 [(xx, [PX; PX]); (zi, [PZ; PI]); (zz, [PZ; PZ]); (iz, [PI; PZ])]) (cmat rt 2 (xy_yx_simple xy yx))).
Proof. exact ih_spec. Qed.
Print Assumptions C181_combined.

(** [xy_yx_gate] is the rotations about YI and YZ, both by the angle of xy; yx does not occur. *)
Theorem C181_gate : forall (K : CoefRing) (rt : K) (xy yx : angle K),
  meq 2 (cmat rt 2 (xy_yx_gate xy yx)) (rots 2 [(xy, [PY; PI]); (xy, [PY; PZ])]).
Proof. exact gate_spec. Qed.
Print Assumptions C181_gate.
(** It is not the rotations about XY and YX, by whatever angles: unless sin(xy) = 0 it takes |00> in part to |10>. *)
Theorem C181_gate_differs : forall (K : CoefRing) (rt : K) (xy yx a b : angle K), sin_of xy <> c0 ->
  ~ meq 2 (cmat rt 2 (xy_yx_gate xy yx)) (rots 2 [(a, [PX; PY]); (b, [PY; PX])]).
Proof.
  intros K rt xy yx a b H E. apply H. rewrite <- (gate_parity K rt xy yx), <- (rots_parity K a b). apply E; reflexivity.
Qed.
Print Assumptions C181_gate_differs.
Definition a181 : angle GaussQ := (gq 3 5, gq 4 5).
Theorem C181_gate_refuted : exists xy yx : angle GaussQ, real_angle xy /\ real_angle yx /\
  forall rt : GaussQ, ~ meq 2 (cmat rt 2 (xy_yx_gate xy yx)) (rots 2 [(xy, [PX; PY]); (yx, [PY; PX])]).
Proof.
  exists a181, a181. assert (R : real_angle a181) by (repeat split; apply (ceqb_spec GaussQ); vm_compute; reflexivity).
  split; [exact R|]. split; [exact R|]. intro rt. apply C181_gate_differs. intro H. apply (ceqb_spec GaussQ) in H. vm_compute in H. discriminate H.
Qed.
Print Assumptions C181_gate_refuted.

(** Case: the angle with cosine 3/5 and sine 4/5 of its half.  From |00>, [xy_yx_simple] with it twice makes
    -7/25 |00> + 24/25 |11>, [h2_hamiltonian] with it for xx alone 3/5 |00> - 4/5 i |11>. *)
Definition o181 : angle GaussQ := (gz 1, gz 0).
Example C181_case :
  let zero := [false; false] in let one := [true; true] in
  ceqb (cmat (gz 0) 2 (xy_yx_simple a181 a181) zero zero) (gq (-7) 25) = true /\
  ceqb (cmat (gz 0) 2 (xy_yx_simple a181 a181) one zero) (gq 24 25) = true /\
  ceqb (cmat (gz 0) 2 (h2_hamiltonian o181 o181 o181 a181) zero zero) (gq 3 5) = true /\
  ceqb (cmat (gz 0) 2 (h2_hamiltonian o181 o181 o181 a181) one zero) (copp (cmul ci (gq 4 5))) = true.
Proof. repeat split; vm_compute; reflexivity. Qed.
