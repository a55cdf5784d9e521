(** Model of build_2rdm, hqca/tools/rdm/_qubit_rdm.py l.504-654.

    The wavefunction dictionary is the list of its items in order; arrays are functions of the indices.  An orbital outside the array
    raises IndexError ([None]); the model raises for every such orbital, also when no statement happens to touch it.  [region] is
    'full' or 'active' (any other value leaves alpha and beta dictionaries, whose keys are no orbitals). *)
From Coq Require Import Bool List Arith ZArith.
From Verif Require Import Coeff MatSpec InvModel IntsModel.
Import ListNotations.
Local Open Scope nat_scope.

(** l.518-524: [det[:j]+'0'+det[j+1:]] and so on. *)
Definition set_char (p : nat) (b : bool) (det : bits) : bits := firstn p det ++ b :: skipn (p + 1) det.
Definition new_det (i k l j : nat) (det : bits) : bits :=
  set_char i true (set_char k true (set_char l false (set_char j false det))).
(** l.525-530. *)
Definition delta (a b : nat) : Z := if Nat.eqb a b then 1%Z else 0%Z.
(** l.531-537; only called for places inside the string. *)
Definition phase_before (det : bits) (place start : nat) : Z :=
  fold_left (fun p i => if nth i det false then (p * -1)%Z else p) (seq start (place - start)) 1%Z.
(** [(b1+b2+...)%2==1] for booleans. *)
Definition odd_many (l : list bool) : bool := Nat.eqb (fold_left (fun n b => n + Nat.b2n b) l 0 mod 2) 1.
(** l.515-575: phase_2e_oper; an orbital outside the string raises. *)
Definition phase_2e_oper (I K L J : nat) (det : bits) (low : nat) : option (Z * bits) :=
  match nth_error det I, nth_error det K, nth_error det L, nth_error det J with
  | Some bI, Some bK, Some bL, Some bJ =>
      let a1 := L <=? J in
      let b1 := K <=? L in let b2 := K <=? J in
      let c1 := I <=? K in let c2 := I <=? L in let c3 := I <=? J in
      let eps1 := if odd_many [a1] then (-1)%Z else 1%Z in
      let eps2 := if odd_many [b1; b2] then (-1)%Z else 1%Z in
      let eps3 := if odd_many [c1; c2; c3] then (-1)%Z else 1%Z in
      let t2 := (1 - delta L J)%Z in
      let t1 := (1 - delta I K)%Z in
      let t7 := (eps1 * eps2 * eps3)%Z in
      let d1 := delta I L in let d2 := delta I J in let d3 := delta K L in let d4 := delta K J in
      let kI := Z.b2z bI in let kK := Z.b2z bK in let kL := Z.b2z bL in let kJ := Z.b2z bJ in
      let pI := phase_before det I low in let pK := phase_before det K low in
      let pL := phase_before det L low in let pJ := phase_before det J low in
      let t6 := (pJ * pL * pK * pI)%Z in
      let t5 := (kL * kJ)%Z in
      let t3 := (d1 + d2 + 1 - kI)%Z in
      let t4 := (d3 + d4 + 1 - kK)%Z in
      Some ((t1 * t2 * t3 * t4 * t5 * t6 * t7)%Z, new_det I K L J det)
  | _, _, _, _ => None
  end.

(** A fold whose body may raise. *)
Fixpoint fold_opt {A B} (f : A -> B -> option A) (l : list B) (a : A) : option A :=
  match l with
  | [] => Some a
  | x :: l' => match f a x with None => None | Some a' => fold_opt f l' a' end
  end.

Section W2.
  Variable K : CoefRing.
  Local Open Scope coef_scope.
  Notation array4 := (nat -> nat -> nat -> nat -> K).
  Definition wavefunction := list (bits * K).

  (** [check in wf] and [wf[check]]. *)
  Fixpoint wf_get (x : bits) (wf : wavefunction) : option K :=
    match wf with [] => None | (d, v) :: wf' => if bits_eqb d x then Some v else wf_get x wf' end.
  (** The integer phase as a coefficient; it is -1, 0 or 1. *)
  Definition of_phase (z : Z) : K := if (z =? 0)%Z then 0 else if (z <? 0)%Z then - (1) else 1.
  Definition at4 (t : array4) (p : nat * nat * nat * nat) : K := let '(a, b, c, d) := p in t a b c d.
  Definition set4 (p : nat * nat * nat * nat) (v : K) (t : array4) : array4 :=
    let '(i, k, l, j) := p in fun a b c d => if Nat.eqb a i && Nat.eqb b k && Nat.eqb c l && Nat.eqb d j then v else t a b c d.
  Definition add4 (p : nat * nat * nat * nat) (v : K) (t : array4) : array4 := set4 p (at4 t p + v) t.
  (** l.601-609 (and l.627-635, l.645-653): one determinant. *)
  Definition det_step (wf : wavefunction) (i k l j : nat) (t : array4) (e : bits * K) : option array4 :=
    match phase_2e_oper i k l j (fst e) 0 with
    | None => None
    | Some (ph, check) =>
        if (ph =? 0)%Z then Some t else
        match wf_get check wf with
        | None => Some t
        | Some w =>
            let p := of_phase ph in
            let t := add4 (i, k, l, j) (- (1) * p * snd e * cconj w) t in
            let t := add4 (k, i, j, l) (- (1) * p * snd e * cconj w) t in
            let t := add4 (i, k, j, l) (1 * p * snd e * cconj w) t in
            Some (add4 (k, i, l, j) (1 * p * snd e * cconj w) t)
        end
    end.
  (** l.594-609 (l.619-635, l.638-653): one quadruple.  [fixed]: set((i,j,k,l)).issubset of the inactive orbitals. *)
  Definition quad_step (r : region) (fixed : list nat) (wf : wavefunction) (t : array4) (q : nat * nat * nat * nat) : option array4 :=
    let '(i, k, l, j) := q in
    match r with
    | Full => fold_opt (det_step wf i k l j) wf t
    | Active =>
        if forallb (fun x => existsb (Nat.eqb x) fixed) [i; j; k; l] then Some t else
        fold_opt (det_step wf i k l j) wf
          (set4 (i, k, j, l) 0 (set4 (k, i, j, l) 0 (set4 (k, i, l, j) 0 (set4 (i, k, l, j) 0 t))))
    end.
  (** l.587-593, l.611-617: the quadruples of one spin, in the order of the loops. *)
  Definition same_spin (o : list nat) : list (nat * nat * nat * nat) :=
    flat_map (fun i => flat_map (fun k => if (i <? k)%nat then
      flat_map (fun l => flat_map (fun j => if (l <? j)%nat then [(i, k, l, j)] else []) o) o else []) o) o.
  (** l.636-639. *)
  Definition mixed_spin (a b : list nat) : list (nat * nat * nat * nat) :=
    flat_map (fun i => flat_map (fun j => flat_map (fun k => map (fun l => (i, k, l, j)) b) b) a) a.
  (** l.504-513, l.576-654; N is the extent of the given array for region='active'. *)
  Definition build_2rdm (wf : wavefunction) (alpha beta : groups) (r : region) (given : option (nat * array4)) : option (nat * array4) :=
    let norb := (length (g_inactive alpha ++ g_virtual alpha ++ g_active alpha) + length (g_virtual beta ++ g_inactive beta ++ g_active beta))%nat in
    let a := g_inactive alpha ++ g_active alpha in
    let b := g_inactive beta ++ g_active beta in
    match (match r with Full => Some (norb, fun _ _ _ _ => 0) | Active => given end) with
    | None => None
    | Some (N, t0) =>
        if forallb (fun x => x <? N)%nat (a ++ b) then
          match fold_opt (quad_step r (g_inactive alpha) wf) (same_spin a) t0 with
          | None => None
          | Some t1 =>
              match fold_opt (quad_step r (g_inactive beta) wf) (same_spin b) t1 with
              | None => None
              | Some t2 =>
                  match fold_opt (quad_step r (g_inactive alpha ++ g_inactive beta) wf) (mixed_spin a b) t2 with
                  | None => None
                  | Some t3 => Some (N, t3)
                  end
              end
          end
        else None
    end.
End W2.
Arguments wf_get {_}. Arguments of_phase {_}. Arguments at4 {_}. Arguments set4 {_}. Arguments add4 {_}. Arguments det_step {_}.
Arguments quad_step {_}. Arguments build_2rdm {_}.
