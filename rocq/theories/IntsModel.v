(** Model of the integral transformations of hqca/tools/_chemistry.py.

    Arrays are functions of the indices (numpy floats as elements of the coefficient ring).  [s2s] is the dictionary
    spin2spac.  A missing key and an index outside the arrays raise ([None]); the model raises for every index outside,
    also when no statement happens to touch it.  get_spin_ei and gen_spin_2ei_QISKit (undefined name fx), get_ei
    (pyscf) are not modelled; gen_spin_1ei_lr is in LrModel.v. *)
From Coq Require Import Bool List Arith.
From Verif Require Import Coeff InvModel HamModel.
Import ListNotations.
Local Open Scope coef_scope.

(** The dictionaries alpha_mo and beta_mo, molecular.py l.205-216. *)
Record groups := mkGroups { g_inactive : list nat; g_active : list nat; g_virtual : list nat }.
Inductive region := Full | Active.

(** molecular.py l.200-217, qubit_particle.py l.204-227: _generate_active_space. *)
Definition alpha_mo (No_as No_core No_tot : nat) : groups :=
  let No_v := (No_tot - No_core - No_as)%nat in
  mkGroups (alpha_inactive No_core) (alpha_active No_as No_core) (map (fun i => No_tot - No_v + i)%nat (seq 0 No_v)).
Definition beta_mo (No_as No_core No_tot : nat) : groups :=
  let No_v := (No_tot - No_core - No_as)%nat in
  mkGroups (beta_inactive No_core No_tot) (beta_active No_as No_core No_tot) (map (fun i => i + 2 * No_tot - No_v)%nat (seq 0 No_v)).
(** qubit_particle.py l.229-234: _generate_spin2spac_mapping. *)
Definition spin2spac (No_tot i : nat) : option nat :=
  if (i <? No_tot) then Some i else if (i <? 2 * No_tot) then Some (i - No_tot)%nat else None.

(** _chemistry.py l.194-202, l.280-293: the orbitals of the region. *)
Definition orbitals (r : region) (g : groups) : list nat :=
  match r with
  | Full => g_inactive g ++ g_active g ++ g_virtual g
  | Active => g_active g ++ g_inactive g
  end.
(** [P = spin2spac[i]] for the orbitals of a list. *)
Definition located (N : nat) (s2s : nat -> option nat) (l : list nat) : option (list (nat * nat)) :=
  all_some (map (fun i => match s2s i with Some P => if (P <? N) && (i <? 2 * N) then Some (i, P) else None | None => None end) l).

Section Ints.
  Variable K : CoefRing.
  Notation array2 := (nat -> nat -> K).
  Notation array4 := (nat -> nat -> nat -> nat -> K).
  Variable N : nat.

  Definition add2 (i j : nat) (v : K) (t : array2) : array2 := fun a b => if Nat.eqb a i && Nat.eqb b j then t a b + v else t a b.
  Definition set2 (i j : nat) (v : K) (t : array2) : array2 := fun a b => if Nat.eqb a i && Nat.eqb b j then v else t a b.
  (** l.204-213 (and l.214-223): one spin. *)
  Definition ei1_step (U ei : array2) (L : list (nat * nat)) (st : array2 * array2) (iP : nat * nat) : array2 * array2 :=
    let '(temp1, new) := st in let '(i, P) := iP in
    let temp1 := fold_left (fun t a => fun p b => if Nat.eqb p P then t p b + U P a * ei a b else t p b) (seq 0 N) temp1 in
    (temp1, fold_left (fun new jQ => let '(j, Q) := jQ in
                fold_left (fun n b => add2 i j (U Q b * temp1 P b) n) (seq 0 N) (set2 i j 0 new)) L new).
  Definition ei1_block (U ei : array2) (L : list (nat * nat)) (new : array2) : array2 :=
    snd (fold_left (ei1_step U ei L) L (fun _ _ => 0, new)).
  (** l.184-224: generate_spin_1ei.  [new] is the argument new_ei; with region='full' it is not used. *)
  Definition generate_spin_1ei (ei U_a U_b : array2) (alpha beta : groups) (r : region) (s2s : nat -> option nat) (new : option array2) : option array2 :=
    match located N s2s (orbitals r alpha), located N s2s (orbitals r beta) with
    | Some A, Some B =>
        let start := match r, new with Active, Some t => t | _, _ => fun _ _ => 0 end in
        Some (ei1_block U_b ei B (ei1_block U_a ei A start))
    | _, _ => None
    end.

  (** l.299-322 and the three blocks that follow: [L1], [U1] for i and j, [L2], [U2] for k and l; [skip] for the tests
      [if i==k: continue] and [if j==l: continue]; [place] gives the position written. *)
  Section Block.
    Variables (U1 U2 : array2) (skip : bool) (place : nat -> nat -> nat -> nat -> nat * nat * nat * nat).
    Definition ei2_l (i P j Q k R : nat) (temp3 : array4) (new : array4) (lS : nat * nat) : array4 :=
      let '(l, S') := lS in
      if skip && Nat.eqb j l then new
      else fold_left (fun n d => upd4 (place i k j l, U2 S' d * temp3 P Q R d) n) (seq 0 N) new.
    Definition ei2_k (L2 : list (nat * nat)) (i P j Q : nat) (temp2 : array4) (st : array4 * array4) (kR : nat * nat) : array4 * array4 :=
      let '(temp3, new) := st in let '(k, R) := kR in
      if skip && Nat.eqb i k then st
      else
        let temp3 := fold_left (fun t c => fun p q r d => if Nat.eqb p P && Nat.eqb q Q && Nat.eqb r R then t p q r d + U2 R c * temp2 P Q c d else t p q r d) (seq 0 N) temp3 in
        (temp3, fold_left (ei2_l i P j Q k R temp3) L2 new).
    Definition ei2_j (L2 : list (nat * nat)) (i P : nat) (temp1 : array4) (st : array4 * (array4 * array4)) (jQ : nat * nat) : array4 * (array4 * array4) :=
      let '(temp2, st) := st in let '(j, Q) := jQ in
      let temp2 := fold_left (fun t b => fun p q c d => if Nat.eqb p P && Nat.eqb q Q then t p q c d + U1 Q b * temp1 P b c d else t p q c d) (seq 0 N) temp2 in
      (temp2, fold_left (ei2_k L2 i P j Q temp2) L2 st).
    Definition ei2_i (ei : array4) (L1 L2 : list (nat * nat)) (st : array4 * (array4 * (array4 * array4))) (iP : nat * nat) : array4 * (array4 * (array4 * array4)) :=
      let '(temp1, st) := st in let '(i, P) := iP in
      let temp1 := fold_left (fun t a => fun p b c d => if Nat.eqb p P then t p b c d + U1 P a * ei a b c d else t p b c d) (seq 0 N) temp1 in
      (temp1, fold_left (ei2_j L2 i P temp1) L1 st).
    Definition ei2_block (ei : array4) (L1 L2 : list (nat * nat)) (new : array4) : array4 :=
      let zero := fun _ _ _ _ => 0 in
      snd (snd (snd (fold_left (ei2_i ei L1 L2) L1 (zero, (zero, (zero, new)))))).
  End Block.
  (** l.296-390: the four blocks alpha-alpha, alpha-beta, beta-alpha, beta-beta. *)
  Definition four_blocks (skip : bool) place (ei : array4) (U_a U_b : array2) (A B : list (nat * nat)) (new : array4) : array4 :=
    ei2_block U_b U_b skip place ei B B
      (ei2_block U_b U_a false place ei B A (ei2_block U_a U_b false place ei A B (ei2_block U_a U_a skip place ei A A new))).
  Definition spin_2ei (skip : bool) place (ei : array4) (U_a U_b : array2) (alpha beta : groups) (r : region) (s2s : nat -> option nat) (new : option array4) : option array4 :=
    match located N s2s (orbitals r alpha), located N s2s (orbitals r beta) with
    | Some A, Some B =>
        let start := match r, new with Active, Some t => t | _, _ => fun _ _ _ _ => 0 end in
        Some (four_blocks skip place ei U_a U_b A B start)
    | _, _ => None
    end.
  (** l.266-391. *)
  Definition generate_spin_2ei := spin_2ei true (fun i k j l => (i, k, j, l)).
  (** l.393-516: the integrals, and the temporaries, have their two middle indices exchanged. *)
  Definition generate_spin_2ei_phys (ei : array4) := generate_spin_2ei (fun a b c d => ei a c b d).
  (** l.635-752. *)
  Definition generate_spin_2ei_pyscf := spin_2ei false (fun i k j l => (i, j, k, l)).
End Ints.

(** ** l.9-27: reorder.  [ge x y] is [x>=y]; the result maps a position to the signed position of its column,
    see [reorder]: row x of the matrix product [np.dot(temp,T)]. *)
Section Reorder.
  Variable K : CoefRing.
  Notation array2 := (nat -> nat -> K).
  Variable ge : K -> K -> bool.
  Definition identity : array2 := fun a b => if Nat.eqb a b then 1 else 0.
  Definition entry (a b : nat) (v : K) (t : array2) : array2 := fun x y => if Nat.eqb x a && Nat.eqb y b then v else t x y.
  Definition dot (n : nat) (A B : array2) : array2 := fun x y => fold_left (fun s k => s + A x k * B k y) (seq 0 n) 0.
  Definition reorder (rdm1 : array2) (orbit : nat) : array2 :=
    fold_left (fun T i => fold_left (fun T j =>
        if ge (rdm1 i i) (rdm1 j j) then T
        else dot orbit (entry j i 1 (entry i j (- (1)) (entry j j 0 (entry i i 0 identity)))) T)
      (seq (S i) (orbit - S i)) T) (seq 0 orbit) identity.
End Reorder.
Arguments generate_spin_1ei {_}. Arguments generate_spin_2ei {_}. Arguments generate_spin_2ei_phys {_}. Arguments generate_spin_2ei_pyscf {_}.
Arguments ei1_block {_}. Arguments ei2_block {_}. Arguments reorder {_}. Arguments dot {_}. Arguments identity {_}. Arguments spin_2ei {_}.
