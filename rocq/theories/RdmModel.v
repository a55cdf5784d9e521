(** Model of the reduced density matrix code:
    hqca/tomography/_tomography.py (generate_rdme, _generate_1rdme .. _generate_4rdme,
    _build_fermionic_RDM), hqca/tools/rdm/_functions.py (Recursive.permute, unordered_permute) and
    hqca/tools/rdm/_spin_rdm.py (RDM._build_hf_spin, reduce_order, __mul__).

    An index is a natural number.  A numpy array is a function from index lists to coefficients;
    numpy's range check on indices is not modelled.  A sign +1/-1 is a boolean, [true] for -1.
    [alp] and [bet] are [self.qs.groups[0]] and [self.qs.groups[1]]. *)
From Coq Require Import Bool List Arith.
From Verif Require Import Coeff FockSpec FermiModel OpSpec OperatorModel.
Import ListNotations.

(** * Enumeration of the elements to measure *)

(** [imag and not real and a==b] of _tomography.py l.383, l.392, l.420, l.433, l.444, l.493, l.554. *)
Definition skip_diag (real imag same : bool) : bool := imag && negb real && same.

(** _tomography.py l.379-385 (and l.388-394 with [bet]). *)
Definition rdm1_block (real imag : bool) (g : list nat) : list (list nat) :=
  flat_map (fun i => flat_map (fun j =>
    if j <? i then [] else if skip_diag real imag (i =? j) then [] else [[i; j]]) g) g.

(** _tomography.py l.364-395. *)
Definition rdm1_elements (real imag : bool) (alp bet : list nat) : list (list nat) :=
  rdm1_block real imag alp ++ rdm1_block real imag bet.

(** _tomography.py l.412-422 (and l.425-435 with [bet]); [Na] is [len(alp)] in both. *)
Definition rdm2_same (real imag : bool) (Na : nat) (g : list nat) : list (list nat) :=
  flat_map (fun i => flat_map (fun k =>
    if k <=? i then [] else
    flat_map (fun l => flat_map (fun j =>
      if (l <=? j) || (j * Na + l <? i * Na + k) then []
      else if skip_diag real imag (i * Na + k =? j * Na + l) then []
      else [[i; k; l; j]]) g) g) g) g.

(** _tomography.py l.438-446. *)
Definition rdm2_mixed (real imag : bool) (Na : nat) (alp bet : list nat) : list (list nat) :=
  flat_map (fun i => flat_map (fun k =>
    flat_map (fun l => flat_map (fun j =>
      if j * Na + l <? i * Na + k then []
      else if skip_diag real imag (i * Na + k =? j * Na + l) then []
      else [[i; k; l; j]]) alp) bet) bet) alp.

(** _tomography.py l.399-447. *)
Definition rdm2_elements (real imag : bool) (alp bet : list nat) : list (list nat) :=
  let Na := length alp in
  rdm2_same real imag Na alp ++ rdm2_same real imag Na bet ++ rdm2_mixed real imag Na alp bet.

(** _tomography.py l.475-497 ([generate_indices]). *)
Definition rdm3_block (real imag : bool) (N : nat) (g1 g2 g3 : list nat) : list (list nat) :=
  flat_map (fun i => flat_map (fun k =>
    if k <=? i then [] else
    flat_map (fun m =>
      if m <=? k then [] else
      let c1 := i * N ^ 2 + k * N + m in
      flat_map (fun n => flat_map (fun l =>
        if n <=? l then [] else
        flat_map (fun j =>
          let c2 := j * N ^ 2 + l * N + n in
          if (c2 <? c1) || (l <=? j) then []
          else if skip_diag real imag (c1 =? c2) then []
          else [[i; k; m; n; l; j]]) g1) g2) g3) g3) g2) g1.

(** _tomography.py l.452-501. *)
Definition rdm3_elements (real imag : bool) (alp bet : list nat) : list (list nat) :=
  let N := length alp in
  rdm3_block real imag N alp alp alp ++ rdm3_block real imag N alp alp bet
  ++ rdm3_block real imag N alp bet bet ++ rdm3_block real imag N bet bet bet.

(** _tomography.py l.530-557 ([generate_indices] of the 4-RDM, with the test [o>=m] of l.540). *)
Definition rdm4_block (real imag : bool) (N : nat) (g1 g2 g3 g4 : list nat) : list (list nat) :=
  flat_map (fun i => flat_map (fun k =>
    if k <=? i then [] else
    flat_map (fun m =>
      if m <=? k then [] else
      flat_map (fun o =>
        if m <=? o then [] else
        let c1 := i * N ^ 3 + k * N ^ 2 + m * N + o in
        flat_map (fun p => flat_map (fun n =>
          if p <=? n then [] else
          flat_map (fun l =>
            if n <=? l then [] else
            flat_map (fun j =>
              let c2 := j * N ^ 3 + l * N ^ 2 + n * N + p in
              if (c2 <? c1) || (l <=? j) then []
              else if skip_diag real imag (c1 =? c2) then []
              else [[i; k; m; o; p; n; l; j]]) g1) g2) g3) g4) g4) g3) g2) g1.

(** _tomography.py l.507-562. *)
Definition rdm4_elements (real imag : bool) (alp bet : list nat) : list (list nat) :=
  let N := length alp in
  rdm4_block real imag N alp alp alp alp ++ rdm4_block real imag N alp alp alp bet
  ++ rdm4_block real imag N alp alp bet bet ++ rdm4_block real imag N alp bet bet bet
  ++ rdm4_block real imag N bet bet bet bet.

(** * Recursive *)

(** _functions.py l.115-119: the loop over the remaining choices; [s] is multiplied by (-1)**n in
    every round and keeps its value for the next one.  The recursive call is the argument [rec]. *)
Fixpoint uperm_loop {A} (rec : list A -> A -> bool -> list (list A * bool))
  (n : nat) (s : bool) (before rest : list A) : list (list A * bool) :=
  match rest with
  | [] => []
  | j :: rest' =>
      let s' := xorb s (Nat.odd n) in
      rec (before ++ rest') j s' ++ uperm_loop rec (S n) s' (before ++ [j]) rest'
  end.

(** _functions.py l.101-119 with a non-empty [temp]; a pair is [temp] and the sign appended to it. *)
Fixpoint uperm_in {A} (d : nat) (temp choices : list A) (s : bool) : list (list A * bool) :=
  match d with
  | O => match choices with [] => [(temp, s)] | _ => [] end
  | S d' => uperm_loop (fun ch j s' => uperm_in d' (temp ++ [j]) ch s') 0 s [] choices
  end.

(** _functions.py l.107-113: the outermost loop, where [s] is [(-1)**n]. *)
Fixpoint uperm_top {A} (d : nat) (n : nat) (before rest : list A) : list (list A * bool) :=
  match rest with
  | [] => []
  | i :: rest' =>
      uperm_in d [i] (before ++ rest') (Nat.odd n) ++ uperm_top d (S n) (before ++ [i]) rest'
  end.

(** _functions.py l.101-119 called with the default arguments ([depth] = number of choices). *)
Definition unordered_permute {A} (choices : list A) : list (list A * bool) :=
  uperm_top (length choices - 1) 0 [] choices.

(** _functions.py l.85-99: [temp] is non-empty or the call is the first one. *)
Fixpoint permute_in (d : nat) (temp choices : list nat) : list (list nat) :=
  match d with
  | O => [temp]
  | S d' =>
      flat_map (fun i =>
        match temp with
        | [] => permute_in d' (temp ++ [i]) choices
        | _ => if last temp 0 <? i then permute_in d' (temp ++ [i]) choices else []
        end) choices
  end.
Definition permute (d : nat) (choices : list nat) : list (list nat) := permute_in d [] choices.

(** * Tensors *)

Fixpoint ind_eqb (a b : list nat) : bool :=
  match a, b with
  | [], [] => true
  | x :: a', y :: b' => Nat.eqb x y && ind_eqb a' b'
  | _, _ => false
  end.
(** [set(a)==set(b)]. *)
Definition same_set (a b : list nat) : bool :=
  forallb (fun x => existsb (Nat.eqb x) b) a && forallb (fun x => existsb (Nat.eqb x) a) b.
(** [len(set(l))==len(l)]. *)
Fixpoint nodupb (l : list nat) : bool :=
  match l with [] => true | x :: t => negb (existsb (Nat.eqb x) t) && nodupb t end.

(** [l[i]>l[i+1]] for some i. *)
Fixpoint has_descent (l : list nat) : bool :=
  match l with
  | x :: t => match t with y :: _ => (y <? x) || has_descent t | [] => false end
  | [] => false
  end.
(** _fermi_string.py l.222-260, _qubit_string.py l.73-105: as long as nothing was swapped, [inds] is the list of the caller,
    and [inds.pop(i+1)] removes an entry of it for two equal neighbours.  [shortens ind]: the call leaves its caller with
    fewer indices than operators.  A further call with these and all the operators raises IndexError in the sorting loop. *)
Definition shortens (ind : list nat) : bool := negb (has_descent ind) && negb (nodupb ind).

Section Tensors.
  Variable K : CoefRing.
  Local Open Scope coef_scope.
  Definition tensor := list nat -> K.
  Definition tzero : tensor := fun _ => 0.
  (** [t[ind]=v] and [t[ind]+=v]. *)
  Definition tset (ind : list nat) (v : K) (t : tensor) : tensor :=
    fun x => if ind_eqb x ind then v else t x.
  Definition tadd (ind : list nat) (v : K) (t : tensor) : tensor :=
    fun x => if ind_eqb x ind then t x + v else t x.

  (** _tomography.py l.46-65: the operator of an element; [real/2+imag/2] and [real/2-imag/2].
      [None]: TomographyError or an error of FermiString, which the second call raises when the first one has shortened
      [ind].  The later [op.transform] is the transform of the operator. *)
  Definition half_of (b : bool) : K := if b then chalf else 0.
  Definition rdme_letters (ind : list nat) : list (fop * nat) :=
    let n := Nat.div2 (length ind) in combine (repeat Cre n ++ repeat Ann n) ind.
  Definition generate_rdme (ind : list nat) (real imag : bool) (N : nat) : option (list (fstr * K)) :=
    if real || imag then
      match fermi_new true (half_of real + half_of imag) (rdme_letters ind) N with
      | None => None
      | Some x =>
          if shortens ind then None
          else match fermi_new true (half_of real - half_of imag) (rdme_letters (rev ind)) N with
               | None => None
               | Some y => Some (op_add_string fstr_eqb (op_add_string fstr_eqb [] x) y)
               end
      end
    else None.

  (** _tomography.py l.271-287 and l.292-308: one element; [temp] is the value measured for it.  The
      loops are the same for p=2, 3 and 4. *)
  Definition add_element_p (p : nat) (ind : list nat) (temp : K) (t : tensor) : tensor :=
    let reAnn := unordered_permute (rev (skipn p ind)) in
    let reCre := unordered_permute (firstn p ind) in
    fold_left (fun t i =>
      fold_left (fun t j =>
        let s := sgn (xorb (snd i) (snd j)) in
        let t := tadd (fst j ++ fst i) (temp * s) t in
        if same_set (fst i) (fst j) then t
        else tadd (fst i ++ fst j) (cconj temp * s) t) reCre t) reAnn t.
  (** _tomography.py l.288-291. *)
  Definition add_element_1 (ind : list nat) (temp : K) (t : tensor) : tensor :=
    let t := tadd ind temp t in
    if nodupb ind then tadd (rev ind) (cconj temp) t else t.
  Definition add_element (p : nat) (ind : list nat) (temp : K) (t : tensor) : tensor :=
    match p with 1%nat => add_element_1 ind temp t | _ => add_element_p p ind temp t end.

  (** _tomography.py l.254-308: the loop over the elements; [value] gives the [temp] of l.256-270. *)
  Definition build_rdm (p : nat) (elements : list (list nat)) (value : list nat -> K) : tensor :=
    fold_left (fun t r => add_element p r (value r) t) elements tzero.

  (** _spin_rdm.py l.581-603 ([_build_hf_spin]); [na] and [nb] are the numbers of l.588-589, called by
      _build_hartree_fock (l.54-59). *)
  Definition build_hf (p na nb : nat) (alp bet : list nat) : tensor :=
    fold_left (fun t ind =>
      fold_left (fun t c =>
        fold_left (fun t a =>
          tset (fst c ++ fst a) (sgn (xorb (snd c) (snd a))) t) (unordered_permute ind) t)
        (unordered_permute ind) t)
      (permute p (firstn na alp ++ firstn nb bet)) tzero.

  (** Sum over x in range(0,r). *)
  Definition sum_range (r : nat) (f : nat -> K) : K := fold_left (fun s x => s + f x) (seq 0 r) 0.

  (** _spin_rdm.py l.375-402 ([reduce_order]); [w] is [1/(self.Ne-self.p+1)].  For orders other than 2
      and 3 the code leaves the new array at zero. *)
  Definition reduce_order (p r : nat) (w : K) (t : tensor) : tensor :=
    match p with
    | 2%nat => fun ind =>
        match ind with
        | [i; j] => sum_range r (fun x => t [i; x; j; x]) * w
        | _ => 0
        end
    | 3%nat => fun ind =>
        match ind with
        | [i; j; k; l] => sum_range r (fun x => t [i; j; x; k; l; x]) * w
        | _ => 0
        end
    | _ => tzero
    end.

  (** All index tuples of length n over range(r), in the order of np.nonzero. *)
  Fixpoint all_inds (r n : nat) : list (list nat) :=
    match n with
    | O => [[]]
    | S m => flat_map (fun x => map (cons x) (all_inds r m)) (seq 0 r)
    end.
  Definition nonzero (r p : nat) (t : tensor) : list (list nat) :=
    filter (fun ind => negb (ceqb (t ind) 0)) (all_inds r (2 * p)).

  (** _spin_rdm.py l.473-489 (and l.490-506): the concatenations kept. *)
  Definition wedge_terms (xs ys : list (list nat)) : list (list nat) :=
    fold_left (fun acc c => fold_left (fun acc s =>
      let new := c ++ s in
      if existsb (fun x => existsb (Nat.eqb x) s) c || has_descent new || existsb (ind_eqb new) acc
      then acc else acc ++ [new]) ys acc) xs [].

  (** _spin_rdm.py l.428-536 ([__mul__] of two RDMs of orders p and q over r spin orbitals); [w] is the
      product of the two normalisation factors of l.527-529. *)
  Definition wedge (r p q : nat) (w : K) (A B : tensor) : tensor :=
    let nz1 := nonzero r p A in
    let nz2 := nonzero r q B in
    let cre := wedge_terms (map (firstn p) nz1) (map (firstn q) nz2) in
    let ann := wedge_terms (map (skipn p) nz1) (map (skipn q) nz2) in
    fold_left (fun t i => fold_left (fun t j =>
      let pc := unordered_permute i in
      let pa := unordered_permute j in
      let sumTerms :=
        fold_left (fun s c => fold_left (fun s a =>
          s + A (firstn p (fst c) ++ firstn p (fst a)) * B (skipn p (fst c) ++ skipn p (fst a))
              * sgn (xorb (snd c) (snd a))) pa s) pc 0 in
      let sumTerms := sumTerms * w in
      fold_left (fun t c => fold_left (fun t a =>
        tset (fst c ++ fst a) (sumTerms * sgn (xorb (snd c) (snd a))) t) pa t) pc t) ann t) cre tzero.
End Tensors.
Arguments tzero {_}. Arguments tset {_}. Arguments tadd {_}. Arguments generate_rdme {_}.
Arguments half_of {_}.
Arguments add_element_p {_}. Arguments add_element_1 {_}. Arguments add_element {_}. Arguments build_rdm {_}.
Arguments build_hf {_}. Arguments sum_range {_}. Arguments reduce_order {_}. Arguments nonzero {_}. Arguments wedge {_}.
