(** Model of the RDM object (hqca/tools/rdm/_spin_rdm.py) as an array with a shape that its methods change, of
    its spatial variant (_spatial_rdm.py) and of the spin functions of hqca/tools/rdm/_functions.py. *)
From Coq Require Import Bool List Arith.
From Verif Require Import Coeff InvModel HamModel RdmModel.
Import ListNotations.

(** Number of entries of a shape. *)
Fixpoint entries (s : list nat) : nat := match s with [] => 1 | n :: s' => n * entries s' end.
(** numpy's row-major position of a multi-index; [None] is IndexError. *)
Fixpoint ravel (s idx : list nat) : option nat :=
  match s, idx with
  | [], [] => Some 0
  | n :: s', i :: idx' => if i <? n then option_map (fun k => i * entries s' + k) (ravel s' idx') else None
  | _, _ => None
  end.

Section RdmObj.
  Variable K : CoefRing.
  Local Open Scope coef_scope.

  (** ** numpy arrays: a shape and the entries by position *)
  Record nda := Nda { shape : list nat; flat : nat -> K }.
  Definition get (a : nda) (idx : list nat) : option K := option_map (flat a) (ravel (shape a) idx).
  (** np.reshape. *)
  Definition reshape (s : list nat) (a : nda) : option nda :=
    if Nat.eqb (entries s) (entries (shape a)) then Some (Nda s (flat a)) else None.
  (** np.dot of two matrices. *)
  Definition np_dot (a b : nda) : option nda :=
    match shape a, shape b with
    | [n; m], [m'; k] =>
        if Nat.eqb m m' then
          Some (Nda [n; k] (fun t => sum_range m (fun j => flat a (t / k * m + j)%nat * flat b (j * k + t mod k)%nat)))
        else None
    | _, _ => None
    end.
  (** .trace(): sum over the diagonal of the first two axes, a number for a matrix and an array otherwise. *)
  Inductive traced := Number (x : K) | Array (a : nda).
  Definition np_trace (a : nda) : option traced :=
    match shape a with
    | n :: m :: s =>
        let f := fun t => sum_range (Nat.min n m) (fun i => flat a ((i * m + i) * entries s + t)%nat) in
        match s with [] => Some (Number (f 0%nat)) | _ => Some (Array (Nda s f)) end
    | _ => None
    end.
  (** x[0,0]: a number cannot be indexed; an array of at least two axes needs both non-empty. *)
  Definition index00 (x : traced) : bool :=
    match x with
    | Number _ => false
    | Array a => match shape a with n :: m :: _ => (0 <? n)%nat && (0 <? m)%nat | _ => false end
    end.
  (** Entrywise sum of arrays of one shape (shapes that differ are left out). *)
  Definition np_map2 (f : K -> K -> K) (a b : nda) : option nda :=
    if list_eq_dec Nat.eq_dec (shape a) (shape b) then Some (Nda (shape a) (fun t => f (flat a t) (flat b t))) else None.

  (** ** The object, _spin_rdm.py l.17-51 *)
  Record rdm := Rdm { ord : nat; alp : list nat; bet : list nat; ne : nat; arr : nda }.
  (** l.27: self.r. *)
  Definition so (o : rdm) : nat := (length (alp o) + length (bet o))%nat.
  Definition with_arr (o : rdm) (a : nda) : rdm := Rdm (ord o) (alp o) (bet o) (ne o) a.
  (** l.48-50: rdm=None gives zeros. *)
  Definition zeros (p r : nat) : nda := Nda (repeat r (2 * p)) (fun _ => 0).

  (** l.650-659 ([contract]) and l.660-667 ([expand]). *)
  Definition contract (o : rdm) : option rdm :=
    if Nat.eqb (ord o) 1 then Some o else option_map (with_arr o) (reshape [(so o ^ ord o)%nat; (so o ^ ord o)%nat] (arr o)).
  Definition expand (o : rdm) : option rdm :=
    if Nat.eqb (ord o) 1 then Some o else option_map (with_arr o) (reshape (repeat (so o) (2 * ord o)) (arr o)).
  (** l.643-648 ([switch]). *)
  Definition switch (o : rdm) : option rdm :=
    if Nat.eqb (length (shape (arr o))) 2 && negb (Nat.eqb (ord o) 1) then expand o else contract o.
  (** l.333-337 ([observable]): the object afterwards and the result. *)
  Definition observable_ (H : nda) (o : rdm) : option (rdm * traced) :=
    match contract o with
    | None => None
    | Some o1 =>
        match np_dot H (arr o1) with
        | None => None
        | Some d =>
            match np_trace d, expand o1 with
            | Some en, Some o2 => Some (o2, en)
            | _, _ => None
            end
        end
    end.
  (** l.339-347 ([trace]).  An exception before the first switch leaves the object as it was. *)
  Definition trace_ (o : rdm) : option (rdm * traced) :=
    match np_trace (arr o) with
    | None => None
    | Some x =>
        if index00 x then
          match switch o with
          | None => Some (o, x)
          | Some o1 =>
              match np_trace (arr o1), switch o1 with
              | Some t, Some o2 => Some (o2, t)
              | _, _ => None
              end
          end
        else Some (o, x)
    end.
  (** l.351-373 ([__add__]) and l.404-426 ([__sub__]); [None] is sys.exit.  The two operands afterwards and
      the new object. *)
  Definition same_system (o o' : rdm) : bool :=
    (if list_eq_dec Nat.eq_dec (alp o) (alp o') then true else false) &&
    (if list_eq_dec Nat.eq_dec (bet o) (bet o') then true else false) && Nat.eqb (ord o) (ord o').
  Definition combine_ (f : K -> K -> K) (o o' : rdm) : option (rdm * rdm * rdm) :=
    if same_system o o' then
      match expand o, expand o' with
      | Some o1, Some o1' => option_map (fun a => (o1, o1', with_arr o1 a)) (np_map2 f (arr o1) (arr o1'))
      | _, _ => None
      end
    else None.
  (** l.436-447: product with a number; only int and float are accepted. *)
  Inductive number := PyInt (x : K) | PyFloat (x : K) | OtherNumber (x : K).
  Definition scale_ (o : rdm) (x : number) : option rdm :=
    match x with
    | PyInt v | PyFloat v => Some (with_arr o (Nda (shape (arr o)) (fun t => flat (arr o) t * v)))
    | OtherNumber _ => None
    end.
  (** l.175-177 ([transpose]): the transposed copy is dropped and self is returned. *)
  Definition transpose_ (axes : list nat) (o : rdm) : rdm := o.

  (** Calls on one object. *)
  Inductive call := CContract | CExpand | CSwitch | CTrace | CObservable (H : nda).
  Definition do_call (c : call) (o : rdm) : option rdm :=
    match c with
    | CContract => contract o
    | CExpand => expand o
    | CSwitch => switch o
    | CTrace => option_map fst (trace_ o)
    | CObservable H => option_map fst (observable_ H o)
    end.
  Fixpoint do_calls (l : list call) (o : rdm) : option rdm :=
    match l with
    | [] => Some o
    | c :: l' => match do_call c o with Some o' => do_calls l' o' | None => None end
    end.

  (** ** Spin functions, _functions.py *)
  Notation tensor4 := (nat -> nat -> nat -> nat -> K).
  Notation tensor2 := (nat -> nat -> K).
  (** The dictionaries alpha and beta: inactive, active, virtual. *)
  Record orbs := Orbs { inactive : list nat; active : list nat; virtual : list nat }.
  (** l.126-127: norb. *)
  Definition norb (a b : orbs) : nat :=
    (length (inactive a ++ virtual a ++ active a) + length (virtual b ++ inactive b ++ active b))%nat.
  (** [{x[i]:y[i] for i in range(0,len(x))}]; IndexError when y is shorter. *)
  Definition pair_dict (x y : list nat) : option (list (nat * nat)) :=
    if (length y <? length x)%nat then None else Some (rev (combine x y)).
  (** l.132-133: a2b and b2a. *)
  Definition spin_dicts (a b : orbs) : option (list (nat * nat) * list (nat * nat)) :=
    match pair_dict (inactive a ++ active a) (inactive b ++ active b), pair_dict (inactive b ++ active b) (inactive a ++ active a) with
    | Some d, Some e => Some (d, e)
    | _, _ => None
    end.
  (** [t[i,j] = v], [t[i,j] += v], [t[a,b,c,d] = v]. *)
  Definition set2 (i j : nat) (v : K) (t : tensor2) : tensor2 := fun x y => if Nat.eqb x i && Nat.eqb y j then v else t x y.
  Definition add2 (i j : nat) (v : K) (t : tensor2) : tensor2 := fun x y => if Nat.eqb x i && Nat.eqb y j then t x y + v else t x y.
  Definition set4 (u : (nat * nat * nat * nat) * K) (t : tensor4) : tensor4 :=
    let '(a, b, c, d, v) := u in
    fun i j k l => if Nat.eqb i a && Nat.eqb j b && Nat.eqb k c && Nat.eqb l d then v else t i j k l.
  Definition below (n : nat) (l : list nat) : bool := forallb (fun x => x <? n)%nat l.
  Definition zero2 : tensor2 := fun _ _ => 0.
  Definition zero4 : tensor4 := fun _ _ _ _ => 0.

  (** l.122-139 ([get_Sz_mat]). *)
  Definition get_Sz_mat (a b : orbs) : option tensor2 :=
    match spin_dicts a b with
    | None => None
    | Some _ =>
        if below (norb a b) (active a) && below (norb a b) (active b) then
          Some (fold_left (fun t p => set2 p p (- chalf) t) (active b) (fold_left (fun t p => set2 p p chalf t) (active a) zero2))
        else None
    end.
  Definition quarter : K := chalf * chalf.
  (** The (pa,pb) and (qa,qb) of the loops of l.156-159 and l.192-195. *)
  Definition spin_loop (a b : orbs) : option (list (nat * nat * (nat * nat))) :=
    match spin_dicts a b with
    | None => None
    | Some (a2b, b2a) =>
        match all_some (map (fun pa => option_map (fun pb => (pa, pb)) (dget pa a2b)) (active a)),
              all_some (map (fun qb => option_map (fun qa => (qa, qb)) (dget qb b2a)) (active b)) with
        | Some P, Some Q => Some (list_prod P Q)
        | _, _ => None
        end
    end.
  (** l.160-169: the statements of the inner loop; [+= 0] adds nothing. *)
  Definition sz2_step (e : nat * nat * (nat * nat)) : list ((nat * nat * nat * nat) * K) :=
    let '((pa, pb), (qa, qb)) := e in
    [((pa, qa, pa, qa), if Nat.eqb pa qa then 0 else quarter);
     ((pb, qb, pb, qb), if Nat.eqb pb qb then 0 else quarter);
     ((pb, qa, pb, qa), - quarter); ((pa, qb, pa, qb), - quarter)].
  Definition indices_ok (n : nat) (us : list ((nat * nat * nat * nat) * K)) : bool :=
    forallb (fun u => let '(a, b, c, d, _) := u in below n [a; b; c; d]) us.
  (** l.141-174 ([get_Sz2_mat]). *)
  Definition get_Sz2_mat (a b : orbs) : option (tensor2 * tensor4) :=
    match spin_loop a b with
    | None => None
    | Some L =>
        let us := flat_map sz2_step L in
        if indices_ok (norb a b) us && below (norb a b) (active a) && below (norb a b) (active b) then
          Some (fold_left (fun t p => add2 p p quarter t) (active b) (fold_left (fun t p => add2 p p quarter t) (active a) zero2),
                apply_all us zero4)
        else None
    end.
  (** l.176-199 ([get_SpSm_mat]): assignments. *)
  Definition spsm_step (e : nat * nat * (nat * nat)) : (nat * nat * nat * nat) * K :=
    let '((pa, pb), (qa, qb)) := e in ((pa, qb, qa, pb), - (1)).
  Definition get_SpSm_mat (a b : orbs) : option (tensor2 * tensor4) :=
    match spin_loop a b with
    | None => None
    | Some L =>
        let us := map spsm_step L in
        if indices_ok (norb a b) us && below (norb a b) (active a) then
          Some (fold_left (fun t p => set2 p p 1 t) (active a) zero2, fold_left (fun t u => set4 u t) us zero4)
        else None
    end.
  (** np.dot(A,B).trace() of two r x r arrays. *)
  Definition trace2 (r : nat) (A B : tensor2) : K := sum_range r (fun i => sum_range r (fun j => A i j * B j i)).
  (** l.223-262 ([S2]); the arrays have norb indices per axis (another size makes np.dot raise). *)
  Definition S2 (rdm2 : tensor4) (rdm1 : tensor2) (a b : orbs) : option K :=
    match get_SpSm_mat a b, get_Sz2_mat a b, get_Sz_mat a b with
    | Some (spm1, spm2), Some (sz21, sz22), Some sz =>
        let r := norb a b in
        Some (observable r spm2 rdm2 + trace2 r spm1 rdm1 + observable r sz22 rdm2 + trace2 r sz21 rdm1 - trace2 r sz rdm1)
    | _, _, _ => None
    end.
  (** l.335-355 ([Sz]). *)
  Definition Sz (rdm1 : tensor2) (a b : orbs) : option K :=
    option_map (fun sz => trace2 (norb a b) sz rdm1) (get_Sz_mat a b).
  (** l.230-238: plain lists are all active. *)
  Definition plain (l : list nat) : orbs := Orbs [] l [].

  (** _spin_rdm.py l.539-554 ([get_spin_properties]) of a 2-RDM: sz and s2; [w] is 1/(Ne-1). *)
  Definition spin_properties (w : K) (al be : list nat) (D : list nat -> K) : option (K * K) :=
    let D1 := reduce_order 2 (length al + length be)%nat w D in
    let rdm1 := fun i j => D1 [i; j] in
    match Sz rdm1 (plain al) (plain be), S2 (fun i k j l => D [i; k; j; l]) rdm1 (plain al) (plain be) with
    | Some sz, Some s2 => Some (sz, s2)
    | _, _ => None
    end.

  (** l.365-409 ([spin_to_spatial]) of an array with Nso indices per axis.  Reading beyond Nso or writing
      beyond Nso/2 raises. *)
  Definition all_orbs (o : orbs) : list nat := inactive o ++ active o ++ virtual o.
  Definition up_down (x y : list nat) : option (list (nat * nat)) :=
    match pair_dict x y, pair_dict y x with
    | Some a2b, Some _ => all_some (map (fun i => option_map (fun p => (i, p)) (dget i a2b)) x)
    | _, _ => None
    end.
  Definition spatial_ok (Nso : nat) (P : list (nat * nat)) : bool :=
    forallb (fun e => (fst e <? Nat.div2 Nso)%nat && (fst e <? Nso)%nat && (snd e <? Nso)%nat) P.
  Definition spatial4 (Nso : nat) (x y : list nat) (t : tensor4) : option tensor4 :=
    match up_down x y with
    | None => None
    | Some P =>
        if spatial_ok Nso P then
          Some (fold_left (fun n e => let '((i, p), ((j, q), ((k, r), (l, s)))) := e in
                 set4 ((i, k, j, l), t i k j l + t p r q s + t i r j s + t p k q l) n)
                 (list_prod P (list_prod P (list_prod P P))) zero4)
        else None
    end.
  Definition spatial2 (Nso : nat) (x y : list nat) (t : tensor2) : option tensor2 :=
    match up_down x y with
    | None => None
    | Some P =>
        if spatial_ok Nso P then
          Some (fold_left (fun n e => let '((i, p), (j, q)) := e in set2 i j (t i j + t p q) n) (list_prod P P) zero2)
        else None
    end.
  (** _spatial_rdm.py l.28-45 ([reduce_order]), order 2; [w] is 1/(Ne-1). *)
  Definition spatial_reduce (R : nat) (w : K) (t : tensor4) : tensor2 :=
    fun i j => if (i <? R)%nat && (j <? R)%nat then sum_range R (fun x => t i x j x) * w else 0.
  (** _functions.py l.310-333 ([Sz_spatial]). *)
  Definition Sz_spatial (rdm1 : tensor2) (a b : orbs) : option K :=
    match get_Sz_mat a b with
    | None => None
    | Some sz => option_map (fun m => trace2 (Nat.div2 (norb a b)) m rdm1) (spatial2 (norb a b) (all_orbs a) (all_orbs b) sz)
    end.

  (** l.264-308 ([S2_spatial]): the operators are summed over spins too. *)
  Definition S2_spatial (rdm2 : tensor4) (rdm1 : tensor2) (a b : orbs) : option K :=
    match get_SpSm_mat a b, get_Sz2_mat a b, get_Sz_mat a b with
    | Some (spm1, spm2), Some (sz21, sz22), Some sz =>
        let n := norb a b in
        let sp4 := spatial4 n (all_orbs a) (all_orbs b) in
        let sp2 := spatial2 n (all_orbs a) (all_orbs b) in
        match sp2 spm1, sp4 spm2, sp2 sz21, sp4 sz22, sp2 sz with
        | Some p1, Some p2, Some z1, Some z2, Some z =>
            let r := Nat.div2 n in
            Some (observable r p2 rdm2 + trace2 r p1 rdm1 + observable r z2 rdm2 + trace2 r z1 rdm1 - trace2 r z rdm1)
        | _, _, _, _, _ => None
        end
    | _, _, _ => None
    end.
  (** _spatial_rdm.py l.47-61 ([get_spin_properties]) of a 2-RDM: sz and s2. *)
  Definition spatial_spin_properties (w : K) (al be : list nat) (D : tensor4) : option (K * K) :=
    let rdm1 := spatial_reduce (Nat.div2 (length al + length be)) w D in
    match Sz_spatial rdm1 (plain al) (plain be), S2_spatial D rdm1 (plain al) (plain be) with
    | Some sz, Some s2 => Some (sz, s2)
    | _, _ => None
    end.

  (** l.412-446 ([switch_alpha_beta]). *)
  Definition switch_alpha_beta (Nso : nat) (a b : orbs) (t : tensor4) : option tensor4 :=
    match up_down (all_orbs a) (all_orbs b), up_down (all_orbs b) (all_orbs a) with
    | Some A, Some B =>
        if below Nso (all_orbs a) && below Nso (all_orbs b) then
          let same n P := fold_left (fun n e => let '((i, p), ((j, q), ((k, r), (l, s)))) := e in set4 ((p, q, r, s), t i j k l) n)
                            (list_prod P (list_prod P (list_prod P P))) n in
          Some (fold_left (fun n e => let '((i, p), ((j, q), ((k, r), (l, s)))) := e in
                  set4 ((p, r, s, q), t i k l j) (set4 ((r, p, s, q), t k i l j)
                    (set4 ((r, p, q, s), t k i j l) (set4 ((p, r, q, s), t i k j l) n))))
                  (list_prod A (list_prod A (list_prod B B))) (same (same zero4 A) B))
        else None
    | _, _ => None
    end.

  (** ** Blocks of the 2-RDM, _spin_rdm.py *)
  (** l.74-97 ([_generate_from_ab_block]): R spatial orbitals, spin up first; the new array is real (l.79),
      so only real fragments are meant. *)
  Definition from_ab (R : nat) (f : tensor4) : tensor4 :=
    let aa := fun i k j l => f i k j l - f k i j l in
    apply_all (flat_map (fun i => flat_map (fun j => flat_map (fun k => flat_map (fun l =>
      let I := (i + R)%nat in let J := (j + R)%nat in let K' := (R + k)%nat in let L := (l + R)%nat in
      [((i, k, j, l), aa i k j l); ((I, K', J, L), aa i k j l);
       ((i, K', j, L), f i k j l); ((I, k, J, l), f i k j l);
       ((K', i, j, L), - f i k j l); ((k, I, J, l), - f i k j l)])
      (seq 0 R)) (seq 0 R)) (seq 0 R)) (seq 0 R)) zero4.
  (** l.159-173 ([antisymmetric_block]). *)
  Definition antisymmetric_block (R : nat) (al be : list nat) (t : tensor4) : tensor4 :=
    apply_all (flat_map (fun i => flat_map (fun j => flat_map (fun k => map (fun l =>
      ((i mod R, k mod R, j mod R, l mod R)%nat, t i k j l)) be) be) al) al) zero4.
  (** l.113-131 ([spatial_rdm]), order 2. *)
  Definition spatial_rdm2 (R : nat) (t : tensor4) : tensor4 :=
    apply_all (flat_map (fun i => flat_map (fun j => flat_map (fun k => flat_map (fun l =>
      let I := (R + i)%nat in let J := (R + j)%nat in let K' := (R + k)%nat in let L := (R + l)%nat in
      [((i, k, j, l), t i K' j L); ((i, k, j, l), t I k J l); ((i, k, j, l), t i k j l); ((i, k, j, l), t I K' J L)])
      (seq 0 R)) (seq 0 R)) (seq 0 R)) (seq 0 R)) zero4.

  (** ** Cumulant and reconstruction, l.611-641 *)
  Notation tensor := (list nat -> K).
  Definition tmap2 (f : K -> K -> K) (A B : tensor) : tensor := fun ind => f (A ind) (B ind).
  (** l.611-615 ([cumulant]); [w] is 1/(Ne-1). *)
  Definition cumulant (r : nat) (w : K) (D : tensor) : tensor :=
    let rdm1 := reduce_order 2 r w D in
    tmap2 csub D (wedge r 1 1 chalf rdm1 rdm1).
  (** l.617-641 ([reconstruct]) of a 2-RDM with the Valdemoro option; [twelfth] is the normalisation factor of the
      product of orders 2 and 1, (1/(6*6)) * (6/2). *)
  Definition reconstruct2 (r Ne : nat) (w twelfth : K) (D : tensor) : tensor :=
    if (Ne <? 3)%nat then tzero
    else
      let rdm1 := reduce_order 2 r w D in
      let rdm3a := wedge r 2 1 twelfth (wedge r 1 1 chalf rdm1 rdm1) rdm1 in
      let rdm2w := tmap2 csub D (wedge r 1 1 chalf rdm1 rdm1) in
      let rdm3b := fun ind => wedge r 2 1 twelfth rdm2w rdm1 ind * (1 + 1 + 1) in
      tmap2 cadd rdm3a rdm3b.
End RdmObj.
Arguments Nda {_}. Arguments shape {_}. Arguments flat {_}. Arguments get {_}. Arguments reshape {_}. Arguments np_dot {_}. Arguments Number {_}. Arguments Array {_}.
Arguments np_trace {_}. Arguments index00 {_}. Arguments np_map2 {_}. Arguments Rdm {_}. Arguments ord {_}. Arguments alp {_}. Arguments bet {_}. Arguments ne {_}. Arguments arr {_}.
Arguments so {_}. Arguments with_arr {_}. Arguments zeros {_}. Arguments contract {_}. Arguments expand {_}. Arguments switch {_}. Arguments observable_ {_}. Arguments trace_ {_}.
Arguments same_system {_}. Arguments combine_ {_}. Arguments PyInt {_}. Arguments PyFloat {_}. Arguments OtherNumber {_}. Arguments scale_ {_}. Arguments transpose_ {_}.
Arguments CContract {_}. Arguments CExpand {_}. Arguments CSwitch {_}. Arguments CTrace {_}. Arguments CObservable {_}. Arguments do_call {_}. Arguments do_calls {_}.
Arguments set2 {_}. Arguments add2 {_}. Arguments set4 {_}. Arguments zero2 {_}. Arguments zero4 {_}. Arguments get_Sz_mat {_}. Arguments quarter {_}. Arguments sz2_step {_}.
Arguments indices_ok {_}. Arguments get_Sz2_mat {_}. Arguments spsm_step {_}. Arguments get_SpSm_mat {_}. Arguments trace2 {_}. Arguments S2 {_}. Arguments Sz {_}.
Arguments spin_properties {_}. Arguments spatial4 {_}. Arguments spatial2 {_}. Arguments spatial_reduce {_}. Arguments Sz_spatial {_}. Arguments S2_spatial {_}. Arguments spatial_spin_properties {_}. Arguments switch_alpha_beta {_}. Arguments from_ab {_}.
Arguments antisymmetric_block {_}. Arguments spatial_rdm2 {_}. Arguments tmap2 {_}. Arguments cumulant {_}. Arguments reconstruct2 {_}.
