(** The strings of the Jordan-Wigner image of one fermionic string: with one string, all strings of its shape. *)
From Coq Require Import Bool List Arith Lia Ring.
From Verif Require Import Coeff MatSpec MatLemmas FockSpec OpSpec OpTotal PauliModel PauliProofs PauliBasis OperatorModel FermiModel FermiProofs TwoTerm TransformModel JWProofs ConsProofs2 VqeProofs4 ShapeSpec ShapeProofs.
Import ListNotations.

(** Parity of the number of ladder letters. *)
Fixpoint lodd (s : fstr) : bool := match s with [] => false | x :: s' => xorb (match x with Some o => ladder o | None => false end) (lodd s') end.
Lemma fock_tail s : forall i b n, fock (flat (S i) s) (b :: n) = match fock (flat i s) n with Some (z, m) => Some (xorb z (lodd s && b), b :: m) | None => None end.
Proof.
  induction s as [|[o|] s IH]; intros i b n; cbn [flat].
  - cbn. rewrite ?xorb_false_r. reflexivity.
  - rewrite !(fock_cons o). rewrite IH. destruct (fock (flat (S i) s) n) as [[z m]|] eqn:E; [|reflexivity]. cbn [bindo]. rewrite fock1_S.
    destruct (fock1 o i m) as [[z' m']|]; cbn; [|reflexivity]. f_equal. f_equal. cbn [lodd]. destruct z, z', b, (ladder o), (lodd s); reflexivity.
  - rewrite IH. cbn [lodd]. rewrite xorb_false_l. reflexivity.
Qed.
Section JS.
  Variable K : CoefRing.
  Add Ring KRing : (c_ring K).
  Local Open Scope coef_scope.
  Notation pop := (list (list pauli * K)).

  Definition loc (x : option fop) : mat2 K := match x with Some o => local2 o | None => fun a b => if Bool.eqb a b then 1 else 0 end.
  Lemma fstr_mat_cons x s a r b c : @fstr_mat K (x :: s) (a :: r) (b :: c) = loc x a b * (sgn (lodd s && b) * fstr_mat s r c).
  Proof.
    unfold fstr_mat, fock_mat, pmap_mat. destruct x as [o|]; cbn [flat].
    - rewrite fock_cons, fock_tail. destruct (fock (flat 0 s) c) as [[z m]|]; cbn [bindo]; [|ring]. rewrite fock1_0. unfold loc, local2.
      destruct (local o b) as [b'|]; cbn; [|ring]. destruct a, b'; cbn; try ring; destruct (bits_eqb m r); try ring; destruct z, (lodd s && b); cbn; ring.
    - rewrite fock_tail. destruct (fock (flat 0 s) c) as [[z m]|]; [|ring]. unfold loc. cbn [bits_eqb]. destruct a, b; cbn; try ring; destruct (bits_eqb m r); try ring; destruct z, (lodd s); cbn; ring.
  Qed.
  (** The letters of one position and their coefficients. *)
  Definition lets (x : option fop) (z : bool) : list (pauli * K) :=
    match x with
    | None => [(if z then PZ else PI, 1)]
    | Some Cre => [(PX, if z then chalf else chalf); (PY, if z then - (ci * chalf) else - (ci * chalf))]
    | Some Ann => [(PX, if z then - chalf else chalf); (PY, if z then - (ci * chalf) else ci * chalf)]
    | Some Par => if z then [(PI, - chalf); (PZ, chalf)] else [(PI, chalf); (PZ, - chalf)]
    | Some Hol => [(PI, chalf); (PZ, chalf)]
    end.
  Lemma lets_mat x z a b : fold_right (fun e t => snd e * pauli1 (fst e) a b + t) 0 (lets x z) = loc x a b * sgn (z && b).
  Proof.
    assert (Ci : (ci * ci : K) = - (1)) by apply ci_sq. assert (Hh : (chalf + chalf : K) = 1) by apply chalf_dbl.
    destruct x as [[]|], z, a, b; cbn;
      first [ring | ring [Ci] | ring [Hh] | ring [Ci Hh] | (transitivity (chalf + chalf : K); [ring [Ci]|rewrite Hh; ring]) | (transitivity (- (chalf + chalf) : K); [ring [Ci]|rewrite Hh; ring])].
  Qed.
  Fixpoint expand (s : fstr) : pop :=
    match s with
    | [] => [([], 1)]
    | x :: s' => flat_map (fun l => map (fun e => (fst l :: fst e, snd l * snd e)) (expand s')) (lets x (lodd s'))
    end.
  Lemma omat_map_cons p x (o : pop) a r b c : omat (map (fun e => (p :: fst e, x * snd e)) o) (a :: r) (b :: c) = x * pauli1 p a b * omat o r c.
  Proof. induction o as [|[s y] o IH]; cbn [map omat fst snd]; unfold madd, mscal, mzero; [ring|]. rewrite IH. cbn [pmat]. ring. Qed.
  Lemma expand_mat s : forall r c, length r = length s -> length c = length s -> omat (expand s) r c = fstr_mat s r c.
  Proof.
    induction s as [|x s IH]; intros r c Lr Lc.
    - destruct r, c; try discriminate. cbn. unfold madd, mscal, mzero, fstr_mat, fock_mat, pmap_mat. cbn. ring.
    - destruct r as [|a r]; [discriminate|]. destruct c as [|b c]; [discriminate|]. injection Lr as Lr. injection Lc as Lc.
      rewrite fstr_mat_cons, <- (IH r c Lr Lc). cbn [expand]. transitivity (fold_right (fun e t => snd e * pauli1 (fst e) a b + t) 0 (lets x (lodd s)) * omat (expand s) r c).
      + induction (lets x (lodd s)) as [|[p y] l IHl]; cbn [flat_map fold_right fst snd]; [cbn [omat]; unfold mzero; ring|]. rewrite omat_app, IHl, omat_map_cons. ring.
      + rewrite lets_mat. ring.
  Qed.
  (** The allowed letters. *)
  Definition letter_ok (x : option fop) (z : bool) (p : pauli) : bool :=
    match x with
    | None => match p with PZ => z | PI => negb z | _ => false end
    | Some o => if ladder o then flips1 p else negb (flips1 p)
    end.
  Fixpoint allowed (s : fstr) (k : list pauli) : bool :=
    match s, k with
    | [], [] => true
    | x :: s', p :: k' => letter_ok x (lodd s') p && allowed s' k'
    | _, _ => false
    end.
  Lemma allowed_shape s : forall k k', shape k = shape k' -> allowed s k = allowed s k'.
  Proof.
    induction s as [|x s IH]; intros [|p k] [|p' k'] E; try discriminate; try reflexivity. cbn [shape map] in E. injection E as E1 E2. cbn [allowed]. rewrite (IH k k' E2). f_equal.
    destruct p, p'; try discriminate E1; try reflexivity; destruct x as [[]|]; destruct (lodd s); reflexivity.
  Qed.
  Lemma allowed_support s : forall k, allowed s k = true -> support k = map (fun x => match x with Some o => ladder o | None => false end) s.
  Proof.
    induction s as [|x s IH]; intros [|p k] E; try discriminate; [reflexivity|]. cbn [allowed] in E. apply andb_true_iff in E. destruct E as [E1 E2]. cbn [support map]. fold (support k). rewrite (IH k E2). f_equal.
    destruct p, x as [[]|]; try reflexivity; destruct (lodd s); discriminate.
  Qed.
  Lemma lets_ok x z p : In p (map fst (lets x z)) <-> letter_ok x z p = true.
  Proof. destruct x as [[]|], z, p; cbn; intuition congruence. Qed.
  Lemma lets_nodup x z : NoDup (map fst (lets x z)).
  Proof. destruct x as [[]|], z; cbn; repeat constructor; cbn; intuition congruence. Qed.
  Lemma expand_in s : forall k, In k (map fst (expand s)) <-> allowed s k = true.
  Proof.
    induction s as [|x s IH]; intro k.
    - destruct k; cbn; intuition congruence.
    - cbn [expand]. rewrite in_map_iff. split.
      + intros [e [<- I]]. apply in_flat_map in I. destruct I as [l [I J]]. apply in_map_iff in J. destruct J as [e' [<- J]]. cbn [fst allowed].
        rewrite (proj1 (lets_ok x (lodd s) (fst l)) (in_map fst _ _ I)), (proj1 (IH (fst e')) (in_map fst _ _ J)). reflexivity.
      + destruct k as [|p k]; [discriminate|]. cbn [allowed]. intro E. apply andb_true_iff in E. destruct E as [E1 E2]. apply lets_ok in E1. apply IH in E2. apply in_map_iff in E1. apply in_map_iff in E2.
        destruct E1 as [l [<- I]]. destruct E2 as [e [<- J]]. exists (fst l :: fst e, snd l * snd e). split; [reflexivity|]. apply in_flat_map. exists l. split; [exact I|]. apply in_map_iff. exists e. auto.
  Qed.
  Lemma expand_length s : length (expand s) = (2 ^ count_ops s)%nat.
  Proof.
    unfold count_ops. induction s as [|x s IH]; [reflexivity|]. cbn [expand]. destruct x as [o|]; cbn [flat length]; rewrite (length_flat 1 0).
    - assert (E : exists l1 l2, lets (Some o) (lodd s) = [l1; l2]) by (destruct o, (lodd s); cbn; eauto). destruct E as [l1 [l2 ->]]. cbn [flat_map]. rewrite !app_length, !map_length, IH. cbn. lia.
    - cbn [lets flat_map]. rewrite app_nil_r, map_length. exact IH.
  Qed.
  Lemma jw_keys s (c : K) : small (cpow chalf (count_ops s) * c) = false -> forall k, In k (map fst (jw_string (s, c))) <-> allowed s k = true.
  Proof.
    intros HS. destruct (jw_string_spec K s c HS) as [M [[ND [W [_ HC]]] L]].
    assert (HE : forall e, In e (sc K c (expand s)) -> length (fst e) = length s).
    { intros e I. unfold sc in I. apply in_map_iff in I. destruct I as [e' [<- I]]. cbn [fst]. apply (in_map fst) in I. apply expand_in in I.
      revert I. generalize (fst e'). clear. induction s as [|x s IH]; intros [|p k] I; try discriminate; [reflexivity|]. cbn [allowed] in I. apply andb_true_iff in I. cbn. f_equal. now apply IH. }
    assert (A : forall k, In k (map fst (jw_string (s, c))) -> In k (map fst (expand s))).
    { intros k I. apply in_map_iff in I. destruct I as [[k' x] [E I]]. cbn in E. subst k'.
      assert (X : total pkeq k (jw_string (s, c)) = x) by (apply (total_In K _ _ pauli_list_eqb_spec pkeq k x _ ND I)).
      assert (U := pauli_unique K pkeq (length s) (jw_string (s, c)) (sc K c (expand s)) W HE). rewrite X in U || idtac.
      destruct (in_dec pkeq k (map fst (expand s))) as [Y|Y]; [exact Y|]. exfalso.
      assert (Z : x = 0).
      { rewrite <- X, (U ltac:(intros r q Lr Lq; rewrite (M r q Lr Lq), omat_sc; unfold mscal; now rewrite expand_mat) k). apply total_notin. unfold keys, sc. rewrite map_map. exact Y. }
      destruct (HC _ I) as [z Hz]. cbn [snd] in Hz. rewrite Z in Hz.
      assert (S : small (ipow z * (cpow chalf (count_ops s) * c)) = false) by (rewrite small_ipow; exact HS). rewrite <- Hz, small_0 in S. discriminate. }
    intro k. rewrite <- expand_in. split; [apply A|]. apply (NoDup_length_incl ND); [|exact A]. rewrite !map_length, L, expand_length. lia.
  Qed.
End JS.
