(** Jordan-Wigner images letter by letter, and Pauli strings as sums of fermionic strings. *)
From Coq Require Import Bool List Arith ZArith Lia Ring.
From Verif Require Import Coeff MatSpec MatLemmas PauliModel PauliProofs OpSpec OpTotal OperatorModel OperatorProofs FockSpec FermiModel FermiProofs TransformModel TwoTerm JWProofs HamSpec HamProofs PauliBasis.
Import ListNotations.

(** Parity of the number of ladder letters. *)
Fixpoint odd_ladders (s : fstr) : bool :=
  match s with
  | [] => false
  | None :: s' => odd_ladders s'
  | Some o :: s' => xorb (ladder o) (odd_ladders s')
  end.
(** Same sites, ladder letters where there are ladder letters. *)
Fixpoint same_kind (s t : fstr) : bool :=
  match s, t with
  | [], [] => true
  | None :: s', None :: t' => same_kind s' t'
  | Some a :: s', Some b :: t' => Bool.eqb (ladder a) (ladder b) && same_kind s' t'
  | _, _ => false
  end.
(** All strings of that kind. *)
Fixpoint variants (s : fstr) : list fstr :=
  match s with
  | [] => [[]]
  | None :: s' => map (cons None) (variants s')
  | Some o :: s' =>
      if ladder o then map (cons (Some Cre)) (variants s') ++ map (cons (Some Ann)) (variants s')
      else map (cons (Some Par)) (variants s') ++ map (cons (Some Hol)) (variants s')
  end.
(** The Pauli strings of that kind. *)
Fixpoint paulis_of (s : fstr) : list (list pauli) :=
  match s with
  | [] => [[]]
  | None :: s' => map (cons (if odd_ladders s' then PZ else PI)) (paulis_of s')
  | Some o :: s' =>
      if ladder o then map (cons PX) (paulis_of s') ++ map (cons PY) (paulis_of s')
      else map (cons PI) (paulis_of s') ++ map (cons PZ) (paulis_of s')
  end.

Lemma odd_kind s : forall t, same_kind s t = true -> odd_ladders s = odd_ladders t.
Proof.
  induction s as [|[a|] s IH]; intros [|[b|] t]; cbn; intros H; try discriminate; try reflexivity.
  - apply andb_true_iff in H. destruct H as [H1 H2]. apply eqb_prop in H1. now rewrite H1, (IH t H2).
  - now apply IH.
Qed.
Lemma kind_refl s : same_kind s s = true.
Proof. induction s as [|[a|] s IH]; cbn; auto. now rewrite eqb_reflx, IH. Qed.
Lemma variants_kind s : forall t, In t (variants s) <-> same_kind s t = true.
Proof.
  induction s as [|[a|] s IH]; intros t; cbn [variants same_kind].
  - destruct t; cbn; split; intros H; try tauto; try discriminate. destruct H; [discriminate|tauto].
  - destruct t as [|[b|] t].
    + split; [|discriminate]. destruct (ladder a); rewrite in_app_iff, !in_map_iff; intros [[x [E _]]|[x [E _]]]; discriminate.
    + rewrite andb_true_iff, <- IH, eqb_true_iff. destruct (ladder a) eqn:La; rewrite in_app_iff, !in_map_iff; (split;
        [intros [[x [E H]]|[x [E H]]]; injection E as <- <-; split; auto|intros [Hb H]; destruct b; try discriminate; [left|right]; exists t; auto]).
    + split; [|discriminate]. destruct (ladder a); rewrite in_app_iff, !in_map_iff; intros [[x [E _]]|[x [E _]]]; discriminate.
  - destruct t as [|[b|] t].
    + split; [|discriminate]. rewrite in_map_iff. intros [x [E _]]; discriminate.
    + split; [|discriminate]. rewrite in_map_iff. intros [x [E _]]; discriminate.
    + rewrite <- IH, in_map_iff. split; [intros [x [E H]]; injection E as <-; auto|intros H; exists t; auto].
Qed.
Lemma nodup_cons_map {A} (x : A) l : NoDup l -> NoDup (map (cons x) l).
Proof. intros H. apply FinFun.Injective_map_NoDup; [|exact H]. intros a b E. now injection E. Qed.
Lemma nodup_two {A} (x y : A) l : x <> y -> NoDup l -> NoDup (map (cons x) l ++ map (cons y) l).
Proof.
  intros N H. assert (forall a, In a (map (cons x) l) -> ~ In a (map (cons y) l)).
  { intros a H1 H2. apply in_map_iff in H1, H2. destruct H1 as [u [<- _]], H2 as [v [E _]]. injection E. congruence. }
  pose proof (nodup_cons_map x l H) as A1. pose proof (nodup_cons_map y l H) as A2. revert H0 A1 A2. generalize (map (cons x) l), (map (cons y) l). intros u v D U V.
  induction U as [|a u Ha U IH]; [exact V|]. cbn [app]. constructor; [rewrite in_app_iff; intros [I|I]; [tauto|apply (D a); [now left|exact I]]|apply IH; intros b Hb; apply D; now right].
Qed.
Lemma variants_nodup s : NoDup (variants s).
Proof. induction s as [|[a|] s IH]; cbn; [constructor; [tauto|constructor]| |now apply nodup_cons_map]. destruct (ladder a); apply nodup_two; auto; discriminate. Qed.
Lemma paulis_nodup s : NoDup (paulis_of s).
Proof. induction s as [|[a|] s IH]; cbn; [constructor; [tauto|constructor]| |now apply nodup_cons_map]. destruct (ladder a); apply nodup_two; auto; discriminate. Qed.
Lemma paulis_kind s : forall t, same_kind s t = true -> paulis_of s = paulis_of t.
Proof.
  induction s as [|[a|] s IH]; intros [|[b|] t]; cbn; intros H; try discriminate; try reflexivity.
  - apply andb_true_iff in H. destruct H as [H1 H2]. apply eqb_prop in H1. now rewrite H1, (IH t H2).
  - now rewrite (odd_kind s t H), (IH t H).
Qed.
Lemma paulis_length s : length (paulis_of s) = 2 ^ count_ops s.
Proof.
  unfold count_ops. induction s as [|[a|] s IH]; cbn [paulis_of flat length]; [reflexivity| |].
  - rewrite (length_flat 1 0). cbn [Nat.pow]. destruct (ladder a); rewrite app_length, !map_length, IH; lia.
  - now rewrite map_length, IH, (length_flat 1 0).
Qed.
Lemma paulis_width s P : In P (paulis_of s) -> length P = length s.
Proof.
  revert P. induction s as [|[a|] s IH]; intros P; cbn [paulis_of].
  - intros [<-|[]]. reflexivity.
  - destruct (ladder a); rewrite in_app_iff, !in_map_iff; intros [[x [<- H]]|[x [<- H]]]; cbn; now rewrite (IH x H).
  - rewrite in_map_iff. intros [x [<- H]]. cbn. now rewrite (IH x H).
Qed.

(** * Matrices of fermionic strings, letter by letter *)
Lemma flat_shift s : forall i, flat (S i) s = map (fun e => (fst e, S (snd e))) (flat i s).
Proof. induction s as [|[a|] s IH]; intros i; cbn [flat map fst snd]; [reflexivity| |]; now rewrite (IH (S i)). Qed.
Definition lad_par (l : list (fop * nat)) : bool := fold_right (fun e b => xorb (ladder (fst e)) b) false l.
Lemma fock_shift l b n : fock (map (fun e => (fst e, S (snd e))) l) (b :: n) =
  match fock l n with Some (s, m) => Some (xorb (lad_par l && b) s, b :: m) | None => None end.
Proof.
  induction l as [|[o j] l IH]; [reflexivity|]. cbn [map fst snd fock]. rewrite IH. destruct (fock l n) as [[s m]|]; [|reflexivity]. rewrite fock1_S.
  destruct (fock1 o j m) as [[s' m']|]; [|reflexivity]. cbn [lad_par fold_right fst]. fold (lad_par l). f_equal. f_equal.
  destruct (ladder o), (lad_par l), b, s, s'; reflexivity.
Qed.
Lemma lad_par_flat s : forall i, lad_par (flat i s) = odd_ladders s.
Proof. induction s as [|[a|] s IH]; intros i; cbn [flat odd_ladders]; [reflexivity| |]; rewrite <- (IH (S i)); reflexivity. Qed.
Section Sym1.
  Variable K : CoefRing.
  Add Ring KRing : (c_ring K).
  Local Open Scope coef_scope.
  Notation F := (@fstr_mat K).
  Lemma fstr_mat_none s a r b c : F (None :: s) (a :: r) (b :: c) = (if Bool.eqb a b then sgn (odd_ladders s && b) else 0) * F s r c.
  Proof.
    unfold fstr_mat, fock_mat, pmap_mat. cbn [flat]. rewrite flat_shift, fock_shift, lad_par_flat. destruct (fock (flat 0 s) c) as [[t m]|]; [|ring].
    cbn [bits_eqb]. destruct (Bool.eqb b a) eqn:E.
    - apply eqb_prop in E. subst. rewrite eqb_reflx. cbn [andb]. destruct (bits_eqb m r); [|ring]. destruct (odd_ladders s && a), t; cbn; ring.
    - replace (Bool.eqb a b) with false by (destruct a, b; auto; discriminate). cbn [andb]. ring.
  Qed.
  Lemma fstr_mat_some o s a r b c : F (Some o :: s) (a :: r) (b :: c) = local2 o a b * sgn (odd_ladders s && b) * F s r c.
  Proof.
    unfold fstr_mat, fock_mat, pmap_mat. cbn [flat fock]. rewrite flat_shift, fock_shift, lad_par_flat. destruct (fock (flat 0 s) c) as [[t m]|]; [|ring].
    rewrite fock1_0. unfold local2. destruct (local o b) as [b'|]; [|ring]. cbn [bits_eqb]. rewrite xorb_false_r.
    destruct a, b', (bits_eqb m r), (odd_ladders s && b), t; cbn; ring.
  Qed.

  (** ** Coefficients *)
  (** Sign of a letter on an occupied mode when an odd number of ladder letters stands to its right. *)
  Definition site_sign (o : fop) (z : bool) : K := match o with Ann | Par => sgn z | _ => 1 end.
  Definition site_coef (x : option fop) (z : bool) (p : pauli) : K :=
    match x with
    | None => if pauli_eqb p (if z then PZ else PI) then 1 else 0
    | Some o =>
        match o, p with
        | Cre, PX | Ann, PX | Par, PI | Hol, PI | Hol, PZ => site_sign o z
        | Cre, PY => - ci * site_sign o z
        | Ann, PY => ci * site_sign o z
        | Par, PZ => - site_sign o z
        | _, _ => 0
        end
    end.
  Fixpoint jw_coef (s : fstr) (P : list pauli) : K :=
    match s, P with
    | [], [] => 1
    | x :: s', p :: P' => site_coef x (odd_ladders s') p * jw_coef s' P'
    | _, _ => 0
    end.
  Definition explicit (s : fstr) : list (list pauli * K) := map (fun P => (P, jw_coef s P)) (paulis_of s).
  Lemma omat_over (o : list (list pauli * K)) r c : omat o r c = over o (fun e => snd e * pmat (fst e) r c).
  Proof. induction o as [|[P x] o IH]; [reflexivity|]. cbn [omat over fold_right fst snd]. unfold madd, mscal. rewrite IH. reflexivity. Qed.
  Lemma over_cons (x : option fop) (p : pauli) s a r b c :
    over (map (cons p) (paulis_of s)) (fun P => jw_coef (x :: s) P * pmat P (a :: r) (b :: c)) =
    site_coef x (odd_ladders s) p * pauli1 p a b * over (paulis_of s) (fun P => jw_coef s P * pmat P r c).
  Proof. rewrite over_map, <- over_scal. apply over_ext. intros P _. cbn [jw_coef pmat]. ring. Qed.
  Lemma explicit_mat s : forall r c, length r = length s -> length c = length s ->
    over (paulis_of s) (fun P => jw_coef s P * pmat P r c) = cpow (1 + 1) (count_ops s) * F s r c.
  Proof.
    unfold count_ops. assert (Ci : (ci * ci : K) = - (1)) by apply ci_sq.
    induction s as [|[o|] s IH]; intros [|a r] [|b c] Lr Lc; try discriminate.
    - cbn. unfold fstr_mat, fock_mat, pmap_mat. cbn. ring.
    - cbn [length] in Lr, Lc. injection Lr as Lr. injection Lc as Lc. cbn [paulis_of flat length]. rewrite (length_flat 1 0). cbn [cpow]. rewrite fstr_mat_some.
      assert (E : forall p q, over (map (cons p) (paulis_of s) ++ map (cons q) (paulis_of s)) (fun P => jw_coef (Some o :: s) P * pmat P (a :: r) (b :: c)) =
        (site_coef (Some o) (odd_ladders s) p * pauli1 p a b + site_coef (Some o) (odd_ladders s) q * pauli1 q a b) * (cpow (1 + 1) (length (flat 0 s)) * F s r c)).
      { intros p q. rewrite over_app, !over_cons, !IH by assumption. ring. }
      destruct o; cbn [ladder]; rewrite E; destruct a, b, (odd_ladders s); cbn; first [ring|ring [Ci]].
    - cbn [length] in Lr, Lc. injection Lr as Lr. injection Lc as Lc. cbn [paulis_of flat length]. rewrite (length_flat 1 0). rewrite fstr_mat_none, over_cons, IH by assumption.
      destruct a, b, (odd_ladders s); cbn; ring.
  Qed.
  Lemma over_variants (x : option fop) (p : pauli) s P a r b c :
    over (map (cons x) (variants s)) (fun t => cconj (jw_coef t (p :: P)) * F t (a :: r) (b :: c)) =
    cconj (site_coef x (odd_ladders s) p) * (match x with None => if Bool.eqb a b then sgn (odd_ladders s && b) else 0 | Some o => local2 o a b * sgn (odd_ladders s && b) end) *
      over (variants s) (fun t => cconj (jw_coef t P) * F t r c).
  Proof.
    rewrite over_map, <- over_scal. apply over_ext. intros t Ht. apply variants_kind in Ht. cbn [jw_coef]. rewrite cconj_mul, <- (odd_kind s t Ht).
    destruct x as [o|]; [rewrite fstr_mat_some|rewrite fstr_mat_none]; rewrite <- (odd_kind s t Ht); ring.
  Qed.
  Lemma dual_mat s : forall P r c, In P (paulis_of s) -> length r = length s -> length c = length s ->
    pmat P r c = over (variants s) (fun t => cconj (jw_coef t P) * F t r c).
  Proof.
    assert (Ci : (ci * ci : K) = - (1)) by apply ci_sq.
    assert (C1 : cconj (1 : K) = 1) by apply cconj_1. assert (Cm : cconj (- (1) : K) = - (1)) by (now rewrite cconj_opp, C1). assert (C0 : cconj (0 : K) = 0) by apply cconj_0.
    induction s as [|[o|] s IH]; intros P [|a r] [|b c] HP Lr Lc; try discriminate.
    - destruct HP as [<-|[]]. cbn. unfold fstr_mat, fock_mat, pmap_mat. cbn. rewrite C1. ring.
    - cbn [length] in Lr, Lc. injection Lr as Lr. injection Lc as Lc. cbn [paulis_of variants] in *.
      assert (E : forall p P x y, over (map (cons (Some x)) (variants s) ++ map (cons (Some y)) (variants s)) (fun t => cconj (jw_coef t (p :: P)) * F t (a :: r) (b :: c)) =
        (cconj (site_coef (Some x) (odd_ladders s) p) * (local2 x a b * sgn (odd_ladders s && b)) + cconj (site_coef (Some y) (odd_ladders s) p) * (local2 y a b * sgn (odd_ladders s && b))) *
        over (variants s) (fun t => cconj (jw_coef t P) * F t r c)).
      { intros p P' x y. rewrite over_app, !over_variants. ring. }
      destruct (ladder o) eqn:Lo; apply in_app_iff in HP; destruct HP as [HP|HP]; apply in_map_iff in HP; destruct HP as [P' [<- HP]]; rewrite E; rewrite <- (IH P' r c HP Lr Lc); cbn [pmat];
        destruct a, b, (odd_ladders s); cbn; rewrite ?cconj_mul, ?cconj_opp, ?cconj_i, ?C1, ?Cm; first [ring|ring [Ci]].
    - cbn [length] in Lr, Lc. injection Lr as Lr. injection Lc as Lc. cbn [paulis_of variants] in *. apply in_map_iff in HP. destruct HP as [P' [<- HP]]. rewrite over_variants, <- (IH P' r c HP Lr Lc). cbn [pmat].
      destruct a, b, (odd_ladders s); cbn; rewrite ?C1; ring.
  Qed.
  (** Coefficients are powers of i. *)
  Lemma ipow_mul a b : (ipow a * ipow b : K) = ipow (a + b).
  Proof. symmetry. apply ipow_add. Qed.
  Lemma jw_coef_unit s : forall P, In P (paulis_of s) -> exists z, jw_coef s P = ipow z.
  Proof.
    assert (U : forall a z (x : K), x = ipow a -> exists w, x * ipow z = ipow w) by (intros a z x ->; exists (a + z)%Z; apply ipow_mul).
    assert (I0 : (1 : K) = ipow 0) by reflexivity. assert (I1 : (ci : K) = ipow 1) by reflexivity. assert (I2 : (- (1) : K) = ipow 2) by reflexivity. assert (I3 : (- ci : K) = ipow 3) by reflexivity.
    induction s as [|[o|] s IH]; intros P; cbn [paulis_of].
    - intros [<-|[]]. exists 0%Z. reflexivity.
    - destruct (ladder o) eqn:Lo; rewrite in_app_iff, !in_map_iff; intros [[x [<- H]]|[x [<- H]]]; destruct (IH x H) as [z E]; cbn [jw_coef]; rewrite E; destruct o; try discriminate;
        destruct (odd_ladders s); cbn [site_coef site_sign sgn]; first [apply (U 0%Z); cbn; ring | apply (U 1%Z); cbn; ring | apply (U 2%Z); cbn; ring | apply (U 3%Z); cbn; ring].
    - rewrite in_map_iff. intros [x [<- H]]. destruct (IH x H) as [z E]. exists z. cbn [jw_coef site_coef]. rewrite E. destruct (odd_ladders s); cbn [pauli_eqb]; ring.
  Qed.
End Sym1.
