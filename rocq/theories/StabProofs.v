From Coq Require Import Bool List Arith Lia.
From Verif Require Import MatSpec PauliModel OptModel OptProofs StabModel StabSpec.
Import ListNotations.

(** ** Vectors *)
Lemma vxor_add2 : forall a b, vxor a b = add2 a b.
Proof. unfold vxor. induction a as [|x a IH]; intros [|y b]; try reflexivity. cbn. now rewrite IH. Qed.
Lemma add2_length : forall a b M, length a = M -> length b = M -> length (add2 a b) = M.
Proof.
  induction a as [|x a IH]; intros [|y b] M Ha Hb; cbn in *; try congruence. destruct M; [discriminate|]. f_equal. apply IH; lia.
Qed.
Lemma add2_get : forall a b i, length a = length b -> nth i (add2 a b) false = xorb (nth i a false) (nth i b false).
Proof. induction a as [|x a IH]; intros [|y b] [|i] H; cbn in *; try discriminate; try reflexivity. apply IH. lia. Qed.
Lemma vec_ext : forall (a b : list bool), length a = length b -> (forall i, i < length a -> nth i a false = nth i b false) -> a = b.
Proof. intros a b H1 H2. apply (nth_ext a b false false H1 H2). Qed.
Lemma nth_repeat_false : forall M i, nth i (repeat false M) false = false.
Proof. induction M as [|M IH]; intros [|i]; cbn; auto. Qed.

Ltac vec_eq := apply vec_ext; [|let i := fresh "i" in let Hi := fresh "Hi" in intros i Hi].

Lemma add2_comm : forall a b, add2 a b = add2 b a.
Proof. induction a as [|x a IH]; intros [|y b]; try reflexivity. cbn. now rewrite IH, xorb_comm. Qed.
Lemma add2_assoc : forall a b c, add2 a (add2 b c) = add2 (add2 a b) c.
Proof. induction a as [|x a IH]; intros [|y b] [|z c]; try reflexivity. cbn. now rewrite IH, xorb_assoc. Qed.
Lemma add2_zero : forall a M, length a = M -> add2 a (repeat false M) = a.
Proof. induction a as [|x a IH]; intros M H; cbn in H; subst M; [reflexivity|]. cbn. now rewrite IH, xorb_false_r. Qed.
Lemma add2_self : forall a M, length a = M -> add2 a a = repeat false M.
Proof. induction a as [|x a IH]; intros M H; cbn in H; subst M; [reflexivity|]. cbn. now rewrite (IH (length a)), xorb_nilpotent. Qed.

Lemma dot2_add : forall a b c, length a = length b -> dot2 (add2 a b) c = xorb (dot2 a c) (dot2 b c).
Proof.
  induction a as [|x a IH]; intros [|y b] [|z c] H; cbn in *; try discriminate; try reflexivity.
  rewrite IH by lia. destruct x, y, z, (dot2 a c), (dot2 b c); reflexivity.
Qed.
Lemma dot2_comm : forall a b, dot2 a b = dot2 b a.
Proof. induction a as [|x a IH]; intros [|y b]; try reflexivity. cbn. now rewrite IH, andb_comm. Qed.
Lemma dot2_zero : forall M c, dot2 (repeat false M) c = false.
Proof. induction M as [|M IH]; intros [|z c]; cbn; try reflexivity. now rewrite IH. Qed.

(** Sums over positions. *)
Fixpoint xs (f : nat -> bool) (n : nat) : bool := match n with 0 => false | S k => xorb (xs f k) (f k) end.
Lemma xs_ext : forall f g n, (forall i, i < n -> f i = g i) -> xs f n = xs g n.
Proof. intros f g n. induction n as [|n IH]; intro H; [reflexivity|]. cbn. rewrite IH by (intros; apply H; lia). now rewrite H by lia. Qed.
Lemma xs_false : forall f n, (forall i, i < n -> f i = false) -> xs f n = false.
Proof. intros f n. induction n as [|n IH]; intro H; [reflexivity|]. cbn. rewrite IH by (intros; apply H; lia). now rewrite H by lia. Qed.
Lemma xs_one : forall f n a, a < n -> (forall i, i < n -> i <> a -> f i = false) -> xs f n = f a.
Proof.
  intros f n a. induction n as [|n IH]; intros Ha H; [lia|]. cbn. destruct (Nat.eq_dec a n) as [->|Hne].
  - rewrite xs_false; [apply xorb_false_l|]. intros i Hi. apply H; lia.
  - rewrite IH by (try lia; intros; apply H; lia). rewrite (H n) by lia. apply xorb_false_r.
Qed.
Lemma xs_two : forall f n a b, a < n -> b < n -> a <> b -> (forall i, i < n -> i <> a -> i <> b -> f i = false) -> xs f n = xorb (f a) (f b).
Proof.
  intros f n a b. induction n as [|n IH]; intros Ha Hb Hab H; [lia|]. cbn.
  destruct (Nat.eq_dec a n) as [->|Hna]; [|destruct (Nat.eq_dec b n) as [->|Hnb]].
  - rewrite (xs_one f n b); [apply xorb_comm|lia|]. intros i H1 H2. apply H; lia.
  - rewrite (xs_one f n a); [reflexivity|lia|]. intros i H1 H2. apply H; lia.
  - rewrite IH; try lia; [|intros; apply H; lia]. rewrite (H n) by lia. apply xorb_false_r.
Qed.
Lemma xs_xor : forall f g n, xs (fun i => xorb (f i) (g i)) n = xorb (xs f n) (xs g n).
Proof. intros f g n. induction n as [|n IH]; [reflexivity|]. cbn. rewrite IH. destruct (xs f n), (xs g n), (f n), (g n); reflexivity. Qed.
Lemma xs_shift : forall f n, xs f (S n) = xorb (f 0) (xs (fun i => f (S i)) n).
Proof.
  intros f n. induction n as [|n IH]; [cbn; destruct (f 0); reflexivity|].
  change (xs f (S (S n))) with (xorb (xs f (S n)) (f (S n))). rewrite IH. cbn. now rewrite xorb_assoc.
Qed.
Lemma dot2_xs : forall M a b, length a = M -> length b = M -> dot2 a b = xs (fun i => nth i a false && nth i b false) M.
Proof.
  induction M as [|M IH]; intros [|x a] [|y b] Ha Hb; try discriminate; [reflexivity|].
  rewrite xs_shift. cbn [dot2 nth]. rewrite (IH a b) by (cbn in *; lia). reflexivity.
Qed.

(** ** Spans *)
Lemma span_len : forall M E v, shape M E -> span M E v -> length v = M.
Proof.
  intros M E v HE H. induction H as [|r v Hr Hv IH]; [apply repeat_length|]. apply add2_length; [now apply HE|exact IH].
Qed.
Lemma span_row : forall M E r, shape M E -> In r E -> span M E r.
Proof. intros M E r HE Hr. rewrite <- (add2_zero r M (HE r Hr)). now apply span_add, span_zero. Qed.
Lemma span_sum : forall M E a b, shape M E -> span M E a -> span M E b -> span M E (add2 a b).
Proof.
  intros M E a b HE Ha Hb. induction Ha as [|r v Hr Hv IH].
  - rewrite add2_comm, add2_zero; [exact Hb|]. now apply span_len with E.
  - rewrite <- add2_assoc. now apply span_add.
Qed.
Lemma span_incl : forall M E F v, shape M F -> (forall r, In r E -> span M F r) -> span M E v -> span M F v.
Proof.
  intros M E F v HF H Hv. induction Hv as [|r v Hr Hv IH]; [apply span_zero|]. apply span_sum; [exact HF|now apply H|exact IH].
Qed.
Lemma span_orth : forall M E v x, shape M E -> span M E v -> (forall r, In r E -> dot2 r x = false) -> dot2 v x = false.
Proof.
  intros M E v x HE Hv H. induction Hv as [|r v Hr Hv IH]; [apply dot2_zero|].
  rewrite dot2_add; [now rewrite (H r Hr), IH|]. rewrite (HE r Hr). symmetry. now apply span_len with E.
Qed.

(** ** Elimination *)
Definition cnt (piv : list nat) (p : nat) : nat := length (filter (fun q => q <? p) piv).

Lemma cnt_app : forall a b p, cnt (a ++ b) p = cnt a p + cnt b p.
Proof. intros a b p. unfold cnt. rewrite filter_app. apply app_length. Qed.
Lemma cnt_all : forall piv c, (forall p, In p piv -> p < c) -> cnt piv c = length piv.
Proof.
  intros piv c H. unfold cnt. induction piv as [|p piv IH]; [reflexivity|]. cbn [filter].
  rewrite (proj2 (Nat.ltb_lt p c)) by (apply H; now left). cbn [length]. rewrite IH; [reflexivity|]. intros q Hq. apply H. now right.
Qed.

Lemma NoDup_app_snoc : forall (l : list nat) x, NoDup l -> ~ In x l -> NoDup (l ++ [x]).
Proof.
  intros l x H Hx. induction l as [|y l IH]; cbn; [constructor; [intros []|constructor]|].
  inversion H as [|? ? Hy Hl]; subst. constructor.
  - intro Q. apply in_app_or in Q. destruct Q as [Q|[Q|[]]]; [now apply Hy|]. subst. apply Hx. now left.
  - apply IH; [exact Hl|]. intro Q. apply Hx. now right.
Qed.

Record rref (M c : nat) (E0 E : list vec) (piv : list nat) : Prop := {
  rr_len : length E = length E0;
  rr_shape : shape M E;
  rr_c : c <= M;
  rr_nodup : NoDup piv;
  rr_lt : forall p, In p piv -> p < c;
  rr_rows : length piv <= length E;
  rr_one : forall p, In p piv -> vget (nth (cnt piv p) E []) p = true;
  rr_zero : forall p r, In p piv -> r <> cnt piv p -> vget (nth r E []) p = false;
  rr_left : forall p j, In p piv -> j < p -> vget (nth (cnt piv p) E []) j = false;
  rr_below : forall r j, length piv <= r -> j < c -> vget (nth r E []) j = false;
  rr_surj : forall r, r < length piv -> exists p, In p piv /\ cnt piv p = r;
  rr_span1 : forall r, In r E -> span M E0 r;
  rr_span2 : forall r, In r E0 -> span M E r
}.

Lemma find_row_spec : forall E c left r, match find_row E c r left with
  | Some k => r <= k < r + left /\ vget (nth k E []) c = true
  | None => forall k, r <= k < r + left -> vget (nth k E []) c = false end.
Proof.
  intros E c left. induction left as [|left IH]; intro r; cbn [find_row]; [intros k Hk; lia|].
  destruct (vget (nth r E []) c) eqn:H; [split; [lia|exact H]|].
  specialize (IH (S r)). destruct (find_row E c (S r) left) as [k|].
  - split; [lia|apply IH].
  - intros k Hk. destruct (Nat.eq_dec k r) as [->|]; [exact H|]. apply IH. lia.
Qed.

Lemma swap_rows_nth : forall i j E k, i < length E -> j < length E ->
  nth k (swap_rows i j E) [] = if k =? i then nth j E [] else if k =? j then nth i E [] else nth k E [].
Proof.
  intros i j E k Hi Hj. unfold swap_rows. rewrite nth_put_at by (rewrite put_at_length; lia).
  destruct (k =? i); [reflexivity|]. now rewrite nth_put_at by lia.
Qed.
Lemma clear_column_length : forall E i r c piv, length (clear_column i r c piv E) = length E.
Proof. induction E as [|row E IH]; intros i r c piv; cbn; [reflexivity|now rewrite IH]. Qed.
Lemma clear_column_nth : forall E i r c piv k, k < length E ->
  nth k (clear_column i r c piv E) [] =
    if i + k =? r then nth k E [] else if vget (nth k E []) c then add2 (nth k E []) piv else nth k E [].
Proof.
  induction E as [|row E IH]; intros i r c piv k Hk; [cbn in Hk; lia|]. cbn [clear_column]. destruct k as [|k].
  - rewrite Nat.add_0_r. cbn [nth]. rewrite <- vxor_add2. reflexivity.
  - cbn [nth]. rewrite IH by (cbn in Hk; lia). now replace (S i + k) with (i + S k) by lia.
Qed.

(** One pivot step. *)
Lemma pivot_step : forall M c E0 E piv r, rref M c E0 E piv -> shape M E0 -> c < M -> length piv <= r -> r < length E ->
  vget (nth r E []) c = true ->
  let row := length piv in
  let E1 := if r =? row then E else swap_rows row r E in
  rref M (S c) E0 (clear_column 0 row c (nth row E1 []) E1) (piv ++ [c]).
Proof.
  intros M c E0 E piv r R S0 Hc Hr1 Hr2 Hget row E1. fold row in Hr1.
  assert (Hrow : row < length E) by lia.
  assert (L1 : length E1 = length E).
  { unfold E1. destruct (r =? row); [reflexivity|]. unfold swap_rows. now rewrite !put_at_length. }
  assert (N1 : forall k, nth k E1 [] = if k =? row then nth r E [] else if k =? r then nth row E [] else nth k E []).
  { intro k. unfold E1. destruct (Nat.eqb_spec r row) as [->|Hne].
    - destruct (Nat.eqb_spec k row); subst; reflexivity.
    - now rewrite swap_rows_nth by lia. }
  assert (SE : shape M E) by apply (rr_shape _ _ _ _ _ R).
  assert (Hlenk : forall k, k < length E -> length (nth k E []) = M) by (intros k Hk; apply SE, nth_In; exact Hk).
  assert (Hlen1 : forall k, k < length E -> length (nth k E1 []) = M).
  { intros k Hk. rewrite N1. destruct (k =? row); [apply Hlenk; lia|]. destruct (k =? r); apply Hlenk; lia. }
  set (P := nth row E1 []). assert (HP : P = nth r E []) by (unfold P; rewrite N1, Nat.eqb_refl; reflexivity).
  assert (LP : length P = M) by (rewrite HP; apply Hlenk; lia).
  set (E2 := clear_column 0 row c P E1).
  assert (L2 : length E2 = length E) by (unfold E2; now rewrite clear_column_length).
  assert (N2 : forall k, nth k E2 [] = if k =? row then P else if vget (nth k E1 []) c then add2 (nth k E1 []) P else nth k E1 []).
  { intro k. destruct (le_lt_dec (length E) k) as [Hk|Hk].
    - rewrite (nth_overflow E2) by lia. destruct (Nat.eqb_spec k row) as [->|]; [lia|]. rewrite (nth_overflow E1) by lia. unfold vget. destruct c; reflexivity.
    - unfold E2. rewrite clear_column_nth by lia. cbn [Nat.add]. destruct (Nat.eqb_spec k row) as [->|]; reflexivity. }
  assert (SE1 : shape M E1).
  { intros x Hx. destruct (In_nth E1 x [] Hx) as [k [Hk Ek]]. rewrite <- Ek. apply Hlen1. lia. }
  assert (SE2 : shape M E2).
  { intros x Hx. destruct (In_nth E2 x [] Hx) as [k [Hk Ek]]. rewrite <- Ek, N2. destruct (k =? row); [exact LP|].
    destruct (vget (nth k E1 []) c); [apply add2_length; [apply Hlen1; lia|exact LP]|apply Hlen1; lia]. }
  (* columns left of c *)
  assert (HPleft : forall j, j < c -> vget P j = false) by (intros j Hj; rewrite HP; apply (rr_below _ _ _ _ _ R); assumption).
  assert (Hleft2 : forall k j, j < c -> vget (nth k E2 []) j = vget (nth k E []) j).
  { intros k j Hj. rewrite N2. destruct (Nat.eqb_spec k row) as [->|Hne].
    - rewrite HPleft by exact Hj. symmetry. apply (rr_below _ _ _ _ _ R); [unfold row; lia|exact Hj].
    - assert (Z : vget (nth k E1 []) j = vget (nth k E []) j).
      { rewrite N1. destruct (Nat.eqb_spec k row) as [|_]; [lia|]. destruct (Nat.eqb_spec k r) as [->|]; [|reflexivity].
        rewrite !(rr_below _ _ _ _ _ R) by (unfold row in *; lia). reflexivity. }
      destruct (vget (nth k E1 []) c) eqn:Hk; [|exact Z].
      destruct (le_lt_dec (length E) k) as [Hl|Hl].
      { rewrite (nth_overflow E1) in Hk by lia. unfold vget in Hk. destruct c; discriminate Hk. }
      unfold vget in *. rewrite add2_get by (rewrite Hlen1; congruence). rewrite Z, HPleft by exact Hj. apply xorb_false_r. }
  assert (Hcnt_old : forall p, In p piv -> cnt (piv ++ [c]) p = cnt piv p).
  { intros p Hp. rewrite cnt_app. unfold cnt at 2. cbn [filter]. rewrite (proj2 (Nat.ltb_ge c p)); [cbn; lia|]. pose proof (rr_lt _ _ _ _ _ R p Hp). lia. }
  assert (Hcnt_new : cnt (piv ++ [c]) c = row).
  { rewrite cnt_app, cnt_all by apply (rr_lt _ _ _ _ _ R). unfold cnt. cbn [filter]. rewrite Nat.ltb_irrefl. cbn. unfold row. lia. }
  assert (HcntR : forall p, In p piv -> cnt piv p < row).
  { intros p Hp. destruct (le_lt_dec row (cnt piv p)) as [H|H]; [|exact H].
    pose proof (rr_one _ _ _ _ _ R p Hp) as O. rewrite (rr_below _ _ _ _ _ R) in O; [discriminate|exact H|apply (rr_lt _ _ _ _ _ R p Hp)]. }
  assert (HcolC : forall k, k <> row -> vget (nth k E2 []) c = false).
  { intros k Hk. rewrite N2. apply Nat.eqb_neq in Hk. rewrite Hk. destruct (vget (nth k E1 []) c) eqn:Z; [|exact Z].
    destruct (le_lt_dec (length E) k) as [Hl|Hl].
    { rewrite (nth_overflow E1) in Z by lia. unfold vget in Z. destruct c; discriminate Z. }
    unfold vget in *. rewrite add2_get by (rewrite Hlen1; congruence). rewrite Z, HP, Hget. reflexivity. }
  constructor.
  - rewrite L2. apply (rr_len _ _ _ _ _ R).
  - exact SE2.
  - lia.
  - apply NoDup_app_snoc; [apply (rr_nodup _ _ _ _ _ R)|]. intro H. pose proof (rr_lt _ _ _ _ _ R c H). lia.
  - intros p Hp. apply in_app_or in Hp. destruct Hp as [Hp|[<-|[]]]; [pose proof (rr_lt _ _ _ _ _ R p Hp); lia|lia].
  - rewrite app_length. cbn. fold row. lia.
  - intros p Hp. apply in_app_or in Hp. destruct Hp as [Hp|[<-|[]]].
    + rewrite Hcnt_old, Hleft2 by (try exact Hp; apply (rr_lt _ _ _ _ _ R p Hp)). now apply (rr_one _ _ _ _ _ R).
    + rewrite Hcnt_new, N2, Nat.eqb_refl, HP. exact Hget.
  - intros p k Hp Hk. apply in_app_or in Hp. destruct Hp as [Hp|[<-|[]]].
    + rewrite Hcnt_old in Hk by exact Hp. rewrite Hleft2 by apply (rr_lt _ _ _ _ _ R p Hp). now apply (rr_zero _ _ _ _ _ R).
    + rewrite Hcnt_new in Hk. now apply HcolC.
  - intros p j Hp Hj. apply in_app_or in Hp. destruct Hp as [Hp|[<-|[]]].
    + pose proof (rr_lt _ _ _ _ _ R p Hp). rewrite Hcnt_old, Hleft2 by (try exact Hp; lia). now apply (rr_left _ _ _ _ _ R).
    + rewrite Hcnt_new, N2, Nat.eqb_refl. now apply HPleft.
  - intros k j Hk Hj. rewrite app_length in Hk. cbn in Hk. fold row in Hk.
    destruct (Nat.eq_dec j c) as [->|Hne]; [apply HcolC; lia|]. rewrite Hleft2 by lia. apply (rr_below _ _ _ _ _ R); [unfold row in *; lia|lia].
  - intros k Hk. rewrite app_length in Hk. cbn in Hk. fold row in Hk. destruct (Nat.eq_dec k row) as [->|Hne].
    + exists c. split; [apply in_or_app; right; now left|exact Hcnt_new].
    + destruct (rr_surj _ _ _ _ _ R k ltac:(unfold row in *; lia)) as [p [Hp Ep]]. exists p. split; [apply in_or_app; now left|].
      now rewrite Hcnt_old.
  - assert (HE1 : forall k, k < length E -> span M E0 (nth k E1 [])).
    { intros k Hk. apply (rr_span1 _ _ _ _ _ R). rewrite N1. destruct (k =? row); [apply nth_In; lia|]. destruct (k =? r); apply nth_In; lia. }
    intros x Hx. destruct (In_nth E2 x [] Hx) as [k [Hk Ek]]. rewrite <- Ek, N2. destruct (k =? row); [apply HE1; exact Hrow|].
    destruct (vget (nth k E1 []) c); [apply span_sum; [exact S0|apply HE1; lia|apply HE1; exact Hrow]|apply HE1; lia].
  - intros x Hx. apply span_incl with E; [exact SE2| |now apply (rr_span2 _ _ _ _ _ R)].
    assert (HPs : span M E2 P).
    { apply span_row; [exact SE2|]. replace P with (nth row E2 []) by (rewrite N2, Nat.eqb_refl; reflexivity). apply nth_In. lia. }
    assert (HE1 : forall k, k < length E -> span M E2 (nth k E1 [])).
    { intros k Hk. assert (Hs : span M E2 (nth k E2 [])) by (apply span_row; [exact SE2|apply nth_In; lia]).
      rewrite N2 in Hs. destruct (Nat.eqb_spec k row) as [->|Hne]; [exact HPs|].
      destruct (vget (nth k E1 []) c); [|exact Hs].
      pose proof (span_sum M E2 _ _ SE2 Hs HPs) as H2. rewrite <- add2_assoc, (add2_self P M LP), add2_zero in H2 by (apply Hlen1; exact Hk). exact H2. }
    intros y Hy. destruct (In_nth E y [] Hy) as [k [Hk Ek]]. rewrite <- Ek.
    destruct (Nat.eq_dec k r) as [->|Hkr].
    + replace (nth r E []) with (nth row E1 []) by (fold P; exact HP). now apply HE1.
    + destruct (Nat.eq_dec k row) as [->|Hk2].
      * replace (nth row E []) with (nth r E1 []); [now apply HE1|]. rewrite N1. rewrite (proj2 (Nat.eqb_neq r row)) by lia. now rewrite Nat.eqb_refl.
      * replace (nth k E []) with (nth k E1 []); [now apply HE1|]. rewrite N1.
        rewrite (proj2 (Nat.eqb_neq k row)) by lia. now rewrite (proj2 (Nat.eqb_neq k r)) by lia.
Qed.
