(** The initial determinant. *)
From Coq Require Import Bool List Arith ZArith Lia Ring.
From Verif Require Import Coeff MatSpec MatLemmas KronLemmas FockSpec PauliModel PauliProofs OperatorModel OperatorProofs FermiModel FermiProofs
  TransformModel TwoTerm JWProofs EncProofs ParityProofs CircuitSpec CircuitModel CircuitProofs CircuitProofs2.
Import ListNotations.

Section Init.
  Variable K : CoefRing.
  Add Ring KRing : (c_ring K).
  Local Open Scope coef_scope.
  Notation pop := (list (list pauli * K)).

  Lemma pmuls_I s : pmuls s (repeat PI (length s)) = s.
  Proof. induction s as [|p s IH]; [reflexivity|]. cbn. rewrite IH. destruct p; reflexivity. Qed.
  Lemma pexps_I s : pexps s (repeat PI (length s)) = 0%Z.
  Proof. induction s as [|p s IH]; [reflexivity|]. cbn. rewrite IH. destruct p; reflexivity. Qed.
  Lemma small_1 : small (1 : K) = false.
  Proof.
    destruct (small (1 : K)) eqn:E; [|reflexivity]. apply small_half_mul in E. replace (chalf * 1) with (chalf : K) in E by ring.
    rewrite small_half in E. discriminate.
  Qed.
  Lemma ipow0 : @ipow K 0 = 1. Proof. reflexivity. Qed.

  Lemma jw_loop_nones N n rs (new : pop) : jw_loop N (repeat None n ++ rs) new = jw_loop N rs new.
  Proof. induction n as [|n IH]; [reflexivity|]. exact IH. Qed.
  Lemma rev_repeat {A} (x : A) n : rev (repeat x n) = repeat x n.
  Proof.
    induction n as [|n IH]; [reflexivity|]. cbn. rewrite IH. clear IH. induction n as [|n IH]; [reflexivity|]. cbn. rewrite IH. reflexivity.
  Qed.
  Lemma keq_refl s : pauli_list_eqb s s = true. Proof. apply pauli_list_eqb_spec. reflexivity. Qed.
  Lemma keq_ne s t : s <> t -> pauli_list_eqb s t = false.
  Proof. intro H. destruct (pauli_list_eqb s t) eqn:E; [|reflexivity]. apply pauli_list_eqb_spec in E. contradiction. Qed.

  Definition zx (N k : nat) : list pauli := repeat PZ k ++ PX :: repeat PI (N - k - 1).
  Definition zy (N k : nat) : list pauli := repeat PZ k ++ PY :: repeat PI (N - k - 1).
  Lemma zx_zy N k : zx N k <> zy N k.
  Proof. unfold zx, zy. intro H. apply app_inv_head in H. discriminate. Qed.
  Lemma zx_len N k : k < N -> length (zx N k) = N.
  Proof. intro. unfold zx. rewrite app_length. cbn. rewrite !repeat_length. lia. Qed.
  Lemma zy_len N k : k < N -> length (zy N k) = N.
  Proof. intro. unfold zy. rewrite app_length. cbn. rewrite !repeat_length. lia. Qed.

  Lemma jw_single N k o (c : K) : k < N -> ladder o = true -> small (chalf * c) = false ->
    jw_string (single N k o, c) = [(zx N k, chalf * c); (zy N k, ladder_c2 o * c)].
  Proof.
    intros Hk Ho Hs. unfold jw_string. cbn [fst snd].
    assert (L : length (single N k o) = N) by (unfold single; rewrite app_length; cbn; rewrite !repeat_length; lia).
    rewrite L. unfold single at 1. rewrite rev_app_distr. cbn [rev]. rewrite !rev_repeat, <- app_assoc. rewrite jw_loop_nones.
    cbn [app jw_loop]. rewrite repeat_length. pose proof (jw_loop_nones N k []) as E. rewrite app_nil_r in E. rewrite E. cbn [jw_loop].
    unfold jw_term. rewrite Ho. rewrite two_term_eq by apply zx_zy. fold (zx N k) (zy N k).
    unfold pop_mul, op_mul, pop_add_string, op_add_string. cbn [op_get op_set fold_left fst snd].
    rewrite !pauli_mul_eq by (cbn [fst]; rewrite repeat_length, ?zx_len, ?zy_len; auto). cbn [fst snd].
    pose proof (pmuls_I (zx N k)) as P1. pose proof (pmuls_I (zy N k)) as P2. pose proof (pexps_I (zx N k)) as P3. pose proof (pexps_I (zy N k)) as P4.
    rewrite zx_len in P1, P3 by exact Hk. rewrite zy_len in P2, P4 by exact Hk. rewrite P1, P2, P3, P4. cbn [op_get op_set].
    rewrite keq_ne by (intro H; symmetry in H; revert H; apply zx_zy).
    cbn [op_set fold_left]. rewrite ?keq_ne by (intro H; symmetry in H; revert H; apply zx_zy).
    rewrite !ipow0. replace (chalf * c * 1) with (chalf * c) by ring. replace (ladder_c2 o * c * 1) with (ladder_c2 o * c) by ring.
    apply clean_id. intros e [<-|[<-|[]]]; cbn [snd]; [exact Hs|].
    destruct (ladder_c2_eq K o) as [z ->]. replace (ipow z * chalf * c) with (ipow z * (chalf * c)) by ring. rewrite small_ipow. exact Hs.
  Qed.

  Lemma small_half1 : small (chalf * 1 : K) = false.
  Proof. replace (chalf * 1) with (chalf : K) by ring. apply small_half. Qed.
  Lemma small_half2 : small (chalf * - (1) : K) = false.
  Proof. replace (chalf * - (1)) with (- (chalf) : K) by ring. rewrite small_opp. apply small_half. Qed.

  Lemma single_ne N k : fstr_eqb (single N k Ann) (single N k Cre) = false.
  Proof.
    unfold single. induction k as [|k IH]; [reflexivity|].
    generalize dependent (N - S k - 1)%nat. clear IH. intro m.
    change (repeat None (S k) ++ Some Ann :: repeat None m) with (None :: (repeat (@None fop) k ++ Some Ann :: repeat None m)).
    change (repeat None (S k) ++ Some Cre :: repeat None m) with (None :: (repeat (@None fop) k ++ Some Cre :: repeat None m)).
    cbn [fstr_eqb]. rewrite ?andb_true_l. induction k as [|k IH]; [reflexivity|]. cbn [repeat app fstr_eqb]. exact IH.
  Qed.
  Lemma fermi_single o (c : K) N k : k < N -> ceqb c 0 = false -> fermi_new true c [(o, k)] N = Some (single N k o, c).
  Proof. intros Hk Hc. unfold fermi_new, generate. cbn. rewrite Hc. reflexivity. Qed.
  Lemma one_nz : ceqb (1 : K) 0 = false.
  Proof. destruct (ceqb (1 : K) 0) eqn:E; [|reflexivity]. apply ceqb_spec in E. destruct (c1_neq0 K E). Qed.
  Lemma mone_nz : ceqb (- (1) : K) 0 = false.
  Proof.
    destruct (ceqb (- (1) : K) 0) eqn:E; [|reflexivity]. apply ceqb_spec in E. destruct (c1_neq0 K).
    transitivity (- - (1) : K); [ring|]. rewrite E. ring.
  Qed.

  Lemma tem_image N k : k < N ->
    jw_operator (op_add_string fstr_eqb (op_add_string fstr_eqb [] (single N k Cre, 1)) (single N k Ann, - (1)))
    = [(zy N k, - ci : K)].
  Proof.
    intro Hk. unfold op_add_string at 2. cbn [op_get op_set fst snd]. unfold op_add_string. cbn [op_get op_set fst snd].
    rewrite single_ne. cbn [op_set]. rewrite ?single_ne. unfold jw_operator, op_transform. cbn [map fold_left].
    rewrite !jw_single by (auto using small_half1, small_half2).
    unfold op_add at 2. rewrite (fold_add_fresh K _ _ pauli_list_eqb_spec).
    2:{ cbn. constructor; [intros [H|[]]; symmetry in H; revert H; apply zx_zy|constructor; [intros []|constructor]]. }
    cbn [app]. rewrite (clean_id K).
    2:{ intros e [<-|[<-|[]]]; cbn [snd]; [apply small_half1|]. destruct (ladder_c2_eq K Cre) as [z ->].
        replace (@ipow K z * chalf * 1) with (@ipow K z * chalf) by ring. rewrite small_ipow. apply small_half. }
    unfold op_add. cbn [fold_left]. unfold op_add_string. cbn [op_get op_set fst snd]. rewrite !keq_refl. cbn [op_get op_set].
    rewrite !(keq_ne (zy N k) (zx N k)) by (intro H; symmetry in H; revert H; apply zx_zy). rewrite !keq_refl. cbn [op_set].
    rewrite ?(keq_ne (zy N k) (zx N k)) by (intro H; symmetry in H; revert H; apply zx_zy). rewrite ?keq_refl.
    unfold op_clean. cbn [filter snd].
    replace (chalf * 1 + chalf * - (1)) with (0 : K) by ring. rewrite small_0. cbn [negb].
    assert (E : ladder_c2 Cre * 1 + ladder_c2 Ann * - (1) = (- ci : K)).
    { cbn. rewrite one_minus_half. transitivity (- ((chalf + chalf) * ci) : K); [ring|]. rewrite chalf_dbl. ring. }
    rewrite E. replace (small (- ci : K)) with false; [reflexivity|]. rewrite small_opp.
    replace (@ci K) with (@ci K * 1) by ring. rewrite small_i, small_1. reflexivity.
  Qed.

  Fixpoint flips (occ : list nat) (n : bits) : bits :=
    match occ with [] => n | k :: occ' => flips occ' (upd k (negb (nth k n false)) n) end.

  Definition init_str (N : nat) (occ : list nat) : list pauli := fold_left (fun s k => pmuls s (zy N k)) occ (repeat PI N).
  Lemma pmuls_len s t : length s = length t -> length (pmuls s t) = length s.
  Proof. revert t. induction s as [|a s IH]; intros [|b t] H; try discriminate; [reflexivity|]. cbn in *. rewrite IH; lia. Qed.

  Lemma init_op N occ : (forall k, In k occ -> k < N) ->
    exists z, initial_operator N occ = Some [(init_str N occ, @ipow K z)] /\ length (init_str N occ) = N.
  Proof.
    unfold initial_operator, init_str.
    assert (G : forall s z, length s = N -> (forall k, In k occ -> k < N) ->
      exists z', fold_left (initial_step K N) occ (Some [(s, @ipow K z)]) = Some [(fold_left (fun s k => pmuls s (zy N k)) occ s, ipow z')]
        /\ length (fold_left (fun s k => pmuls s (zy N k)) occ s) = N).
    { induction occ as [|k occ IH]; intros s z Hs Ho; [exists z; split; [reflexivity|exact Hs]|].
      cbn [fold_left]. assert (Hk : k < N) by (apply Ho; left; reflexivity). unfold initial_step at 2.
      rewrite !fermi_single by auto using one_nz, mone_nz. rewrite tem_image by exact Hk.
      unfold pop_mul, op_mul. cbn [fold_left]. rewrite pauli_mul_eq by (cbn [fst]; rewrite zy_len; auto). cbn [fst snd].
      unfold op_add_string. cbn [op_get op_set fst snd].
      assert (E : ipow z * - ci * ipow (pexps s (zy N k)) = @ipow K (z + 3 + pexps s (zy N k))).
      { rewrite !ipow_add. replace (@ipow K 3) with (- (@ci K)) by (unfold ipow; cbn; ring). ring. }
      rewrite E. unfold op_clean. cbn [filter snd].
      replace (small (@ipow K (z + 3 + pexps s (zy N k)))) with false.
      2:{ replace (@ipow K (z + 3 + pexps s (zy N k))) with (@ipow K (z + 3 + pexps s (zy N k)) * 1) by ring.
          rewrite small_ipow, small_1. reflexivity. }
      cbn [negb]. apply IH; [|intros; apply Ho; right; assumption]. rewrite pmuls_len; rewrite ?zy_len; auto. }
    intro Ho. destruct (G (repeat PI N) 0%Z (repeat_length _ _) Ho) as [z [E L]]. exists z. split; [exact E|exact L].
  Qed.

  Lemma I1 : @ipow K 1 = ci. Proof. reflexivity. Qed.
  Lemma I2 : @ipow K 2 = - (1). Proof. reflexivity. Qed.
  Lemma I3 : @ipow K 3 = - ci. Proof. reflexivity. Qed.
  (** Bits flipped by a string. *)
  Definition flipsb (s : list pauli) : bits := map (fun p => match p with PX | PY => true | _ => false end) s.
  Lemma pmat_column0 s (n : bits) : length n = length s ->
    exists z, forall r, length r = length s -> @pmat K s r n = if bits_eqb r (map (fun e => xorb (fst e) (snd e)) (combine (flipsb s) n)) then ipow z else 0.
  Proof.
    revert n. induction s as [|p s IH]; intros [|b n] H; try discriminate.
    - exists 0%Z. intros [|a r] Hr; try discriminate. reflexivity.
    - destruct (IH n ltac:(cbn in H; lia)) as [z Hz]. exists (match p with PY => if b then 3 + z else 1 + z | PZ => if b then 2 + z else z | _ => z end)%Z.
      intros [|a r] Hr; try discriminate. cbn [pmat flipsb map combine bits_eqb]. rewrite Hz by (cbn in Hr; lia).
      fold (flipsb s). destruct (bits_eqb r (map (fun e => xorb (fst e) (snd e)) (combine (flipsb s) n))); rewrite ?andb_true_r, ?andb_false_r.
      + destruct p, a, b; cbn [pauli1 fst snd xorb eqb]; rewrite ?ipow_add, ?I1, ?I2, ?I3; ring.
      + destruct p, a, b; cbn [pauli1]; ring.
  Qed.
  Lemma flipsb_mul s t : length s = length t -> flipsb (pmuls s t) = map (fun e => xorb (fst e) (snd e)) (combine (flipsb s) (flipsb t)).
  Proof.
    revert t. induction s as [|a s IH]; intros [|b t] H; try discriminate; [reflexivity|]. cbn in *. rewrite IH by lia. destruct a, b; reflexivity.
  Qed.
  Lemma flipsb_zy N k : k < N -> flipsb (zy N k) = upd k true (repeat false N).
  Proof.
    unfold zy, flipsb. intro H. revert N H. induction k as [|k IH]; intros N H; destruct N as [|N]; try lia.
    - cbn. replace (N - 0)%nat with N by lia. f_equal. clear. induction N; cbn; congruence.
    - cbn [repeat app map upd Nat.sub]. rewrite IH by lia. reflexivity.
  Qed.
  Lemma flipsb_len s : length (flipsb s) = length s. Proof. apply map_length. Qed.
  Lemma xor_upd N k l : k < N -> length l = N ->
    map (fun e => xorb (fst e) (snd e)) (combine l (upd k true (repeat false N))) = upd k (negb (nth k l false)) l.
  Proof.
    revert N l. induction k as [|k IH]; intros [|N] [|b l] Hk Hl; try (cbn in *; lia).
    - cbn. rewrite xorb_true_r. f_equal. cbn in Hl. assert (L : length l = N) by lia. clear -L.
      revert N L. induction l as [|x l IH]; intros [|N] L; try discriminate; [reflexivity|]. cbn. rewrite xorb_false_r, IH; [reflexivity|cbn in L; lia].
    - cbn. rewrite xorb_false_r, IH by (cbn in *; lia). reflexivity.
  Qed.
  Lemma upd_len {A} k (x : A) l : length (upd k x l) = length l.
  Proof. revert l. induction k as [|k IH]; intros [|y l]; cbn; auto. Qed.
  Lemma init_flips N occ : (forall k, In k occ -> k < N) -> flipsb (init_str N occ) = flips occ (repeat false N).
  Proof.
    unfold init_str. intro Ho.
    assert (G : forall s n, length s = N -> flipsb s = n -> flipsb (fold_left (fun s k => pmuls s (zy N k)) occ s) = flips occ n).
    { induction occ as [|k occ IH]; intros s n Hs Hn; [exact Hn|]. cbn [fold_left flips].
      assert (Hk : k < N) by (apply Ho; left; reflexivity).
      apply IH; [intros; apply Ho; right; assumption|rewrite pmuls_len; rewrite ?zy_len; auto|].
      rewrite flipsb_mul by (rewrite zy_len; auto). rewrite flipsb_zy by exact Hk. subst n. apply xor_upd; [exact Hk|]. rewrite flipsb_len. exact Hs. }
    apply G; [apply repeat_length|]. unfold flipsb. clear. induction N; cbn; congruence.
  Qed.
  Lemma nth_upd_same {A} k (x d : A) l : k < length l -> nth k (upd k x l) d = x.
  Proof. revert l. induction k as [|k IH]; intros [|y l] H; cbn in *; try lia; [reflexivity|]. apply IH. lia. Qed.
  Lemma nth_upd_other {A} k j (x d : A) l : j <> k -> nth j (upd k x l) d = nth j l d.
  Proof. revert j l. induction k as [|k IH]; intros [|j] [|y l] H; cbn; try reflexivity; try lia. apply IH. lia. Qed.
  Lemma flips_nth N occ n : length n = N -> (forall k, In k occ -> k < N) -> NoDup occ -> forall j,
    nth j (flips occ n) false = xorb (existsb (Nat.eqb j) occ) (nth j n false).
  Proof.
    revert n. induction occ as [|k occ IH]; intros n Hn Ho ND j; [cbn; destruct (nth j n false); reflexivity|].
    inversion ND as [|? ? Hni ND']; subst. cbn [flips existsb]. rewrite IH; [|rewrite upd_len; reflexivity|intros; apply Ho; right; assumption|exact ND'].
    destruct (Nat.eqb_spec j k) as [->|E].
    - rewrite nth_upd_same by (apply Ho; left; reflexivity).
      replace (existsb (Nat.eqb k) occ) with false. { cbn. destruct (nth k n false); reflexivity. }
      symmetry. apply not_true_iff_false. intro C. apply existsb_exists in C. destruct C as [x [Hx C]]. apply Nat.eqb_eq in C. subst. contradiction.
    - rewrite nth_upd_other by exact E. reflexivity.
  Qed.
  Lemma flips_len occ n : length (flips occ n) = length n.
  Proof. revert n. induction occ as [|k occ IH]; intro n; [reflexivity|]. cbn. rewrite IH, upd_len. reflexivity. Qed.

  Variable rt : K.
  Hypothesis rt_sq : rt * rt = chalf.
  Lemma initial_state N occ : NoDup occ -> (forall k, In k occ -> k < N) ->
    exists s z, initial_operator N occ = Some [(s, @ipow K z)] /\
    exists z', forall r, length r = N ->
      cmat rt N (initial_circuit rt [(s, @ipow K z)]) r (repeat false N)
      = if bits_eqb r (map (fun j => existsb (Nat.eqb j) occ) (seq 0 N)) then ipow z' else 0.
  Proof.
    intros ND Ho. destruct (init_op N occ Ho) as [z [E L]]. exists (init_str N occ), z. split; [exact E|].
    unfold initial_circuit. cbn [flat_map fst]. rewrite app_nil_r.
    destruct (apply_column K rt rt_sq (init_str N occ) (repeat false N)) as [z1 H1]; [rewrite repeat_length; auto|].
    destruct (pmat_column0 (init_str N occ) (repeat false N)) as [z2 H2]; [rewrite repeat_length; auto|].
    rewrite L in H1, H2. exists (z1 + z2)%Z. intros r Hr. rewrite H1, H2 by exact Hr.
    assert (Eq : map (fun e => xorb (fst e) (snd e)) (combine (flipsb (init_str N occ)) (repeat false N)) = map (fun j => existsb (Nat.eqb j) occ) (seq 0 N)).
    { rewrite init_flips by exact Ho. apply nth_ext with (d := false) (d' := false).
      - rewrite !map_length, combine_length, flips_len, repeat_length, seq_length. lia.
      - intros j Hj. rewrite map_length, combine_length, flips_len, repeat_length in Hj.
        assert (Hj' : j < N) by lia.
        pose (f := fun e : bool * bool => xorb (fst e) (snd e)).
        change (nth j (map f (combine (flips occ (repeat false N)) (repeat false N))) (f (false, false)) = nth j (map (fun j => existsb (Nat.eqb j) occ) (seq 0 N)) false).
        rewrite (map_nth f), combine_nth by (rewrite flips_len; reflexivity). unfold f. cbn [fst snd].
        rewrite (flips_nth N) by (auto; apply repeat_length). rewrite nth_repeat. rewrite !xorb_false_r.
        pose (g := fun j => existsb (Nat.eqb j) occ).
        change (g j = nth j (map g (seq 0 N)) false). rewrite (nth_indep _ false (g 0%nat)) by (rewrite map_length, seq_length; exact Hj').
        rewrite (map_nth g). rewrite seq_nth by exact Hj'. reflexivity. }
    rewrite Eq. destruct (bits_eqb r _); [rewrite ipow_add|]; ring.
  Qed.
End Init.
