(** The history kept by the BFGS optimizer for its stuck check. *)
From Coq Require Import Bool List Arith ZArith QArith Qabs Lia Lqa ZifyNat.
From Verif Require Import AcseModel BfgsModel GBfgsModel GBfgsSpec.
Import ListNotations.
Local Open Scope nat_scope.
Ltac Zify.zify_post_hook ::= Z.to_euclidean_division_equations.

Lemma dist2_dot u : forall v, (dot (vsub u v) (vsub u v) == dist2 u v)%Q.
Proof.
  induction u as [|x u IH]; intros [|y v]; try reflexivity. cbn [vsub dot]. unfold dist2. cbn [combine fold_right fst snd]. fold (dist2 u v). rewrite IH. reflexivity.
Qed.
Section Run.
  Variables (f : vec -> Q) (g : vec -> vec) (fuel : nat).
  Lemma steps_nth k : forall a l, gb_steps f g fuel k a = Some (Some l) -> length l = S k /\ nth_error l 0 = Some a /\
    forall i, i < k -> exists b c, nth_error l i = Some b /\ nth_error l (S i) = Some c /\ gb_step f g fuel b = Some (Some c).
  Proof.
    induction k as [|k IH]; intros a l H; cbn [gb_steps] in H; [injection H as <-; repeat split; intros; lia|].
    destruct (gb_step f g fuel a) as [[b|]|] eqn:E; try discriminate. destruct (gb_steps f g fuel k b) as [[l'|]|] eqn:E'; try discriminate. injection H as <-.
    destruct (IH b l' E') as [L [Z F]]. split; [cbn [length]; lia|]. split; [reflexivity|]. intros [|i] Hi; [exists a, b; repeat split; [exact Z|exact E]|]. exact (F i ltac:(lia)).
  Qed.
  Definition rows n pts i := [latest n pts i 0; latest n pts i 1; latest n pts i 2].
  Definition before n pts i := match i with O => repeat (repeat 0%Q n) 3 | S i' => rows n pts i' end.
  Lemma rows_set n pts i : set_row (i mod 3) (nth i pts []) (before n pts i) = rows n pts i.
  Proof.
    unfold before, rows, latest. destruct i as [|i]; [reflexivity|].
    assert (X : forall r, r <= S i -> r mod 3 = S i mod 3 -> r < 3 -> nth (S i - (S i - r) mod 3) pts [] = nth (S i) pts []) by (intros; f_equal; lia).
    assert (Y : forall r, r <> S i mod 3 -> r < 3 -> (if Nat.leb r (S i) then nth (S i - (S i - r) mod 3) pts [] else repeat 0%Q n) = if Nat.leb r i then nth (i - (i - r) mod 3) pts [] else repeat 0%Q n).
    { intros r N R. destruct (Nat.leb_spec r (S i)) as [A|A], (Nat.leb_spec r i) as [B|B]; try lia; [f_equal; lia|reflexivity]. }
    assert (W : forall r, r = S i mod 3 -> r < 3 -> (if Nat.leb r (S i) then nth (S i - (S i - r) mod 3) pts [] else repeat 0%Q n) = nth (S i) pts []).
    { intros r N R. destruct (Nat.leb_spec r (S i)) as [A|A]; [apply X; lia|]. exfalso. lia. }
    assert (M : S i mod 3 < 3) by (apply Nat.mod_upper_bound; lia).
    destruct (S i mod 3) as [|[|[|m]]] eqn:E; [| | |lia]; cbn [set_row]; (f_equal; [|f_equal; [|f_equal]]);
      solve [symmetry; apply W; lia | symmetry; apply Y; lia].
  Qed.
  Lemma step_rows b c : gb_step f g fuel b = Some (Some c) -> let st := set_row (gb_ind b) (gb_x b) (gb_stuck b) in
    gb_stuck c = st /\ gb_ind c = (match gb_ind b with 0 => 1 | 1 => 2 | _ => 0 end) /\ gb_nstuck c = (if is_stuck st then 1 else 0) /\
    gb_x c = vadd (if is_stuck st then vsub (gb_x b) (vscale (1 # 2) (gb_s b)) else gb_x b) (gb_s c).
  Proof.
    unfold gb_step, gb_move. intro H. destruct (gb_line _ _ _ _ _ _ _) as [[[alp v]|]|]; try discriminate. injection H as <-. cbn [gb_stuck gb_ind gb_nstuck gb_x gb_s]. repeat split.
  Qed.
  Lemma init_rows prior start a : gb_init f g fuel prior start = Some (Some a) -> gb_stuck a = repeat (repeat 0%Q (length start)) 3 /\ gb_ind a = 0.
  Proof.
    unfold gb_init, gb_move. intro H. destruct (gb_line _ _ _ _ _ _ _) as [[[alp v]|]|]; try discriminate. injection H as <-. split; reflexivity.
  Qed.
  Theorem stuck_window k prior start l : gb_run f g fuel k prior start = Some (Some l) -> length l = S k /\
    forall i, i < k -> exists b c, nth_error l i = Some b /\ nth_error l (S i) = Some c /\
      let near := (dist2 (latest (length start) (map gb_x l) i 0) (latest (length start) (map gb_x l) i 2) < (1 # (10 ^ 15)) * (1 # (10 ^ 15)))%Q in
      (near -> gb_nstuck c = 1 /\ gb_x c = vadd (vsub (gb_x b) (vscale (1 # 2) (gb_s b))) (gb_s c)) /\
      (~ near -> gb_nstuck c = 0 /\ gb_x c = vadd (gb_x b) (gb_s c)).
  Proof.
    unfold gb_run. destruct (gb_init f g fuel prior start) as [[a|]|] eqn:E; try discriminate. intro H. destruct (steps_nth k a l H) as [L [Z F]]. destruct (init_rows _ _ _ E) as [I0 I1].
    set (n := length start) in *. set (pts := map gb_x l).
    assert (P : forall i b, nth_error l i = Some b -> nth i pts [] = gb_x b) by (intros i b X; apply nth_error_nth; unfold pts; rewrite nth_error_map, X; reflexivity).
    assert (V : forall i b, i <= k -> nth_error l i = Some b -> gb_ind b = i mod 3 /\ gb_stuck b = before n pts i).
    { induction i as [|i IH]; intros b Hi X; [rewrite Z in X; injection X as <-; split; [exact I1|exact I0]|].
      destruct (F i ltac:(lia)) as [c [d [Y1 [Y2 Y3]]]]. rewrite Y2 in X. injection X as <-. destruct (IH c ltac:(lia) Y1) as [V1 V2]. destruct (step_rows c d Y3) as [S1 [S2 _]].
      rewrite V1 in S2. split.
      - rewrite S2. assert (M : i mod 3 < 3) by (apply Nat.mod_upper_bound; lia). destruct (i mod 3) as [|[|[|m]]] eqn:Em; lia.
      - rewrite S1, V1, V2, <- (P i c Y1), rows_set. reflexivity. }
    split; [exact L|]. intros i Hi. destruct (F i Hi) as [b [c [Y1 [Y2 Y3]]]]. exists b, c. split; [exact Y1|]. split; [exact Y2|]. cbv zeta.
    destruct (V i b ltac:(lia) Y1) as [V1 V2]. destruct (step_rows b c Y3) as [_ [_ [S3 S4]]]. rewrite V1, V2, <- (P i b Y1), rows_set in S3, S4.
    assert (Q : is_stuck (rows n pts i) = true <-> (dist2 (latest n pts i 0) (latest n pts i 2) < (1 # (10 ^ 15)) * (1 # (10 ^ 15)))%Q).
    { unfold is_stuck, rows. cbn [nth]. unfold Qltb. rewrite negb_true_iff, <- not_true_iff_false, Qle_bool_iff, dist2_dot. split; intro; lra. }
    rewrite <- (P i b Y1). split; intro N; [apply Q in N; rewrite N in S3, S4; split; assumption|].
    destruct (is_stuck (rows n pts i)) eqn:Es; [exfalso; apply N, Q; reflexivity|]. split; assumption.
  Qed.
End Run.
