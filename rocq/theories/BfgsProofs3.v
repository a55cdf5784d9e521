(** The L-BFGS history: what is stored, and that the direction can be computed from it. *)
From Coq Require Import Bool List Arith QArith Lia.
From Verif Require Import AcseModel BfgsModel.
Import ListNotations.
Lemma last_n_split {A} m (l : list A) : exists older, l = older ++ last_n m l /\ length (last_n m l) = Nat.min m (length l).
Proof. exists (firstn (length l - m) l). unfold last_n. split; [symmetry; apply firstn_skipn|]. rewrite skipn_length. lia. Qed.
Lemma last_n_app {A} m (l : list A) x : (1 <= m)%nat -> last_n m (last_n m l ++ [x]) = last_n m (l ++ [x]).
Proof.
  intros Hm. unfold last_n. rewrite !app_length, skipn_length. cbn [length].
  rewrite (skipn_app (length l + 1 - m) l [x]). replace (length l + 1 - m - length l)%nat with 0%nat by lia. cbn [skipn].
  rewrite skipn_app, skipn_length. replace (length l - (length l - m) + 1 - m - (length l - (length l - m)))%nat with 0%nat by lia. cbn [skipn]. f_equal.
  destruct (le_lt_dec (length l) m) as [H|H].
  - replace (length l - m)%nat with 0%nat by lia. cbn [skipn]. f_equal. lia.
  - replace (length l - (length l - m) + 1 - m)%nat with 1%nat by lia. replace (length l + 1 - m)%nat with (S (length l - m))%nat by lia.
    generalize (length l - m)%nat. intros k. clear. revert k. induction l as [|a l IH]; intros [|k]; try reflexivity. cbn [skipn] in *. rewrite <- IH. reflexivity.
Qed.
Lemma last_n_map {A B} (f : A -> B) m l : last_n m (map f l) = map f (last_n m l).
Proof. unfold last_n. rewrite map_length. generalize (length l - m)%nat. intros k. revert l. induction k as [|k IH]; intros [|a l]; try reflexivity. apply IH. Qed.
Definition stored (m : nat) (l : list (vec * vec)) : lbfgs := fold_left (fun h p => lb_store m h (fst p) (snd p)) l (MkLb [] [] []).
Lemma stored_eq m l : (1 <= m)%nat -> stored m l = MkLb (map fst (last_n m l)) (map snd (last_n m l)) (map (fun p => 1 / dot (snd p) (fst p))%Q (last_n m l)).
Proof.
  intros Hm. unfold stored. induction l as [|p l IH] using rev_ind; [reflexivity|]. rewrite fold_left_app. cbn [fold_left]. rewrite IH. unfold lb_store. cbn [lb_s lb_y lb_rho].
  f_equal; rewrite <- last_n_map, ?last_n_map.
  - change [fst p] with (map fst [p]). rewrite <- map_app, last_n_map, last_n_app by assumption. reflexivity.
  - change [snd p] with (map snd [p]). rewrite <- map_app, last_n_map, last_n_app by assumption. reflexivity.
  - change [(1 / dot (snd p) (fst p))%Q] with (map (fun p => 1 / dot (snd p) (fst p))%Q [p]). rewrite <- map_app, last_n_map, last_n_app by assumption. reflexivity.
Qed.
Lemma lb_first_length y h q : length (snd (lb_first y h q)) = length h.
Proof. revert q. induction h as [|[s r] h IH]; intros q; [reflexivity|]. cbn [lb_first]. specialize (IH (vsub q (vscale (r * dot s q) y))). destruct (lb_first y h _). cbn [snd length] in *. now rewrite IH. Qed.
Lemma lb_second_some h : forall a r, length h = length a -> exists v, lb_second h a r = Some v.
Proof. induction h as [|[[s y] r] h IH]; intros [|a al] v L; try discriminate; [eexists; reflexivity|]. cbn [lb_second]. apply IH. now injection L. Qed.
Lemma stored_direction m l g s_k y_k : (1 <= m)%nat -> ~ (dot s_k y_k == 0)%Q -> ~ (dot y_k y_k == 0)%Q -> exists r, lb_direction m (stored m l) g s_k y_k = Some r.
Proof.
  intros Hm H1 H2. rewrite stored_eq by assumption. unfold lb_direction. cbn [lb_s lb_y lb_rho].
  assert (Lk : (length (last_n m l) <= m)%nat) by (destruct (last_n_split m l) as [o [_ E]]; rewrite E; lia).
  match goal with |- context [lb_first ?a ?b ?c] => pose proof (lb_first_length a b c) as E; destruct (lb_first a b c) as [q al] end. cbn [snd] in E.
  rewrite firstn_length, rev_length, combine_length, !map_length, Nat.min_id in E.
  destruct (Qeq_bool (dot s_k y_k) 0) eqn:B1; [apply Qeq_bool_iff in B1; contradiction|]. destruct (Qeq_bool (dot y_k y_k) 0) eqn:B2; [apply Qeq_bool_iff in B2; contradiction|]. cbn [orb].
  apply lb_second_some. rewrite !combine_length, !map_length, rev_length, !Nat.min_id. symmetry. rewrite E. apply Nat.min_r. exact Lk.
Qed.
