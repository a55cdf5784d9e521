(** On a triangle no run of the random walk stops with one qubit. *)
From Coq Require Import Bool List Arith QArith Lia Permutation.
From Verif Require Import UtilModel UtilSpec UtilProofs.
Import ListNotations.
Local Open Scope nat_scope.
Definition triangle : list (nat * nat) := [(0, 1); (1, 2); (0, 2)].
Section Never.
  Variable choice : nat -> nat.
  Variable shuffle : nat -> list nat -> list nat.
  Hypothesis Hc : forall i, choice i < 3.
  Hypothesis Hs : forall i l, Permutation (shuffle i l) l.
  Notation step := (walk_step (neighbor triangle) 3 1 choice shuffle).
  Definition long (l : list nat) : Prop := NoDup l /\ (forall x, In x l -> x < 3) /\ 2 <= length l.
  Definition J (w : walk) : Prop := w_it w mod 100 = 0 \/ long (w_strand w).
  Lemma nb_lt q x : In x (neighbor triangle q) -> x < 3.
  Proof. rewrite neighbor_adj. unfold adj, triangle. cbn. intros [H|H]; repeat (destruct H as [H|H]; [injection H as <- <-; lia|]); contradiction. Qed.
  Lemma fresh_in seq s x : fresh seq s = Some x -> In x seq /\ ~ In x s.
  Proof. unfold fresh. intro E. apply find_some in E. destruct E as [I F]. apply negb_true_iff, mem_not in F. auto. Qed.
  Lemma fresh_none seq s : fresh seq s = None -> forall x, In x seq -> In x s.
  Proof. unfold fresh. intros E x I. pose proof (find_none _ _ E x I) as F. cbn in F. apply negb_false_iff, mem_In in F. exact F. Qed.
  Lemma step_J w : J w -> exists w', step w = Going w' /\ J w'.
  Proof.
    intro HJ. unfold walk_step.
    set (strand := if w_it w mod 100 =? 0 then [] else w_strand w).
    assert (S : exists s, (match strand with [] => if 3 =? 0 then None else Some [choice (w_it w)] | _ => Some strand end) = Some s /\
      NoDup s /\ (forall x, In x s -> x < 3) /\ s <> []).
    { unfold strand. destruct (Nat.eqb_spec (w_it w mod 100) 0) as [E|E].
      - exists [choice (w_it w)]. split; [reflexivity|]. split; [constructor; [intros []|constructor]|]. split; [|discriminate]. intros x [<-|[]]. apply Hc.
      - destruct HJ as [H|[H1 [H2 H3]]]; [contradiction|]. exists (w_strand w). destruct (w_strand w) as [|a r]; [cbn in H3; lia|].
        split; [reflexivity|]. split; [exact H1|]. split; [exact H2|discriminate]. }
    destruct S as [s [-> [ND [Lt Ne]]]]. clear strand.
    set (q := if w_start w then hd 0 s else last s 0).
    assert (Q : In q s). { unfold q. destruct (w_start w); [destruct s; [contradiction|now left]|]. rewrite (app_removelast_last 0 Ne) at 2. apply in_app_iff. right. now left. }
    assert (Q3 : q < 3) by (apply Lt, Q). destruct (Nat.leb_spec 16 q) as [|_]; [lia|].
    set (seq := shuffle (w_it w) (neighbor triangle q)).
    assert (Sq : forall x, In x seq <-> In x (neighbor triangle q)).
    { intro x. split; apply Permutation_in; [apply Hs|symmetry; apply Hs]. }
    destruct (fresh seq s) as [x|] eqn:F.
    - apply fresh_in in F. destruct F as [I1 I2]. rewrite Sq in I1. apply nb_lt in I1.
      assert (X : long (if w_start w then x :: s else s ++ [x])).
      { destruct s as [|a r]; [contradiction|]. destruct (w_start w).
        - split; [constructor; assumption|]. split; [|cbn; lia]. intros y [<-|Y]; [exact I1|apply Lt, Y].
        - split; [apply nodup_snoc; assumption|]. split; [|rewrite app_length; cbn; lia]. intros y Y. apply in_app_iff in Y. destruct Y as [Y|[<-|[]]]; [apply Lt, Y|exact I1]. }
      destruct (Nat.eqb_spec (length (if w_start w then x :: s else s ++ [x])) 1) as [E|_]; [destruct X as [_ [_ X]]; lia|].
      eexists. split; [reflexivity|]. right. exact X.
    - assert (L3 : 3 <= length s).
      { pose proof (fresh_none seq s F) as A. assert (incl [0; 1; 2] s).
        { intros x Hx. destruct (Nat.eq_dec x q) as [->|D]; [exact Q|]. apply A, Sq.
          destruct Hx as [<-|[<-|[<-|[]]]]; (destruct q as [|[|[|q]]]; [| | |lia]); cbn; auto; contradiction. }
        apply (NoDup_incl_length (l := [0; 1; 2])) in H; [exact H|]. repeat constructor; cbn; lia. }
      destruct seq as [|y seq'] eqn:Es.
      { exfalso. assert (In (if q =? 0 then 1 else 0) []) as []. apply Sq. destruct q as [|[|[|q]]]; [| | |lia]; cbn; auto. }
      destruct (w_start w).
      + destruct (Nat.eqb_spec (length s) 1) as [E|_]; [lia|]. eexists. split; [reflexivity|]. right. split; [exact ND|]. split; [exact Lt|cbn; lia].
      + assert (Lr : length (removelast s) = length s - 1).
        { rewrite (app_removelast_last 0 Ne) at 2. rewrite app_length. cbn. lia. }
        destruct (Nat.eqb_spec (length (removelast s)) 1) as [E|_]; [lia|]. eexists. split; [reflexivity|]. right.
        split; [apply nodup_removelast, ND|]. split; [intros x X; apply Lt, removelast_incl, X|cbn; lia].
  Qed.
  Theorem never fuel strand : exists w, generate_random_sequence (neighbor triangle) 3 1 choice shuffle fuel strand = Going w.
  Proof.
    unfold generate_random_sequence. assert (H : J (MkWalk 0 true strand)) by (left; reflexivity). revert H.
    generalize (MkWalk 0 true strand). induction fuel as [|f IH]; intros w H; cbn [walk_loop]; [now exists w|].
    destruct (step_J w H) as [w' [E H']]. rewrite E. apply IH, H'.
  Qed.
End Never.
