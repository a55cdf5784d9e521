(** Proofs about the line search. *)
From Coq Require Import Bool List Arith QArith Qabs Qminmax Lia Lqa.
From Verif Require Import AcseSpec AcseModel AcseProofs2 LineModel.
Import ListNotations.
Local Open Scope Q_scope.

Section LineProofs.
  Variable G : Type.
  Variable phi : Q -> Q.
  Variable dphi : Q -> G * Q.
  Variable quad : Q -> Q -> Q -> Q -> Q -> Q.
  Variable cubic : Q -> Q -> Q -> Q -> Q -> Q -> Q -> Q.
  Variables c1 c2 fz gz : Q.

  Notation zoomL := (zoom_loop phi dphi quad cubic c1 c2 fz gz).
  Notation bracketL := (bracket phi dphi quad cubic c1 c2 fz gz).

  Definition zinv (z : zoom G) : Prop :=
    z_fl z = phi (z_al z) /\ z_fh z = phi (z_ah z) /\ (forall p, z_j z = Some p -> exists b, p = dphi b).

  (** What a result guarantees. *)
  Definition good (r : found G) : Prop :=
    if f_limit r then f_val r = phi (f_alp r) /\ exists b, (f_grad r, f_gs r) = dphi b
    else f_val r = phi (f_alp r) /\ (f_grad r, f_gs r) = dphi (f_alp r) /\
         f_val r <= fz + c1 * f_alp r * gz /\ Qabs (f_gs r) <= - c2 * gz.

  Lemma give_up_good z aj fj log : zinv z -> fj = phi aj -> good (zoom_give_up dphi z aj fj log).
  Proof.
    intros [Hl [Hh Hj]] Hf. unfold zoom_give_up.
    assert (P : exists b, match z_j z with Some p => p | None => dphi aj end = dphi b).
    { destruct (z_j z) as [p|]; [apply Hj; reflexivity|]. exists aj. reflexivity. }
    destruct (match z_j z with Some p => p | None => dphi aj end) as [Gj gj].
    destruct (Qle_bool fj (z_fl z) && Qle_bool fj (z_fh z)); [unfold good; cbn; auto|].
    destruct (Qle_bool (z_fl z) fj && Qle_bool (z_fl z) (z_fh z) && negb (Qeq_bool (z_al z) 0)).
    { unfold good. cbn. split; [exact Hl|]. exists (z_al z). destruct (dphi (z_al z)). reflexivity. }
    destruct (Qle_bool (z_fh z) fj && Qle_bool (z_fh z) (z_fl z)).
    { unfold good. cbn. split; [exact Hh|]. exists (z_ah z). destruct (dphi (z_ah z)). reflexivity. }
    unfold good. cbn. auto.
  Qed.

  Lemma zoom_good n z log : zinv z -> good (zoomL n z log).
  Proof.
    revert z log. induction n as [|n IH]; intros z log I; cbn [zoom_loop];
      set (aj := zoom_point quad cubic z); destruct I as [Hl [Hh Hj]].
    - destruct (Qltb (fz + c1 * aj * gz) (phi aj) || Qle_bool (z_fl z) (phi aj)).
      + apply give_up_good; [|reflexivity]. split; [exact Hl|]. split; [reflexivity|exact Hj].
      + destruct (dphi aj) as [Gj gj] eqn:D. apply give_up_good; [|reflexivity].
        destruct (Qle_bool 0 (gj * (z_ah z - z_al z))); (split; [reflexivity|]; split; [assumption|]);
          cbn; intros p E; injection E as <-; exists aj; symmetry; exact D.
    - destruct (Qltb (fz + c1 * aj * gz) (phi aj) || Qle_bool (z_fl z) (phi aj)) eqn:T.
      + apply IH. split; [exact Hl|]. split; [reflexivity|exact Hj].
      + destruct (dphi aj) as [Gj gj] eqn:D. apply orb_false_elim in T. destruct T as [T1 T2]. apply Qltb_ge in T1.
        destruct (Qle_bool (Qabs gj) (- c2 * gz)) eqn:C.
        * apply Qle_bool_iff in C. unfold good. cbn. auto.
        * apply IH.
          destruct (Qle_bool 0 (gj * (z_ah z - z_al z))); (split; [reflexivity|]; split; [assumption|]);
            cbn; intros p E; injection E as <-; exists aj; symmetry; exact D.
  Qed.

  Variables (max_iters : nat) (alp_max : Q).

  Lemma bracket_good n first a0 a1 f0 g0 log : f0 = phi a0 ->
    let r := bracketL max_iters alp_max n first a0 a1 f0 g0 log in
    good r \/ (f_limit r = true /\ f_gs r < c2 * gz).
  Proof.
    revert first a0 a1 f0 g0 log. induction n as [|n IH]; intros first a0 a1 f0 g0 log H0; cbn [bracket];
      (destruct (Qltb (fz + c1 * a1 * gz) (phi a1) || (Qle_bool f0 (phi a1) && negb first)) eqn:T;
       [left; apply zoom_good; split; [exact H0|]; split; [reflexivity|discriminate]|]);
      apply orb_false_elim in T; destruct T as [T1 T2]; apply Qltb_ge in T1;
      destruct (dphi a1) as [G1 g1] eqn:D;
      (destruct (Qle_bool (Qabs g1) (- c2 * gz)) eqn:C;
       [left; apply Qle_bool_iff in C; unfold good; cbn; auto|]); apply Qle_bool_false in C;
      (destruct (Qle_bool 0 g1) eqn:P;
       [left; apply zoom_good; split; [exact H0|]; split; [reflexivity|discriminate]|]); apply Qle_bool_false in P.
    - right. cbn. split; [reflexivity|]. rewrite Qabs_neg in C by lra. lra.
    - apply IH. reflexivity.
  Qed.

  Variable alp_1 : Q.
  Notation r := (search phi dphi quad cubic c1 c2 fz gz max_iters alp_max alp_1).

  Lemma search_good : fz = phi 0 -> good r \/ (f_limit r = true /\ f_gs r < c2 * gz).
  Proof. intro H. apply bracket_good. exact H. Qed.

  Lemma success : fz = phi 0 -> line_err c1 c2 fz gz r = false ->
    f_val r = phi (f_alp r) /\ decrease c1 fz gz (f_alp r) (f_val r) /\
    exists b, (f_grad r, f_gs r) = dphi b /\ weak_curvature c2 gz (f_gs r).
  Proof.
    intros H0 He. destruct (search_good H0) as [Gd|[L W]].
    - unfold good in Gd. unfold line_err, wolfe in He.
      destruct (f_limit r).
      + destruct Gd as [Gv [b Gb]]. split; [exact Gv|].
        destruct (Qle_bool (f_val r) (fz + c1 * f_alp r * gz)) eqn:W1; [|discriminate].
        destruct (Qle_bool (gz * c2) (f_gs r)) eqn:W2; [|discriminate].
        apply Qle_bool_iff in W1. apply Qle_bool_iff in W2.
        split; [exact W1|]. exists b. split; [exact Gb|]. unfold weak_curvature. lra.
      + destruct Gd as [Gv [Gb [Gd Gc]]]. split; [exact Gv|]. split; [exact Gd|]. exists (f_alp r).
        split; [exact Gb|]. unfold weak_curvature. apply Qabs_Qle_condition in Gc. lra.
    - exfalso. unfold line_err, wolfe in He. rewrite L in He.
      replace (Qle_bool (gz * c2) (f_gs r)) with false in He.
      + rewrite andb_false_r in He. cbn in He. discriminate.
      + symmetry. apply Qle_bool_false. lra.
  Qed.

  Lemma success_strong : fz = phi 0 -> 0 <= c2 -> f_limit r = false ->
    line_err c1 c2 fz gz r = false /\
    f_val r = phi (f_alp r) /\ (f_grad r, f_gs r) = dphi (f_alp r) /\
    decrease c1 fz gz (f_alp r) (f_val r) /\ strong_curvature c2 gz (f_gs r).
  Proof.
    intros H0 Hc L. destruct (search_good H0) as [Gd|[L' _]]; [|congruence].
    unfold good in Gd. rewrite L in Gd. destruct Gd as [Gv [Gb [Gd Gc]]].
    split; [unfold line_err, wolfe; rewrite L, andb_false_r; reflexivity|].
    split; [exact Gv|]. split; [exact Gb|]. split; [exact Gd|].
    unfold strong_curvature. assert (A := Qle_Qabs (- gz)). rewrite Qabs_opp in A.
    assert (B : c2 * - gz <= c2 * Qabs gz) by nra. lra.
  Qed.

  (** ** Where the objective is evaluated. *)
  Lemma zoom_point_range (z : zoom G) M : 0 <= z_al z <= M -> 0 <= z_ah z <= M -> 0 <= zoom_point quad cubic z <= M.
  Proof.
    intros Hl Hh. unfold zoom_point.
    set (aj := match z_m z with None => _ | Some _ => _ end). clearbody aj.
    destruct (Qltb (Qabs (z_ah z - aj)) _); [lra|]. destruct (Qltb (Qabs (z_al z - aj)) _); [lra|].
    destruct (Qltb (z_ah z) (z_al z)) eqn:S.
    - destruct (Qltb (- (1) * z_ah z) (- (1) * aj) || Qltb (- (1) * aj) (z_al z * - (1))) eqn:C; [lra|].
      apply orb_false_elim in C. destruct C as [A B]. apply Qltb_ge in A. apply Qltb_ge in B. lra.
    - destruct (Qltb (1 * z_ah z) (1 * aj) || Qltb (1 * aj) (z_al z * 1)) eqn:C; [lra|].
      apply orb_false_elim in C. destruct C as [A B]. apply Qltb_ge in A. apply Qltb_ge in B. lra.
  Qed.

  Lemma give_up_log z aj fj log : f_log (zoom_give_up (G:=G) dphi z aj fj log) = log.
  Proof.
    unfold zoom_give_up. destruct (match z_j z with Some p => p | None => dphi aj end) as [Gj gj].
    destruct (_ && _); [reflexivity|]. destruct (_ && _ && _); [reflexivity|]. destruct (_ && _); reflexivity.
  Qed.

  Lemma zoom_log n z log M : 0 <= z_al z <= M -> 0 <= z_ah z <= M -> (forall a, In a log -> 0 <= a <= M) ->
    (forall a, In a (f_log (zoomL n z log)) -> 0 <= a <= M) /\
    (length (f_log (zoomL n z log)) <= length log + S n)%nat.
  Proof.
    revert z log. induction n as [|n IH]; intros z log Hl Hh Hlog;
      assert (Hj := zoom_point_range z M Hl Hh); cbn [zoom_loop];
      set (aj := zoom_point quad cubic z) in *;
      assert (Hlog' : forall a, In a (log ++ [aj]) -> 0 <= a <= M)
        by (intros a I; apply in_app_or in I; destruct I as [I|[<-|[]]]; [apply Hlog; exact I|exact Hj]);
      assert (Len : length (log ++ [aj]) = S (length log)) by (rewrite app_length; cbn; lia).
    - destruct (_ || _); [rewrite give_up_log; split; [exact Hlog'|lia]|].
      destruct (dphi aj) as [Gj gj]. rewrite give_up_log. split; [exact Hlog'|lia].
    - destruct (_ || _).
      + match goal with |- context [zoomL n ?z' ?l] => destruct (IH z' l) as [A B]; [exact Hl|exact Hj|exact Hlog'|] end.
        split; [exact A|lia].
      + destruct (dphi aj) as [Gj gj]. destruct (Qle_bool (Qabs gj) (- c2 * gz)); [cbn; split; [exact Hlog'|lia]|].
        match goal with |- context [zoomL n ?z' ?l] => destruct (IH z' l) as [A B] end.
        * destruct (Qle_bool 0 _); exact Hj.
        * destruct (Qle_bool 0 _); [exact Hl|exact Hh].
        * exact Hlog'.
        * split; [exact A|lia].
  Qed.

  Lemma bracket_log n first a0 a1 f0 g0 log : 0 <= a0 <= alp_max -> 0 <= a1 <= alp_max ->
    (forall a, In a log -> 0 <= a <= alp_max) ->
    let r := bracketL max_iters alp_max n first a0 a1 f0 g0 log in
    (forall a, In a (f_log r) -> 0 <= a <= alp_max) /\ (length (f_log r) <= length log + S n + S max_iters)%nat.
  Proof.
    revert first a0 a1 f0 g0 log. induction n as [|n IH]; intros first a0 a1 f0 g0 log H0 H1 Hlog; cbn [bracket];
      assert (Hlog' : forall a, In a (log ++ [a1]) -> 0 <= a <= alp_max)
        by (intros a I; apply in_app_or in I; destruct I as [I|[<-|[]]]; [apply Hlog; exact I|exact H1]);
      assert (Len : length (log ++ [a1]) = S (length log)) by (rewrite app_length; cbn; lia);
      assert (Zm : forall f1, (forall a, In a (f_log (zoomL max_iters (MkZoom a0 a1 f0 f1 g0 None None) (log ++ [a1]))) -> 0 <= a <= alp_max) /\
         (length (f_log (zoomL max_iters (MkZoom a0 a1 f0 f1 g0 None None) (log ++ [a1]))) <= S (length log) + S max_iters)%nat)
        by (intro f1; rewrite <- Len; apply zoom_log; assumption).
    - destruct (_ || _); [destruct (Zm (phi a1)) as [A B]; split; [exact A|lia]|].
      destruct (dphi a1) as [G1 g1]. destruct (Qle_bool (Qabs g1) _); [cbn; split; [exact Hlog'|lia]|].
      destruct (Qle_bool 0 g1); [destruct (Zm (phi a1)) as [A B]; split; [exact A|lia]|].
      cbn. split; [exact Hlog'|lia].
    - destruct (_ || _); [destruct (Zm (phi a1)) as [A B]; split; [exact A|lia]|].
      destruct (dphi a1) as [G1 g1]. destruct (Qle_bool (Qabs g1) _); [cbn; split; [exact Hlog'|lia]|].
      destruct (Qle_bool 0 g1); [destruct (Zm (phi a1)) as [A B]; split; [exact A|lia]|].
      match goal with |- context [bracketL max_iters alp_max n ?f ?b0 ?b1 ?h0 ?h1 ?l] =>
        destruct (IH f b0 b1 h0 h1 l) as [A B] end.
      + exact H1.
      + destruct (Q.min_spec (2 * a1) alp_max) as [[A ->]|[A ->]]; lra.
      + exact Hlog'.
      + cbn zeta in A, B. split; [exact A|lia].
  Qed.

  Lemma search_log : 0 <= alp_1 <= alp_max ->
    (forall a, In a (f_log r) -> 0 <= a <= alp_max) /\ (length (f_log r) <= Nat.max 1 max_iters + S max_iters)%nat.
  Proof.
    intro H. destruct (bracket_log (max_iters - 1) true 0 alp_1 fz gz []) as [A B].
    - lra.
    - exact H.
    - intros a [].
    - split; [exact A|]. cbn [length] in B. unfold search. lia.
  Qed.

  (** ** The stored state. *)
  Lemma track_spec log b0 : let b := fold_left (track phi) log b0 in
    (forall x, snd b0 = Some x -> fst b0 = phi x) ->
    (forall x, snd b = Some x -> fst b = phi x /\ (In x log \/ snd b0 = Some x)) /\
    fst b <= fst b0 /\ (forall a, In a log -> fst b <= phi a) /\ (snd b = None -> fst b = fst b0).
  Proof.
    revert b0. induction log as [|a log IH]; intros b0 b H; cbn in b.
    - subst b. split; [intros x E; split; [apply H; exact E|right; exact E]|]. split; [lra|]. split; [intros a []|auto].
    - destruct (IH (track phi b0 a)) as [A [B [C D]]].
      { unfold track. destruct (Qltb (phi a) (fst b0)); [cbn; intros x E; injection E as ->; reflexivity|exact H]. }
      fold b in A, B, C, D. unfold track in *. destruct (Qltb (phi a) (fst b0)) eqn:T; cbn [fst snd] in *.
      + apply Qltb_lt in T. split; [|split; [lra|split]].
        * intros x E. destruct (A x E) as [A1 [A2|A2]]; split; auto; [left; right; exact A2|].
          left. left. congruence.
        * intros y [<-|I]; [exact B|apply C; exact I].
        * intro N. exfalso. clear - N. subst b.
          assert (Z : forall log q, snd q <> None -> snd (fold_left (track phi) log q) <> None).
          { clear. induction log as [|a log IH]; intros q Hq; cbn; [exact Hq|]. apply IH. unfold track.
            destruct (Qltb (phi a) (fst q)); [discriminate|exact Hq]. }
          apply (Z log (phi a, Some a)); [discriminate|exact N].
      + apply Qltb_ge in T. split; [|split; [exact B|split]].
        * intros x E. destruct (A x E) as [A1 [A2|A2]]; split; auto. left. right. exact A2.
        * intros y [<-|I]; [lra|apply C; exact I].
        * exact D.
  Qed.

  Notation run := (ls_run phi dphi quad cubic c1 c2 fz gz max_iters alp_max alp_1).

  Lemma run_stored alp err b : run = Some (alp, err, b) ->
    alp = f_alp r /\ In b (f_log r) /\ (forall a, In a (f_log r) -> phi b <= phi a) /\
    (err = false -> b == alp /\ line_err c1 c2 fz gz r = false).
  Proof.
    unfold ls_run. destruct (track_spec (f_log r) (0, None)) as [A [B [C D]]]; [discriminate|].
    destruct (fold_left (track phi) (f_log r) (0, None)) as [e o]. cbn [fst snd] in *.
    destruct o as [b'|]; [|discriminate]. intro E.
    assert (E1 : f_alp r = alp) by congruence. assert (E2 : b' = b) by congruence.
    assert (E3 : (if Qeq_bool b' (f_alp r) then line_err c1 c2 fz gz r else true) = err) by congruence.
    subst b' alp err. destruct (A b eq_refl) as [A1 [A2|A2]]; [|discriminate].
    split; [reflexivity|]. split; [exact A2|]. split; [intros a I; rewrite <- A1; apply C; exact I|].
    destruct (Qeq_bool b (f_alp r)) eqn:Q; [|discriminate]. intro L. split; [apply Qeq_bool_iff; exact Q|exact L].
  Qed.

  Lemma run_none : run = None -> forall a, In a (f_log r) -> 0 <= phi a.
  Proof.
    unfold ls_run. destruct (track_spec (f_log r) (0, None)) as [A [B [C D]]]; [discriminate|].
    destruct (fold_left (track phi) (f_log r) (0, None)) as [e [b'|]]; cbn [fst snd] in *; [discriminate|].
    intros _ a I. specialize (C a I). rewrite (D eq_refl) in C. exact C.
  Qed.
End LineProofs.
