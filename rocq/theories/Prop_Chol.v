(** Pivoted Cholesky decomposition of the two-electron integrals and the rotations of its eigenvectors (C161, C162). *)
From Coq Require Import Bool List Arith Reals Lra Lia.
From Verif Require Import CholSpec CholModel CholProofs CholProofs2 GivSpec GivModel GivProofs.
Import ListNotations.
Local Open Scope R_scope.
(** C161: for every symmetric positive semi-definite matrix, bound on the rank and tolerance, the loop ends without an exception.  Its
    rows R reproduce the matrix up to a positive semi-definite rest whose trace is the reported error, so every entry is off by no more
    than the error.  The loop stops at the tolerance or at the bound; with the default bound every entry is within the tolerance. *)
Theorem C161_cholesky N V M tol : symmetric N V -> psd N V -> 0 <= tol ->
  exists s, pivoted_chol N V M tol = Some s /\
    length (ch_R s) = ch_m s /\ (ch_m s <= M)%nat /\ (ch_m s <= N)%nat /\ (ch_err s <= tol \/ ch_m s = M) /\
    symmetric N (left_over V (ch_R s)) /\ psd N (left_over V (ch_R s)) /\ ch_err s = trace N (left_over V (ch_R s)) /\
    (forall i j, (i < N)%nat -> (j < N)%nat -> Rabs (left_over V (ch_R s) i j) <= ch_err s) /\
    ((N <= M)%nat -> forall i j, (i < N)%nat -> (j < N)%nat -> Rabs (left_over V (ch_R s) i j) <= tol) /\
    permutes N (ch_pi s) /\ forall k, (k < ch_m s)%nat -> 0 < nth k (ch_R s) (fun _ => 0) (ch_pi s k) /\ forall j, (j < k)%nat -> nth k (ch_R s) (fun _ => 0) (ch_pi s j) = 0.
Proof. intros S P T. exact (cholesky N V M tol S P T). Qed.
Print Assumptions C161_cholesky.
(** A case: the matrix with 2 on the diagonal and 1 off it, tolerance zero: the decomposition is exact. *)
Definition c161_V (i j : nat) : R := if Nat.eqb i j then 2 else 1.
Example C161_case : symmetric 2 c161_V /\ psd 2 c161_V /\
  exists s, pivoted_chol 2 c161_V 2 0 = Some s /\ (ch_m s <= 2)%nat /\ forall i j, (i < 2)%nat -> (j < 2)%nat -> c161_V i j = gram (ch_R s) i j.
Proof.
  assert (S : symmetric 2 c161_V) by (intros i j _ _; unfold c161_V; now rewrite Nat.eqb_sym).
  assert (P : psd 2 c161_V). { intros x. unfold quad, c161_V. cbn [rsum Nat.eqb]. pose proof (Rle_0_sqr (x 0%nat)). pose proof (Rle_0_sqr (x 1%nat)). pose proof (Rle_0_sqr (x 0%nat + x 1%nat)). unfold Rsqr in *. lra. }
  split; [exact S|]. split; [exact P|].
  destruct (C161_cholesky 2 c161_V 2 0 S P (Rle_refl 0)) as (s & E & _ & L & _ & _ & _ & _ & _ & _ & G & _). exists s. split; [exact E|]. split; [exact L|].
  intros i j Hi Hj. specialize (G (le_n 2) i j Hi Hj). unfold left_over in G. apply Rminus_diag_uniq. pose proof (Rabs_pos (c161_V i j - gram (ch_R s) i j)). destruct (Req_dec (c161_V i j - gram (ch_R s) i j) 0) as [Z|Z]; [exact Z|].
  apply Rabs_no_R0 in Z. lra.
Qed.
(** The hypothesis is needed: for a matrix that is not positive semi-definite the loop can stop at once with an error of zero. *)
Theorem C161_indefinite : exists N V M tol s, symmetric N V /\ 0 <= tol /\ (N <= M)%nat /\ pivoted_chol N V M tol = Some s /\ ch_err s <= tol /\
  exists i j, (i < N)%nat /\ (j < N)%nat /\ tol < Rabs (left_over V (ch_R s) i j).
Proof.
  exists 2%nat, (fun i j => if Nat.eqb i j then 0 else 1), 2%nat, 0, (chol_start 2 (fun i j => if Nat.eqb i j then 0 else 1)).
  assert (E0 : rlsum (map (fun i : nat => Rabs (if (i =? i)%nat then 0 else 1)) (seq 0 2)) = 0) by (cbn [seq map Nat.eqb rlsum fold_right]; rewrite Rabs_R0; lra).
  split; [intros i j _ _; now rewrite Nat.eqb_sym|]. split; [lra|]. split; [lia|]. split.
  - unfold pivoted_chol. cbn [chol_loop ch_m chol_start Nat.ltb Nat.leb]. destruct (Rlt_dec 0 (ch_err (chol_start 2 (fun i j => if Nat.eqb i j then 0 else 1)))) as [L|_]; [|reflexivity].
    exfalso. unfold chol_start in L. cbn [ch_err] in L. rewrite E0 in L. lra.
  - split; [unfold chol_start; cbn [ch_err]; rewrite E0; lra|]. exists 0%nat, 1%nat. split; [lia|]. split; [lia|]. unfold left_over, chol_start. cbn [ch_R gram fold_right Nat.eqb]. rewrite Rminus_0_r, Rabs_R1. lra.
Qed.
Print Assumptions C161_indefinite.
(** C162: for every matrix of any size, the loop applies rotations of neighbouring rows with angles between -pi/2 and pi/2.  The strings it
    collects are the generators of these rotations for both spins, in order.  The rotated matrix has the same inner products of columns, and
    every entry below its diagonal is at most sqrt(n)/10^8. *)
Theorem C162_givens n U : exists l, snd (giv_loop n U) = generators n l /\ (forall e, In e l -> (1 <= fst e < n)%nat /\ - (PI / 2) <= snd e <= PI / 2) /\
  (forall i j, (i < n)%nat -> fst (giv_loop n U) i j = rotated_all l U i j) /\
  (forall j k, columns n (rotated_all l U) j k = columns n U j k) /\
  forall r c, (c < r < n)%nat -> Rabs (rotated_all l U r c) <= sqrt (INR n) * / 10 ^ 8.
Proof. exact (givens_loop n U). Qed.
Print Assumptions C162_givens.
(** A case: two orbitals exchanged, one rotation by pi/2. *)
Example C162_case : snd (giv_loop 2 (fun i j => if Nat.eqb i j then 0 else 1)) = generators 2 [(1%nat, PI / 2)].
Proof.
  unfold giv_loop, positions. cbn [seq Nat.sub plus rev app map flat_map fold_left giv_step]. unfold angle. cbn [Nat.sub Nat.eqb].
  assert (P : 0 < cut8 < 1). { unfold cut8. split; [apply Rinv_0_lt_compat, pow_lt; lra|]. rewrite <- Rinv_1. apply Rinv_lt_contravar; [|apply Rlt_pow_R1; [lra|lia]]. rewrite Rmult_1_l. apply pow_lt. lra. }
  destruct (Rlt_dec (Rabs 1) cut8) as [L|_]; [rewrite Rabs_R1 in L; lra|]. destruct (Rlt_dec (Rabs 0) cut8) as [_|L]; [reflexivity|rewrite Rabs_R0 in L; lra].
Qed.
