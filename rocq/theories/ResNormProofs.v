From Coq Require Import Bool List Arith QArith Qabs Lia Lqa.
From Verif Require Import AcseModel AcseProofs2 ResNorm.
Import ListNotations.
Local Open Scope Q_scope.
Lemma sq_nonneg (x : Q) : 0 <= x * x.
Proof. destruct (Qlt_le_dec x 0); nra. Qed.
Lemma sumsq_nonneg ts : 0 <= sumsq ts.
Proof. induction ts as [|x ts IH]; cbn [sumsq fold_right]; [lra|]. pose proof (sq_nonneg x). unfold sumsq in *. lra. Qed.
Definition left_out (S_min : Q) (ts : list Q) : list Q := filter (fun x => negb (Qle_bool S_min (Qabs x))) ts.
Lemma sumsq_split S_min ts : sumsq ts == sumsq (kept S_min ts) + sumsq (left_out S_min ts).
Proof.
  induction ts as [|x ts IH]; [reflexivity|]. unfold kept, left_out in *. cbn [filter]. destruct (Qle_bool S_min (Qabs x)); cbn [negb sumsq fold_right]; unfold sumsq in *; lra.
Qed.
Lemma root_le s n : 0 <= s -> 0 <= n -> s * s <= n * n -> s <= n.
Proof. intros. destruct (Qlt_le_dec n s); [nra|assumption]. Qed.
Lemma class_ok S_min ts s n : 0 <= s -> 0 <= n -> s * s == sumsq (kept S_min ts) -> n * n == sumsq ts -> class_check s n = true.
Proof.
  intros Hs Hn Es En. assert (s <= n). { apply root_le; [assumption|assumption|]. rewrite Es, En, (sumsq_split S_min ts). pose proof (sumsq_nonneg (left_out S_min ts)). lra. }
  apply Qltb_lt. lra.
Qed.
Lemma quant_ok S_min ts s n : 0 <= s -> 0 <= n -> s * s == sumsq (kept S_min ts) -> n * n == sumsq ts ->
  sumsq (filter (fun x => negb (Qle_bool S_min (Qabs x))) ts) < (1 # 10000000000000000) -> quant_check s n = true.
Proof.
  intros Hs Hn Es En D. change (sumsq (left_out S_min ts) < (1 # 10000000000000000)) in D. pose proof (sumsq_split S_min ts) as Sp. pose proof (sumsq_nonneg (left_out S_min ts)).
  assert (L : s <= n) by (apply root_le; [assumption|assumption|lra]). apply Qltb_lt.
  assert (E : Qabs (s - n) == n - s) by (rewrite Qabs_neg by lra; ring). rewrite E.
  destruct (Qlt_le_dec (n - s) (1 # 100000000)) as [?|G]; [assumption|]. exfalso.
  assert ((n - s) * (n - s) <= n * n - s * s) by nra. assert ((1 # 100000000) * (1 # 100000000) <= (n - s) * (n - s)) by nra. lra.
Qed.
