(** C118-C119: the shift error mitigation of an ACSE run. *)
From Coq Require Import Bool List Arith ZArith QArith Qcanon.
From Verif Require Import Coeff OperatorModel AcseModel MitModel MitSpec MitProofs.
Import ListNotations.
Local Open Scope nat_scope.

(** C118. On a device whose error depends on the number of layers only, the full protocol finds a shift with which
    every later measurement of the same ansatz gives the true matrix plus the effects of the damped last layers. *)
Theorem C118_full : forall (K : CoefRing) (key : Type) (keqb : key -> key -> bool) (idx : Type)
  (meas : nat -> list (opv K key) -> idx -> K) (hf : idx -> K) (closed : Z) (tr : list (opv K key) -> idx -> K)
  (err : nat -> idx -> K),
  (forall n S i, meas n S i = (tr S i + err (length S) i)%K) ->
  forall (eps : K) S P n, ans_add keqb closed S P <> [] ->
  exists g n', full_gamma keqb meas hf closed eps S P n = Some (g, n') /\
    forall k i, corrected (Some g) c1 (meas k (ans_add keqb closed S P)) i
                = (tr (ans_add keqb closed S P) i + leftover tr hf eps [] (ans_add keqb closed S P) i)%K.
Proof. exact full_identity. Qed.
Print Assumptions C118_full.

(** When a damped layer has no effect, the corrected measurement is exact. *)
Theorem C118_full_exact : forall (K : CoefRing) (key : Type) (keqb : key -> key -> bool) (idx : Type)
  (meas : nat -> list (opv K key) -> idx -> K) (hf : idx -> K) (closed : Z) (tr : list (opv K key) -> idx -> K)
  (err : nat -> idx -> K),
  (forall n S i, meas n S i = (tr S i + err (length S) i)%K) ->
  forall eps : K,
  (forall l i, tr [damped eps l] i = hf i) ->
  (forall A l i, A <> [] -> tr (A ++ [damped eps l]) i = tr A i) ->
  forall S P n, ans_add keqb closed S P <> [] ->
  exists g n', full_gamma keqb meas hf closed eps S P n = Some (g, n') /\
    forall k i, corrected (Some g) c1 (meas k (ans_add keqb closed S P)) i = tr (ans_add keqb closed S P) i.
Proof. exact full_exact. Qed.
Print Assumptions C118_full_exact.

(** The current protocol, with coefficient 1, keeps the stored shift at minus the error of the present number of
    layers: at the first layer, when a layer is appended and when the number of layers stays. *)
Theorem C118_current : forall (K : CoefRing) (key : Type) (keqb : key -> key -> bool) (idx : Type)
  (meas : nat -> list (opv K key) -> idx -> K) (hf : idx -> K) (closed : Z) (tr : list (opv K key) -> idx -> K)
  (err : nat -> idx -> K),
  (forall n S i, meas n S i = (tr S i + err (length S) i)%K) ->
  forall eps : K,
  (forall l i, tr [damped eps l] i = hf i) ->
  (forall A l i, A <> [] -> tr (A ++ [damped eps l]) i = tr A i) ->
  (forall rdm0 S P l n, ans_add keqb closed S P = [l] ->
     exists g n', current_gamma keqb meas hf closed eps c1 None rdm0 S P n = Some (Some g, n') /\
       forall i, g i = (- err 1%nat i)%K) /\
  (forall g rdm0 S P l n, S <> [] -> ans_add keqb closed S P = S ++ [l] ->
     (forall i, g i = (- err (length S) i)%K) ->
     (forall i, rdm0 i = tr S i) ->
     exists g' n', current_gamma keqb meas hf closed eps c1 (Some g) rdm0 S P n = Some (Some g', n') /\
       forall i, g' i = (- err (length (S ++ [l])) i)%K) /\
  (forall g rdm0 S P n, length (ans_add keqb closed S P) = length S ->
     current_gamma keqb meas hf closed eps c1 (Some g) rdm0 S P n = Some (Some g, n)) /\
  (forall g S k, (forall i, g i = (- err (length S) i)%K) -> forall i, corrected (Some g) c1 (meas k S) i = tr S i).
Proof.
  intros K key keqb idx meas hf closed tr err Hm eps H1 H2. repeat split.
  - intros rdm0 S P l n. now apply (current_first K key keqb idx meas hf closed tr err Hm eps H1).
  - intros g rdm0 S P l n. now apply (current_next K key keqb idx meas hf closed tr err Hm eps H2).
  - intros g rdm0 S P n. now apply current_same.
  - intros g S k Hg. exact (shift_exact K key idx meas tr err Hm g S k Hg).
Qed.
Print Assumptions C118_current.

(** A case: one matrix entry, reference value 1, an ansatz adding its coefficients to it, an error of 5 per layer;
    the step adds a third layer to an ansatz of two. *)
Definition c118_tr (S : list (opv GaussQ nat)) (_ : unit) : GaussQ :=
  fold_left (fun a l => fold_left (fun a e => cadd a (snd e)) l a) S (gz 1).
Definition c118_meas (n : nat) (S : list (opv GaussQ nat)) (i : unit) : GaussQ :=
  cadd (c118_tr S i) (gz (5 * Z.of_nat (length S))).
Example C118_case :
  let S := [[(0, gz 2)]; [(1, gz 3)]] in
  ceqb (c118_meas 0 (ans_add Nat.eqb 1 S [(0, gz 7)]) tt) (gz 28) = true
  /\ ceqb (c118_tr (ans_add Nat.eqb 1 S [(0, gz 7)]) tt) (gz 13) = true
  /\ match full_gamma Nat.eqb c118_meas (fun _ => gz 1) 1 (gz 0) S [(0, gz 7)] 0 with
     | Some (g, n) => ceqb (g tt) (gz (-15)) && Nat.eqb n 5
     | None => false
     end = true
  /\ match current_gamma Nat.eqb c118_meas (fun _ => gz 1) 1 (gz 0) (gz 1) (Some (fun _ => gz (-10))) (fun _ => gz 6) S [(0, gz 7)] 0 with
     | Some (Some g, n) => ceqb (g tt) (gz (-15)) && Nat.eqb n 2
     | _ => false
     end = true.
Proof. cbv zeta. repeat split; vm_compute; reflexivity. Qed.

(** C119, refuted: no configuration of a run with one of the three documented protocols is built and gets through
    the start of its first step. *)
Theorem C119_shift_runs_refuted : forall c : run_config, rc_protocol c <> Other -> shift_runs c = false.
Proof. exact shift_never. Qed.
Print Assumptions C119_shift_runs_refuted.
Example C119_case :
  shift_builds {| rc_closed := 1; rc_split := true; rc_vector := true; rc_protocol := Current |} = true
  /\ shift_step {| rc_closed := 1; rc_split := true; rc_vector := true; rc_protocol := Current |} = false
  /\ shift_builds {| rc_closed := -1; rc_split := true; rc_vector := false; rc_protocol := Current |} = false.
Proof. repeat split; reflexivity. Qed.
