(** Consequences and counterexamples for the Parity, Bravyi-Kitaev and parity-qubit-particle transforms. *)
From Coq Require Import Bool List Arith ZArith Lia Ring.
From Verif Require Import Coeff MatSpec MatLemmas PauliModel OperatorModel
  FockSpec FermiModel TransformModel AdjProofs EncSpec EncProofs ParityProofs BKProofs.
Import ListNotations.

Lemma parity_enc_basis : forall n m : bits, length (parity_enc n) = length n /\
  (length n = length m -> parity_enc n = parity_enc m -> n = m).
Proof. intros n m. split; [apply enc_length|]. apply enc_inj. intro. lia. Qed.
Lemma bk_enc_basis : forall n m : bits, length (bk_enc n) = length n /\
  (length n = length m -> bk_enc n = bk_enc m -> n = m).
Proof. intros n m. split; [apply enc_length|]. apply enc_inj. apply start_le. Qed.

Lemma parity_refuted : exists (s : fstr) (c : GaussQ),
  small (cpow chalf (length (flat 0 s)) * c)%K = false /\
  ~ in_basis parity_enc (length s) (omat (parity_string (s, c))) (mscal c (fstr_mat s)).
Proof.
  exists [Some Cre; Some Ann], (gz 1). split; [vm_compute; reflexivity|].
  intro H. specialize (H [true; false] [false; true] eq_refl eq_refl). vm_compute in H. discriminate.
Qed.
Lemma bk_refuted : exists (s : fstr) (c : GaussQ) (R : list (list pauli * GaussQ)),
  small (cpow chalf (length (flat 0 s)) * c)%K = false /\ bk_string (s, c) = Some R /\
  ~ in_basis bk_enc (length s) (omat R) (mscal c (fstr_mat s)).
Proof.
  exists [Some Cre; Some Ann], (gz 1). eexists. split; [vm_compute; reflexivity|]. split; [reflexivity|].
  intro H. specialize (H [true; false] [false; true] eq_refl eq_refl). vm_compute in H. discriminate.
Qed.
Lemma qp_refuted : exists (N q : nat), q < N /\
  ~ meq N (mmul N (omat (parity_qp_string (single N q Ann, @c1 GaussQ)))
                  (omat (parity_qp_string (single N q Ann, @c1 GaussQ)))) mzero.
Proof.
  exists 1, 0. split; [lia|]. intro H. specialize (H [false] [false] eq_refl eq_refl). vm_compute in H. discriminate.
Qed.
Lemma qp_plus : forall (K : CoefRing) (N q : nat), q < N ->
  in_basis parity_enc N (omat (parity_qp_string (single N q Cre, @c1 K))) (fock_mat [(Ann, q)]).
Proof.
  intros K N q Hq. rewrite qp_string.
  - assert (E : map (option_map qp_letter) (single N q Cre) = single N q Ann).
    { unfold single. rewrite map_app. cbn [map option_map qp_letter].
      assert (R : forall k, map (option_map qp_letter) (repeat None k) = repeat None k)
        by (induction k as [|k IH]; [reflexivity|cbn; rewrite IH; reflexivity]).
      rewrite !R. reflexivity. }
    rewrite E. destruct (parity_string_spec K (single N q Ann) c1) as [M _].
    { rewrite single_flat. cbn. rewrite (Rmul_comm (c_ring K)), (Rmul_1_l (c_ring K)), (Rmul_comm (c_ring K)), (Rmul_1_l (c_ring K)).
      apply small_half. }
    rewrite single_length in M by exact Hq. intros r c Hr Hc. rewrite M by assumption.
    unfold mscal, fstr_mat. rewrite single_flat.
    assert (R : rev_odd (n_ladder (single N q Ann)) = false).
    { unfold n_ladder, single. rewrite filter_app.
      assert (R : forall k, filter (fun x => match x with Some o => ladder o | None => false end) (repeat None k) = [])
        by (induction k as [|k IH]; [reflexivity|exact IH]).
      rewrite app_length. cbn [filter ladder length]. rewrite !R. reflexivity. }
    rewrite R. unfold sgn. rewrite (Rmul_1_l (c_ring K)), (Rmul_1_l (c_ring K)). reflexivity.
  - intros x Hx E. subst x. unfold single in Hx. apply in_app_or in Hx. destruct Hx as [Hx|[Hx|Hx]]; try discriminate;
      apply repeat_spec in Hx; discriminate.
Qed.
