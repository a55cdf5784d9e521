(** Statements of Prop_Sc. *)
From Coq Require Import Bool List Arith ZArith QArith Lia.
From Verif Require Import Coeff Sqrt2 MatSpec MatLemmas FockSpec PauliModel CircuitSpec CircuitModel TomoModel RdmSpec PlanSpec StabModel StabSpec StabProofs4 SfModel ScModel ScSpec
  ScProofs1 ScProofs4 ScProofs5.
Import ListNotations.
Local Open Scope nat_scope.

Lemma nonid_neq : forall p N, length p = N -> p <> repeat PI N -> nonid p = true.
Proof.
  intros p N L H. unfold nonid. apply negb_true_iff. destruct (forallb (fun x => pauli_eqb x PI) p) eqn:F; [|reflexivity]. exfalso. apply H. subst N.
  clear H. induction p as [|x p IH]; [reflexivity|]. cbn [forallb] in F. apply andb_true_iff in F. destruct F as (F1 & F2). cbn. rewrite <- IH by exact F2. now destruct x.
Qed.
Lemma group_averages : forall (K : CoefRing) (rt : K), cmul rt rt = chalf -> cconj rt = rt ->
  forall N b ps fuel, length b = N -> (forall p, In p ps -> agrees p b) -> 2 * N * N + 6 < fuel ->
  exists sc, stabilized_circuit fuel N ps = Some sc /\
    let gates := circuit rt (sc_gates sc) in let U := cmat rt N gates in
    (forall g, In g gates -> valid N g) /\
    (forall t m, In (t, m) (sc_TM sc) -> length t = N /\ length m = N /\ diagonal m /\ meq N (mmul N U (pmat t)) (mmul N (pmat m) U)) /\
    (forall z, In z (sc_zz sc) -> (exists m, pget z (sc_TM sc) = Some m /\ forall psi, expect N (pmat z) psi = expect N (pmat m) (mvec N U psi)) /\
       diagonal z /\ forall p, In p ps -> meq N (mmul N (@pmat K z) (pmat p)) (mmul N (pmat p) (pmat z))) /\
    (forall p, In p ps -> p <> repeat PI N -> exists ss f, @paulis_get K p (paulis_table 3 N ps) = Some (ss, c1) /\
       @fetch K N (sc_TM sc) ss = Some (f, c1) /\ length f = N /\ diagonal f /\
       forall psi, expect N (pmat p) psi = expect N (pmat f) (mvec N U psi)).
Proof.
  intros K rt H1 H2 N b ps fuel Lb A Fu. destruct (stabilized_group K rt H1 N b ps fuel Lb A Fu) as (sc & E & O & T & Z & P). exists sc. split; [exact E|]. cbn zeta.
  split; [now apply circuit_valid|]. split; [exact T|]. split.
  - intros z Hz. destruct (Z z Hz) as ((m & Hm) & Hb & D). split; [|split; [exact D|]].
    + exists m. split; [exact Hm|]. intro psi. apply carried_average; auto. 
      assert (Hi : In (z, m) (sc_TM sc)) by (clear -Hm; induction (sc_TM sc) as [|(k, v) d IH]; [discriminate|]; cbn [pget] in Hm;
        destruct (pstr_eqb z k) eqn:Q; [injection Hm as <-; apply TomoProofs.pstr_eqb_spec in Q; subst; now left|right; now apply IH]).
      apply (T z m Hi).
    + intros p Hp. apply (null_basis_commutes K N ps (lens N b ps Lb A) z p Hb Hp).
  - intros p Hp Hn. destruct (P p Hp (nonid_neq p N (lens N b ps Lb A p Hp) Hn)) as (ss & f & P1 & P2 & P3 & P4 & P5).
    exists ss, f. split; [exact P1|]. split; [exact P2|]. split; [exact P3|]. split; [exact P4|]. intro psi. now apply carried_average.
Qed.
Lemma applicable : forall (K : CoefRing) N b ps fuel, length b = N -> (forall p, In p ps -> agrees p b) -> 2 * N * N + 6 < fuel ->
  ((exists p, In p ps /\ ~ diagonal p) -> exists sc, stabilized_circuit fuel N ps = Some sc /\ @apply_all K (sc_gates sc) = None) /\
  ((forall p, In p ps -> diagonal p) -> exists sc, stabilized_circuit fuel N ps = Some sc /\ @apply_all K (sc_gates sc) = Some []).
Proof.
  intros K N b ps fuel Lb A Fu. split.
  - intros (p & Hp & D). now apply (cannot_apply K N b ps fuel Lb A Fu p).
  - intro D. destruct (can_apply N b ps fuel Lb A Fu D) as (sc & E & G). exists sc. split; [exact E|]. rewrite G. reflexivity.
Qed.
Lemma measure_never : forall (K : CoefRing) N paulis TM s l, @measure_stabilizer K N paulis TM s l = None.
Proof.
  intros K N paulis TM s l. unfold measure_stabilizer. destruct (paulis_get s paulis) as [[ss x]|]; [|reflexivity]. destruct ss as [|s0 ss]; [reflexivity|].
  destruct (fetch N TM (s0 :: ss)) as [f|]; [|reflexivity]. reflexivity.
Qed.
Lemma filter_many : forall Nq sc l, 3 < length (sc_zz sc) -> l <> [] -> filter_encoded Nq sc l = None.
Proof.
  intros Nq sc l H Hl. unfold filter_encoded. destruct (sc_zz sc) as [|z zz] eqn:E; [cbn in H; lia|]. destruct l as [|(k, v) l]; [now destruct Hl|].
  cbn [keep_encoded]. destruct (symmetry_signs Nq (sc_TM sc) (z :: zz) k v); [|reflexivity].
  assert (W : wanted (length (z :: zz)) = None) by (destruct (length (z :: zz)) as [|[|[|[|n]]]]; try lia; reflexivity). rewrite W. reflexivity.
Qed.

Definition scx : stabilized := MkStabilized [SCx 0 1; SH 0] [([PX; PX], [PZ; PI]); ([PZ; PZ], [PI; PZ])] [[PZ; PZ]].
Fixpoint all_bits (n : nat) : list bits := match n with 0 => [[]] | S n => map (cons false) (all_bits n) ++ map (cons true) (all_bits n) end.
Lemma all_bits_in : forall n k, length k = n -> In k (all_bits n).
Proof.
  induction n as [|n IH]; intros [|x k] H; try discriminate; [now left|]. cbn [all_bits]. apply in_app_iff.
  destruct x; [right|left]; apply in_map, IH; cbn in H; lia.
Qed.
Lemma encoded_drops : exists N ps sc det, stabilized_circuit (2 * N * N + 7) N ps = Some sc /\ length det = N /\ length (filter (fun x => x) det) = 2 /\
  (exists k, length k = N /\ mvec N (cmat rrt N (circuit rrt (sc_gates sc))) (basis_vec det) k <> c0) /\
  forall k, length k = N -> mvec N (cmat rrt N (circuit rrt (sc_gates sc))) (basis_vec det) k <> c0 ->
    forall v, (0 < v)%Z -> filter_encoded N sc [(rev k, v)] = Some [].
Proof.
  exists 2, [[PX; PX]], scx, [true; true]. split; [vm_compute; reflexivity|]. split; [reflexivity|]. split; [reflexivity|].
  split.
  - exists [false; false]. split; [reflexivity|]. intro H. apply (ceqb_spec GaussR) in H. vm_compute in H. discriminate.
  - intros k Hk Ha v Hv. assert (T : forallb (fun k => ceqb (mvec 2 (cmat rrt 2 (circuit rrt (sc_gates scx))) (basis_vec [true; true]) k) c0 || negb (nth 1 k false)) (all_bits 2) = true)
      by (vm_compute; reflexivity).
    rewrite forallb_forall in T. specialize (T k (all_bits_in 2 k Hk)). apply orb_true_iff in T. destruct T as [T|T]; [apply ceqb_spec in T; now destruct Ha|].
    destruct k as [|a [|b [|? ?]]]; try discriminate. cbn [nth] in T. apply negb_true_iff in T. subst b. destruct v as [|v|v]; try discriminate. destruct a; reflexivity.
Qed.
Lemma commuting_not_enough : exists N ps sc, (forall p q, In p ps -> In q ps -> meq N (mmul N (@pmat GaussQ p) (pmat q)) (mmul N (pmat q) (pmat p))) /\
  stabilized_circuit (2 * N * N + 7) N ps = Some sc /\ exists t m, In (t, m) (sc_TM sc) /\ ~ diagonal m.
Proof.
  exists 2, [[PX; PX]; [PY; PZ]], (MkStabilized [SSi 0; SSi 1; SH 0; SH 1] [([PY; PZ], [PZ; PX]); ([PZ; PY], [PX; PZ])] []). split.
  - intros p q Hp Hq. apply (symplectic_commute GaussQ 2); [destruct Hp as [<-|[<-|[]]]; reflexivity|destruct Hq as [<-|[<-|[]]]; reflexivity|].
    destruct Hp as [<-|[<-|[]]]; destruct Hq as [<-|[<-|[]]]; reflexivity.
  - split; [vm_compute; reflexivity|]. exists [PY; PZ], [PZ; PX]. split; [now left|]. intro D. destruct (D PX (or_intror (or_introl eq_refl))); discriminate.
Qed.
