(** Property C20: removing a qubit with a Pauli symmetry. *)
From Coq Require Import Bool List Arith ZArith.
From Verif Require Import Coeff MatSpec PauliModel OperatorModel TransformModel TwoTerm TaperModel TaperSpec TaperProofs TaperProofs2 TaperProofs3 TomoModel Sqrt2.
Import ListNotations.
Local Open Scope nat_scope.

(** Trimming gives the block of the operator between the chosen eigenstates of the removed qubits. *)
Theorem C20_trim_is_block : forall (K : CoefRing) n (ts : list (nat * pauli * K)) ops,
  fits K n ts -> descending (map (fun t => fst (fst t)) ts) = true -> (forall x, In x ops -> length (fst x) = n) ->
  exists T, trim_operator ops ts (@c0 K) = Some T /\ (forall x, In x T -> length (fst x) = n - length ts) /\
    req (n - length ts) (n - length ts) (mscal (eignorms ts) (omat T)) (mmul n (madj (insert_states n ts)) (mmul n (omat ops) (insert_states n ts))).
Proof. exact trim_operator_spec. Qed.
Print Assumptions C20_trim_is_block.

(** Qubits that are not in descending order are refused. *)
Theorem C20_trim_order : forall (K : CoefRing) (ts : list (nat * pauli * K)) ops null,
  descending (map (fun t => fst (fst t)) ts) = false -> trim_operator ops ts null = None.
Proof. intros K ts ops null H. unfold trim_operator. now rewrite H. Qed.
Print Assumptions C20_trim_order.

(** One step, with the terms that the two operator products drop. *)
Theorem C20_step : forall (K : CoefRing) n q (e rt : K) sym,
  q <= n -> cmul e e = c1 -> cconj e = e -> cadd (cmul rt rt) (cmul rt rt) = c1 -> cconj rt = rt ->
  length sym = S n -> nth q sym PI = PY \/ nth q sym PI = PZ ->
  forall H, (forall x, In x H -> length (fst x) = S n) ->
  let U := taper_unitary rt sym q in
  let V := insert_state q PX e in
  let W := mmul (S n) (madd (mscal rt (pmat sym)) (mscal rt (pmat (one_letter (S n) q PX)))) V in
  exists T D1 D2, modify H U U [(q, PX, e)] false = Some T /\ (forall x, In x T -> length (fst x) = n) /\
    (forall x, In x (D1 ++ D2) -> small (snd x) = true) /\
    req n n (madd (mscal (cadd c1 c1) (omat T)) (mmul (S n) (madj V) (mmul (S n) (madd (mmul (S n) (omat D1) (omat U)) (omat D2)) V)))
            (mmul (S n) (madj W) (mmul (S n) (omat H) W)).
Proof. intros K n q e rt sym Hq He Hec Hrt Hrtc Hl Hs H HH. exact (taper_step K n q e rt sym Hq He Hec Hrtc Hl Hs H HH). Qed.
Print Assumptions C20_step.

(** With exact coefficients: the result is the operator on the eigenspace S = e. *)
Theorem C20_sector : forall (K : CoefRing), (forall x : K, small x = true -> x = c0) -> forall n q (e rt : K) sym,
  q <= n -> cmul e e = c1 -> cconj e = e -> cadd (cmul rt rt) (cmul rt rt) = c1 -> cconj rt = rt ->
  length sym = S n -> nth q sym PI = PY \/ nth q sym PI = PZ ->
  forall H, (forall x, In x H -> length (fst x) = S n) -> req (S n) (S n) (mmul (S n) (omat H) (pmat sym)) (mmul (S n) (pmat sym) (omat H)) ->
  let U := taper_unitary rt sym q in
  exists T W, modify H U U [(q, PX, e)] false = Some T /\ (forall x, In x T -> length (fst x) = n) /\
    req n n (mmul (S n) (madj W) W) (mscal (cadd c1 c1) mone) /\
    req (S n) (S n) (mmul n W (madj W)) (madd mone (mscal e (pmat sym))) /\
    req (S n) n (mmul (S n) (omat H) W) (mmul n W (omat T)).
Proof.
  intros K ex n q e rt sym Hq He Hec Hrt Hrtc Hl Hs H HH HC U.
  destruct (taper_sector K n q e rt sym Hq He Hec Hrt Hrtc Hl Hs ex H HH HC) as [T [T1 [T2 T3]]].
  exists T, (Wm K n q e rt sym). split; [exact T1|]. split; [exact T2|].
  split; [exact (WW K n q Hq e He Hec rt Hrt Hrtc sym Hl Hs)|].
  split; [exact (WWt K n q Hq e He Hec rt Hrt Hrtc sym Hl Hs)|exact T3].
Qed.
Print Assumptions C20_sector.

(** The parity transform: alpha and beta number parities removed in turn. *)
Theorem C20_parity_free : forall (K : CoefRing), (forall x : K, small x = true -> x = c0) ->
  forall A (rt ea eb : K) Na Nb (base : bool -> A -> option (list (list pauli * K))) x H,
  cadd (cmul rt rt) (cmul rt rt) = c1 -> cconj rt = rt -> cmul ea ea = c1 -> cconj ea = ea -> cmul eb eb = c1 -> cconj eb = eb ->
  1 <= Na -> 1 <= Nb ->
  let N := Na + Nb in let Sa := repeat PZ Na ++ repeat PI Nb in let Sb := repeat PI Na ++ repeat PZ Nb in
  base false x = Some H -> (forall y, In y H -> length (fst y) = N) ->
  req N N (mmul N (omat H) (pmat Sa)) (mmul N (pmat Sa) (omat H)) ->
  req N N (mmul N (omat H) (pmat Sb)) (mmul N (pmat Sb) (omat H)) ->
  exists T W, parity_free rt Na Nb ea eb base false x = Some T /\ (forall y, In y T -> length (fst y) = N - 2) /\
    req (N - 2) (N - 2) (mmul N (madj W) W) (mscal (cadd (cadd (cadd c1 c1) c1) c1) mone) /\
    req N N (mmul (N - 2) W (madj W)) (mmul N (madd mone (mscal ea (pmat Sa))) (madd mone (mscal eb (pmat Sb)))) /\
    req N (N - 2) (mmul N (omat H) W) (mmul (N - 2) W (omat T)).
Proof. intros K ex A. exact (@parity_free_sector K ex A). Qed.
Print Assumptions C20_parity_free.

(** A two-qubit operator commuting with ZZ; qubit 1 is removed in the sector ZZ = -1. *)
Definition rz (k : Z) : GaussR := (gz k, gz 0).
Definition h2 : list (list pauli * GaussR) := [([PX; PX], rz 2); ([PZ; PI], rz 3); ([PI; PZ], rz 5); ([PI; PI], rz 7)].
Definition commute_all (s : list pauli) : bool := match differing s [PZ; PZ] with Some k => Nat.even k | None => false end.
Definition taper_h2 (e : GaussR) : option (list (list pauli * GaussR)) :=
  modify h2 (taper_unitary rrt [PZ; PZ] 1) (taper_unitary rrt [PZ; PZ] 1) [(1, PX, e)] false.
Definition sames (a b : list (list pauli * GaussR)) : bool :=
  forallb (fun xy => pauli_list_eqb (fst (fst xy)) (fst (snd xy)) && ceqb (snd (fst xy)) (snd (snd xy))) (combine a b) && (length a =? length b).
Example C20_case : (forall x : GaussR, small x = true -> x = c0) /\ cadd (cmul rrt rrt) (cmul rrt rrt) = c1
  /\ nth 1 [PZ; PZ] PI = PZ /\ (forall p, In p h2 -> commute_all (fst p) = true)
  /\ match taper_h2 (rz (-1)) with Some T => sames T [([PX], rz (-2)); ([PZ], rz (-2)); ([PI], rz 7)] | None => false end = true
  /\ match taper_h2 (rz 1) with Some T => sames T [([PX], rz 2); ([PZ], rz 8); ([PI], rz 7)] | None => false end = true.
Proof.
  split; [intros x H; apply (seqb_spec GaussQ); exact H|]. split; [apply (ceqb_spec GaussR); vm_compute; reflexivity|].
  split; [reflexivity|]. split; [intros p [<-|[<-|[<-|[<-|[]]]]]; vm_compute; reflexivity|]. split; vm_compute; reflexivity.
Qed.
