(** C157: the circuits the ADAPT solver evaluates.  Complex numbers; the cutoffs are those of the code. *)
From Coq Require Import Bool List Arith QArith Sorted Reals Lra Lia.
From Verif Require Import Coeff ComplexR MatSpec MatLemmas OpSpec FockSpec CircuitSpec CircuitModel TomoModel QuantSpec QuantProofs2 RdmModel RdmSpec HamModel HamSpec TransformModel VqeModel VqeSpec
  StoreModel PlanModel PlanSpec PlanProofs2 PlanProofs3 PlanProofs5 ConsSpec ConsModel ConsProofs ConsProofs3 ConsProofs4 AdaptModel AdaptProofs2 AdCircModel AdCircSpec AdaptProofs4.
From Verif Require RdmProofs RdmEnum.
Import ListNotations.
Local Open Scope nat_scope.

(** C157.  For every list of two-body excitations that keep the spins (indices may coincide, unless the list is ascending), all real parameters of any
    size, every depth and all electron numbers: the circuit is built and the prepared state is normalised with the
    requested electron numbers. *)
Theorem C157_state : forall depth No a b (terms : list (list nat)) (ps : list Cx), 0 < depth -> a <= No -> b <= No ->
  (forall t, In t terms -> ansatz_term No t) -> (forall p, In p ps -> snd p = 0%R) ->
  exists prep, ad_circuit depth No a b terms ps = Some prep /\ norm2 (2 * No) (prepared Crt (2 * No) prep) = c1 /\
    has_up (2 * No) No a (prepared Crt (2 * No) prep) /\ has_particles (2 * No) (a + b) (prepared Crt (2 * No) prep).
Proof.
  intros depth No a b L ps D A B HB HR. destruct (ad_state depth No a b L ps D A B HB HR) as [prep [E [V [U P]]]].
  exists prep. split; [exact E|]. split; [exact (prepared_norm Cx Crt Crt_sq crt_real _ _ V)|]. split; assumption.
Qed.
Print Assumptions C157_state.
(** The elements of a tomography of the 2-RDM are such excitations. *)
Theorem C157_keys : forall N real imag r, real || imag = true -> In r (RdmEnum.rdm_elements 2 real imag (seq 0 N) (seq N N)) -> ansatz_term N r.
Proof. exact keys_terms. Qed.
Print Assumptions C157_keys.
(** An ascending list with an index twice raises: the first string shortens it before the second one is built from it. *)
Theorem C157_ascending_raises : forall depth No a b (terms : list (list nat)) (ps : list Cx) t p, In (t, p) (combine terms ps) -> Sorted le t -> ~ NoDup t ->
  ad_circuit depth No a b terms ps = None.
Proof. exact ad_ascending. Qed.
Print Assumptions C157_ascending_raises.
Example C157_ascending_case : exists i k l j : nat, (forall x, In x [i; k; l; j] -> x < 2 * 3) /\ up_count 3 [i; k] = up_count 3 [l; j] /\
  forall ps : list Cx, ps <> [] -> ad_circuit 1 3 1 1 [[i; k; l; j]] ps = None.
Proof.
  exists 0, 1, 1, 2. split; [intros x H; cbn in H; lia|]. split; [reflexivity|]. intros [|p ps] H; [contradiction H; reflexivity|].
  apply (C157_ascending_raises 1 3 1 1 [[0; 1; 1; 2]] (p :: ps) [0; 1; 1; 2] p); [left; reflexivity|repeat constructor|].
  intro D. inversion D as [|? ? _ D1]. inversion D1 as [|? ? X]. apply X. left. reflexivity.
Qed.
(** Every ansatz of a run, with whatever residuals and optimisers: the excitations come from the keys of the tomography. *)
Theorem C157_run : forall (keys : list (list nat)) (max_iter : nat) (crit : Q) (rs : nat -> resid) (ms : nat -> micro Cx) (fuel : nat) (s : adapt Cx) depth No a b (ps : list Cx),
  0 < depth -> a <= No -> b <= No -> (forall k, In k keys -> ansatz_term No k) -> (forall p, In p ps -> snd p = 0%R) ->
  ad_run true keys max_iter crit rs ms fuel = Some s ->
  exists prep, ad_circuit depth No a b (ad_terms s) ps = Some prep /\ norm2 (2 * No) (prepared Crt (2 * No) prep) = c1 /\
    has_up (2 * No) No a (prepared Crt (2 * No) prep) /\ has_particles (2 * No) (a + b) (prepared Crt (2 * No) prep).
Proof.
  intros keys max_iter crit rs ms fuel s depth No a b ps D A B HK HR H. apply (C157_state depth No a b (ad_terms s) ps D A B); [|exact HR].
  destruct (run_terms Cx keys max_iter crit rs ms fuel s H) as [LT [_ [_ T]]]. intros t It. apply In_nth_error in It. destruct It as [j Ej].
  assert (J : j <= ad_iter s). { assert (j < length (ad_terms s)) by (apply nth_error_Some; congruence). lia. }
  destruct (T j J) as [i [k [_ [Ek [_ Et]]]]]. rewrite Ej in Et. injection Et as ->. apply HK. exact (nth_error_In _ _ Ek).
Qed.
Print Assumptions C157_run.
(** Tomography of the state gives its reduced density matrices. *)
Theorem C157_rdm : forall depth No a b (terms : list (list nat)) (ps : list Cx) prep, 0 < depth -> a <= No -> b <= No ->
  (forall t, In t terms -> ansatz_term No t) -> (forall p, In p ps -> snd p = 0%R) -> ad_circuit depth No a b terms ps = Some prep ->
  forall (tiny : Cx -> bool) simp p real imag t, (forall x, tiny x = true -> x = c0) -> 1 <= p <= 3 -> real || imag = true -> sized simp ->
    tomography Crt tiny jw_operator simp p real imag No prep = Some t ->
    forall c e, length c = p -> length e = p -> Forall (fun x => x < 2 * No) c -> Forall (fun x => x < 2 * No) e ->
      t (c ++ e) = part real imag (rdm_of (2 * No) (prepared Crt (2 * No) prep) c e).
Proof.
  intros depth No a b L ps prep D A B HB HR E tiny simp p real imag t Ht Hp RI Sz T.
  destruct (ad_state depth No a b L ps D A B HB HR) as [prep' [E' [V [U P]]]]. rewrite E in E'. injection E' as <-.
  exact (tomography_rdm Cx Crt Crt_sq crt_real tiny Ht cx_exact simp p real imag No a prep t Hp RI Sz (prepared_norm Cx Crt Crt_sq crt_real _ _ V) U T).
Qed.
Print Assumptions C157_rdm.
(** The energy is real and bounded below by every lower bound for a + b particles. *)
Theorem C157_variational : forall depth No a b (terms : list (list nat)) (ps : list Cx) prep, 0 < depth -> a <= No -> b <= No ->
  (forall t, In t terms -> ansatz_term No t) -> (forall p, In p ps -> snd p = 0%R) -> ad_circuit depth No a b terms ps = Some prep ->
  forall (tiny : Cx -> bool) simp imag (w : Cx) (h : nat -> nat -> Cx) (V : nat -> nat -> nat -> nat -> Cx) (en_c : Cx) t (low : R), (forall x, tiny x = true -> x = c0) -> sized simp ->
  cmul (cmul (cadd (cadd (cadd c1 c1) c1) c1) w) (ofnat (a + b - 1)) = c1 -> snd w = 0%R -> snd en_c = 0%R ->
  (forall i j, snd (h i j) = 0%R) -> (forall i j, h i j = h j i) ->
  (forall p q s t, snd (V p q s t) = 0%R) -> (forall p q s t, V p q s t = V q p t s) -> (forall p q s t, V p q s t = V s t p q) ->
  (forall phi : bits -> Cx, has_particles (2 * No) (a + b) phi -> norm2 (2 * No) phi = c1 -> (low <= fst (expect (2 * No) (ham (2 * No) h V) phi))%R) ->
  tomography Crt tiny jw_operator simp 2 true imag No prep = Some t ->
  (low + fst en_c <= fst (evaluate (2 * No) (build_K2 (2 * No) w h V) en_c t))%R /\ snd (evaluate (2 * No) (build_K2 (2 * No) w h V) en_c t) = 0%R.
Proof.
  intros depth No a b L ps prep D A B HB HR E tiny simp imag w h V en_c t low Ht Sz Hw Iw Ie Ih Sh IV S1 S2 Low T.
  destruct (ad_state depth No a b L ps D A B HB HR) as [prep' [E' [Va [U P]]]]. rewrite E in E'. injection E' as <-.
  exact (variational tiny simp imag No (a + b) a w h V en_c prep t low Ht Sz Va U P Hw Iw Ie Ih Sh IV S1 S2 Low T).
Qed.
Print Assumptions C157_variational.

(** The hypotheses: H2 in two orbitals; a double excitation, one with a repeated index (a single excitation times an
    occupation) and a number operator, the first parameter below every cutoff. *)
Lemma c157_keys : forall t, In t [[0; 2; 3; 1]; [0; 2; 2; 1]; [0; 2; 2; 0]] -> ansatz_term 2 t.
Proof.
  intros t [<-|[<-|[<-|[]]]]; [exists 0, 2, 3, 1|exists 0, 2, 2, 1|exists 0, 2, 2, 0]; (split; [reflexivity|]); (split; [|split; [apply RdmProofs.shortens_spec; reflexivity|reflexivity]]); cbn; intros x H; repeat (destruct H as [<-|H]; [lia|]); destruct H.
Qed.
Example C157_case : (forall t, In t [[0; 2; 3; 1]; [0; 2; 2; 1]; [0; 2; 2; 0]] -> ansatz_term 2 t) /\
  (exists prep, ad_circuit 1 2 1 1 [[0; 2; 3; 1]; [0; 2; 2; 1]; [0; 2; 2; 0]] [((/ 10 ^ 30)%R, 0%R); (1%R, 0%R); (2%R, 0%R)] = Some prep /\ norm2 4 (prepared Crt 4 prep) = c1) /\
  @generator Cx 2 [0; 2; 2; 1] (1%R, 0%R) [true; false; true; false] [false; true; true; false] <> c0 /\
  ~ ansatz_term 2 [0; 1; 2; 3].
Proof.
  split; [exact c157_keys|]. split; [|split].
  - destruct (C157_state 1 2 1 1 [[0; 2; 3; 1]; [0; 2; 2; 1]; [0; 2; 2; 0]] [((/ 10 ^ 30)%R, 0%R); (1%R, 0%R); (2%R, 0%R)]) as [prep [E [H _]]]; try lia; [exact c157_keys|intros p [<-|[<-|[<-|[]]]]; reflexivity|].
    exists prep. split; [exact E|exact H].
  - intro H. apply (f_equal fst) in H. cbn in H. lra.
  - intros [i [k [l [j [E [_ [_ C]]]]]]]. injection E as <- <- <- <-. cbn in C. discriminate.
Qed.
(** A run whose ansatz has those excitations. *)
Example C157_run_case : exists s, ad_run true [[0; 2; 3; 1]; [0; 2; 2; 1]] 50 (1#100)%Q (fun n => MkResid (if Nat.eqb n 0 then [1; 0] else [0; 1])%Q 1%Q) (fun n => MkMicro 0%Q (-1)%Q (Mat [repeat (c1 : Cx) (S n)])) 1 = Some s /\
  ad_terms s = [[0; 2; 3; 1]; [0; 2; 2; 1]].
Proof. eexists. split; reflexivity. Qed.
