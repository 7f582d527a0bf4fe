(** Whole runs: what calculate_state_with_init returns for circuits with gates, measurements and
    anything else in any order. *)
From Coq Require Import Reals Lra FunctionalExtensionality.
From Coquelicot Require Import Hierarchy RInt Complex.
From Verif Require Import Base BitsSpec BitsProofs OpsModel OpsSpec Instances MeasureSpec BuilderModel SimModel DenSpec DenProofs SimSpec ProjSpec WholeSpec WholeProofs WholeProofs2 WholeProofs3.
Local Open Scope nat_scope.

(** *** C82: the run is the one of [steps], and no other *)
Theorem C82_run : forall b it x draws, (forall r v, In (r, v) it -> in_range (bn b) r) -> loads it x -> Forall (wf_entry (bn b)) (pipeline b) ->
  exists v ms last, calculate_state_with_init b it draws = Ok (v, ms) /\ length v = 2 ^ bn b /\
    steps (bn b) draws (mkSim (ket (bn b) x) (fun _ => RtoC 0) []) (pipeline b) (mkSim (st_of CN (bn b) v) last ms).
Proof. exact run_exact. Qed.
Print Assumptions C82_run.
Theorem C82_run_unique : forall n draws s p s1 s2, steps n draws s p s1 -> steps n draws s p s2 -> s1 = s2.
Proof. intros n draws s p s1 s2 H1 H2. exact (steps_det n draws s p s1 H1 s2 H2). Qed.
Print Assumptions C82_run_unique.

(** A Bell pair, measured qubit by qubit. *)
Definition epr : builder :=
  mkB [([0], mkCO 1 (OUnit UH)); ([0; 1], mkCO 2 (OUnit UCNOT)); ([0], mkCO 1 (OMeas MSingle)); ([1], mkCO 1 (OMeas MSingle))] 2 [] 2.
Lemma epr_wf : Forall (wf_entry 2) (pipeline epr) /\ Forall unitary_entry (pipeline epr) /\ Forall gate_or_meas (pipeline epr).
Proof.
  split; [|split; repeat constructor]. unfold wf_entry. cbn [pipeline epr].
  repeat apply Forall_cons; try apply Forall_nil; cbn; (split; [repeat constructor; cbn; intuition lia|split; [intuition lia|exact I || reflexivity]]).
Qed.
Lemma epr_loads : (forall r v, In (r, v) ([] : list (reg * nat)) -> in_range 2 r) /\ loads [] (fun _ => false).
Proof. split; [intros ? ? []|split; [intros ? ? []|reflexivity]]. Qed.
(** A phase, a stochastic measurement and a phase among gates. *)
Definition mixed : builder :=
  mkB [([0], mkCO 1 (OUnit UX)); ([0], mkCO 1 (OUnit (UPhase (Floating 1)))); ([0], mkCO 1 (OUnit UX)); ([0], mkCO 1 (OMeas MStoch))] 1 [] 1.
Example C82_example : (forall r v, In (r, v) ([] : list (reg * nat)) -> in_range 2 r) /\ loads [] (fun _ => false) /\ Forall (wf_entry 2) (pipeline epr) /\
  Forall (wf_entry 1) (pipeline mixed) /\
  (forall s draws v last ms, steps 1 draws s (pipeline mixed) (mkSim v last ms) -> v = cur s /\ exists ps, ms = seen s ++ [RStochastic ps]).
Proof.
  split; [apply epr_loads|]. split; [apply epr_loads|]. split; [apply epr_wf|]. split.
  - unfold wf_entry. cbn [pipeline mixed]. repeat apply Forall_cons; try apply Forall_nil; cbn; (split; [repeat constructor; cbn; intuition lia|split; [intuition lia|exact I || reflexivity]]).
  - intros s draws v last ms H. unfold mixed in H. cbn [pipeline] in H.
    repeat match goal with
      | X : steps _ _ _ (_ :: _) _ |- _ => inversion X; subst; clear X
      | X : steps _ _ _ [] _ |- _ => inversion X; subst; clear X
      | X : step _ _ _ _ _ |- _ => inversion X; subst; clear X
      end; try (exfalso; match goal with X : forall t, UPhase _ <> _ |- _ => exact (X _ eq_refl) end).
    cbn [cur prev seen] in *.
    split; [reflexivity|eexists; reflexivity].
Qed.

(** *** C83: all outcomes together follow Born's rule *)
Theorem C83_joint : forall b it x ms, (forall r v, In (r, v) it -> in_range (bn b) r) -> loads it x ->
  Forall (wf_entry (bn b)) (pipeline b) -> Forall unitary_entry (pipeline b) -> Forall gate_or_meas (pipeline b) ->
  Forall2 (fun qs m => m < 2 ^ length qs) (measured (pipeline b)) ms ->
  over_draws (length ms) (fun d => gives (calculate_state_with_init b it d) ms) (weight (bn b) (branch (pipeline b) ms (ket (bn b) x))).
Proof. exact joint_born. Qed.
Print Assumptions C83_joint.
(** The reported probabilities multiply to it, and the state is the normalised branch. *)
Theorem C83_reported : forall b it x draws, (forall r v, In (r, v) it -> in_range (bn b) r) -> loads it x ->
  Forall (wf_entry (bn b)) (pipeline b) -> Forall unitary_entry (pipeline b) -> Forall gate_or_meas (pipeline b) -> (forall j, (0 < draws j <= 1)%R) ->
  exists v out, calculate_state_with_init b it draws = Ok (v, results out) /\ Forall2 (fun qs o => fst o < 2 ^ length qs /\ (0 < snd o)%R) (measured (pipeline b)) out /\
    weight (bn b) (branch (pipeline b) (map fst out) (ket (bn b) x)) = chance out /\ (0 < chance out)%R /\
    st_of CN (bn b) v = scaled (RtoC (/ sqrt (chance out))) (branch (pipeline b) (map fst out) (ket (bn b) x)).
Proof. exact run_branch. Qed.
Print Assumptions C83_reported.

Lemma epr_amp m0 m1 x : branch (pipeline epr) [m0; m1] (ket 2 (fun _ => false)) x =
  if shows [1] m1 x then if shows [0] m0 x then if Bool.eqb (x 0) (x 1) then RtoC (/ sqrt 2) else RtoC 0 else RtoC 0 else RtoC 0.
Proof.
  unfold epr. cbn [pipeline branch co_obj uden]. unfold proj. destruct (shows [1] m1 x); [|reflexivity]. destruct (shows [0] m0 x); [|reflexivity].
  unfold ctl_not, cflip, on1, flip, upd, ket. cbn. destruct (x 0) eqn:A, (x 1) eqn:B; cbn; rewrite ?A, ?B; cbn; unfold mH; cbn; ring.
Qed.
Local Ltac if_bool := repeat match goal with |- context[if ?b then _ else _] => let r := eval vm_compute in b in change b with r; cbv iota end.
(** Both qubits show 1: probability 1/2; different outcomes: 0. *)
Example C83_example : (forall r v, In (r, v) ([] : list (reg * nat)) -> in_range 2 r) /\ loads [] (fun _ => false) /\ Forall (wf_entry 2) (pipeline epr) /\
  Forall unitary_entry (pipeline epr) /\ Forall gate_or_meas (pipeline epr) /\ Forall2 (fun qs m => m < 2 ^ length qs) (measured (pipeline epr)) [1; 1] /\
  over_draws 2 (fun d => gives (calculate_state_with_init epr [] d) [1; 1]) (/ 2) /\
  over_draws 2 (fun d => gives (calculate_state_with_init epr [] d) [1; 0]) 0.
Proof.
  destruct epr_loads as (A & B). destruct epr_wf as (W & U & G). repeat (split; [assumption|]).
  assert (F : forall a b, a < 2 -> b < 2 -> Forall2 (fun qs m => m < 2 ^ length qs) (measured (pipeline epr)) [a; b]) by (intros; cbn; apply Forall2_cons; [assumption|apply Forall2_cons; [assumption|apply Forall2_nil]]).
  assert (S2 : (Cmod (RtoC (/ sqrt 2)) ^ 2)%R = (/ 2)%R).
  { rewrite Cmod_R, pow2_abs, pow_inv, pow2_sqrt by lra. reflexivity. }
  assert (S0 : (Cmod (RtoC 0) ^ 2)%R = 0%R) by (rewrite Cmod_0; ring).
  split; [apply F; lia|]. split.
  - replace (/ 2)%R with (weight 2 (branch (pipeline epr) [1; 1] (ket 2 (fun _ => false)))); [apply (C83_joint epr [] (fun _ => false) [1; 1]); auto|].
    unfold weight, below. change (seq 0 (2 ^ 2)) with [0; 1; 2; 3]. cbn [rsum]. rewrite !epr_amp. if_bool. rewrite S2, S0. ring.
  - replace 0%R with (weight 2 (branch (pipeline epr) [1; 0] (ket 2 (fun _ => false)))) at 1; [apply (C83_joint epr [] (fun _ => false) [1; 0]); auto|].
    unfold weight, below. change (seq 0 (2 ^ 2)) with [0; 1; 2; 3]. cbn [rsum]. rewrite !epr_amp. if_bool. rewrite S0. ring.
Qed.

(** *** C84: measuring again gives the same *)
Theorem C84_twice : forall b it x draws p1 qs k p2 k' p3, (forall r v, In (r, v) it -> in_range (bn b) r) -> loads it x ->
  pipeline b = p1 ++ (qs, mkCO k (OMeas MSingle)) :: p2 ++ (qs, mkCO k' (OMeas MSingle)) :: p3 ->
  Forall (wf_entry (bn b)) (pipeline b) -> Forall unitary_entry (pipeline b) -> Forall gate_or_meas (pipeline b) ->
  Forall (fun e => forall q, In q qs -> ~ In q (fst e)) p2 -> (forall j, (0 < draws j <= 1)%R) ->
  exists v rs m p, calculate_state_with_init b it draws = Ok (v, rs) /\
    nth_error rs (length (measured p1)) = Some (RSingle m p) /\ nth_error rs (length (measured (p1 ++ (qs, mkCO k (OMeas MSingle)) :: p2))) = Some (RSingle m 1%R).
Proof. exact twice. Qed.
Print Assumptions C84_twice.
(** H on qubit 0, measure it, H and a measurement of qubit 1, measure 0 again. *)
Definition again : builder :=
  mkB [([0], mkCO 1 (OUnit UH)); ([0], mkCO 1 (OMeas MSingle)); ([1], mkCO 1 (OUnit UH)); ([1], mkCO 1 (OMeas MSingle)); ([0], mkCO 1 (OMeas MSingle))] 2 [] 3.
Example C84_example : forall draws, (forall j, (0 < draws j <= 1)%R) -> exists v rs m p, calculate_state_with_init again [] draws = Ok (v, rs) /\
  nth_error rs 0 = Some (RSingle m p) /\ nth_error rs 2 = Some (RSingle m 1%R).
Proof.
  intros draws D. apply (C84_twice again [] (fun _ => false) draws [([0], mkCO 1 (OUnit UH))] [0] 1 [([1], mkCO 1 (OUnit UH)); ([1], mkCO 1 (OMeas MSingle))] 1 []); auto; try apply epr_loads.
  - unfold wf_entry. cbn [pipeline again]. repeat apply Forall_cons; try apply Forall_nil; cbn; (split; [repeat constructor; cbn; intuition lia|split; [intuition lia|exact I || reflexivity]]).
  - repeat constructor.
  - repeat constructor.
  - repeat constructor; cbn; intuition lia.
Qed.
