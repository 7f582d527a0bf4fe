(** Properties C35-C39: simulation. *)
From Coq Require Import Reals Lra FunctionalExtensionality.
From Coquelicot Require Import Complex.
From Verif Require Import Base BitsSpec BitsProofs OpsModel OpsSpec ConjSpec Instances MeasureModel MeasureSpec MeasureProofs BuilderModel SimModel UnitaryProofs
  DenSpec DenProofs SimSpec SimProofs LocalProofs SimProofs2.
Local Open Scope nat_scope.

(** *** C35 *)
Theorem C35_initial_state : forall b it draws, (forall r v, In (r, v) it -> in_range (bn b) r) -> NoDup (concat (map fst it)) -> pipeline b = [] ->
  exists x w, loads it x /\ calculate_state_with_init b it draws = Ok (w, []) /\ length w = 2 ^ bn b /\ st_of CN (bn b) w = ket (bn b) x.
Proof. exact initial_state. Qed.
Print Assumptions C35_initial_state.
Theorem C35_measure_initial : forall b it draws r v k p2,
  (forall r v, In (r, v) it -> in_range (bn b) r) -> NoDup (concat (map fst it)) -> In (r, v) it ->
  (0 < draws 0%nat <= 1)%R -> pipeline b = (r, mkCO k (OMeas MSingle)) :: p2 ->
  forall w ms, calculate_state_with_init b it draws = Ok (w, ms) -> get_measurement ms 0 = Ok (v mod 2 ^ length r, 1%R).
Proof. exact measure_initial_disjoint. Qed.
Print Assumptions C35_measure_initial.
Theorem C35_measure_initial_runs : forall b it draws r v k,
  (forall r v, In (r, v) it -> in_range (bn b) r) -> NoDup (concat (map fst it)) -> In (r, v) it ->
  (0 < draws 0%nat <= 1)%R -> pipeline b = [(r, mkCO k (OMeas MSingle))] ->
  exists w ms, calculate_state_with_init b it draws = Ok (w, ms).
Proof. exact measure_initial_runs. Qed.
Print Assumptions C35_measure_initial_runs.
Example C35_example : let b := mkB [([2; 0], mkCO 2 (OMeas MSingle))] 3 [] 1 in let it := [([2; 0], 6); ([1], 1)] in
  (forall r v, In (r, v) it -> in_range (bn b) r) /\ NoDup (concat (map fst it)) /\
  exists w ms, calculate_state_with_init b it (fun _ => (/2)%R) = Ok (w, ms) /\ get_measurement ms 0 = Ok (2, 1%R).
Proof.
  cbn zeta. assert (R : forall r v, In (r, v) [([2; 0], 6); ([1], 1)] -> in_range 3 r).
  { intros r v [E|[E|[]]]; inversion E; subst; intros q Hq; cbn in Hq; intuition lia. }
  assert (N : NoDup (concat (map fst [([2; 0], 6); ([1], 1)]))) by (cbn; repeat constructor; cbn; intuition lia).
  split; [exact R|]. split; [exact N|].
  destruct (measure_initial_runs (mkB [([2; 0], mkCO 2 (OMeas MSingle))] 3 [] 1) _ (fun _ => (/2)%R) [2; 0] 6 2 R N) as (w & ms & E);
    [left; reflexivity|lra|reflexivity|].
  exists w, ms. split; [exact E|]. change (Ok (2, 1%R)) with (Ok (6 mod 2 ^ length [2; 0], 1%R)).
  eapply measure_initial_disjoint with (2 := N) (6 := E); [exact R|left; reflexivity| |reflexivity]. cbn beta. lra.
Qed.

(** *** C36 *)
Theorem C36_simulation_product : forall b it x draws, (forall r v, In (r, v) it -> in_range (bn b) r) -> loads it x ->
  Forall (wf_entry (bn b)) (pipeline b) -> Forall plain_entry (pipeline b) ->
  exists v, calculate_state_with_init b it draws = Ok (v, []) /\ length v = 2 ^ bn b /\
    st_of CN (bn b) v = den (pipeline b) (ket (bn b) x).
Proof. exact simulate_ok. Qed.
Print Assumptions C36_simulation_product.
Definition bell : builder := mkB [([0], mkCO 1 (OUnit UH)); ([0; 1], mkCO 2 (OUnit UCNOT)); ([1], mkCO 1 (OUnit UY))] 2 [] 0.
Lemma bell_wf : Forall (wf_entry 2) (pipeline bell) /\ Forall plain_entry (pipeline bell).
Proof.
  split; [|repeat constructor]. unfold wf_entry. cbn [pipeline bell]. 
  repeat apply Forall_cons; try apply Forall_nil; cbn; (split; [repeat constructor; cbn; intuition lia|split; [intuition lia|reflexivity]]).
Qed.
(** A 2-qubit circuit meeting the hypotheses, and one amplitude of the product. *)
Example C36_example : loads [([1], 1)] (fun q => q =? 1) /\ Forall (wf_entry 2) (pipeline bell) /\ Forall plain_entry (pipeline bell) /\
  den (pipeline bell) (ket 2 (fun _ => false)) (fun q => q =? 1) = Cmult Ci (RtoC (/ sqrt 2)).
Proof.
  split; [|split; [apply bell_wf|split; [apply bell_wf|]]].
  - split.
    + intros r v [E|[]]; inversion E; subst. intros [|j] Hj; cbn in *; [reflexivity|lia].
    + intros q Hq. apply Nat.eqb_neq. intros ->. apply (Hq [1] 1); cbn; auto.
  - cbn [pipeline bell]. rewrite !den_cons, den_nil. cbn. unfold on1, cflip, ctl_not, flip, upd, ket. cbn.
    unfold mY, mH. cbn. ring.
Qed.

(** *** C37 *)
Theorem C37_normalised : forall b it x draws, (forall r v, In (r, v) it -> in_range (bn b) r) -> loads it x ->
  Forall (wf_entry (bn b)) (pipeline b) -> Forall plain_entry (pipeline b) -> Forall unitary_entry (pipeline b) ->
  exists v, calculate_state_with_init b it draws = Ok (v, []) /\ norm2 v = 1%R.
Proof. exact simulate_norm. Qed.
Print Assumptions C37_normalised.
Example C37_example : Forall (wf_entry 2) (pipeline bell) /\ Forall plain_entry (pipeline bell) /\ Forall unitary_entry (pipeline bell).
Proof. split; [apply bell_wf|split; [apply bell_wf|repeat constructor]]. Qed.

(** *** C38: false; a global phase discards the entry before it. *)
Theorem C38_phase_refuted : exists (b : builder) (s' : st) draws,
  apply_global_phase [0] PI (mkSt b []) = Ret [0] s' /\
  calculate_state b draws = Ok ([RtoC 1; RtoC 0], []) /\ calculate_state (bld s') draws = Ok ([RtoC 0; RtoC 0], []).
Proof.
  exists (mkB [] 1 [] 0), (mkSt (mkB [([0], mkCO 1 (OUnit (UPhase (Floating PI))))] 1 [] 0) []), (fun _ => R0).
  split; [reflexivity|]. split; [reflexivity|].
  apply (phase_first (mkB [] 1 [] 0) [0] 1 (Floating PI) [] (fun _ => false)); [intros ? ? []|split; [intros ? ? []|reflexivity]].
Qed.
Print Assumptions C38_phase_refuted.
(** What holds instead: the phase undoes the gate before it ... *)
Theorem C38_phase_undoes_previous_gate : forall b p e qs k t it x draws, (forall r v, In (r, v) it -> in_range (bn b) r) -> loads it x ->
  Forall (wf_entry (bn b)) (p ++ [e]) -> Forall plain_entry (p ++ [e]) ->
  calculate_state_with_init (with_pipeline b (p ++ [e; (qs, mkCO k (OUnit (UPhase t)))])) it draws =
  calculate_state_with_init (with_pipeline b p) it draws.
Proof. exact phase_undoes. Qed.
Print Assumptions C38_phase_undoes_previous_gate.
(** ... and an adjacent pair of phases, anywhere, has no effect. *)
Theorem C38_phase_pair_partial : forall b p1 p2 qs k t qs' k' t' it draws,
  calculate_state_with_init (with_pipeline b (p1 ++ (qs, mkCO k (OUnit (UPhase t))) :: (qs', mkCO k' (OUnit (UPhase t'))) :: p2)) it draws =
  calculate_state_with_init (with_pipeline b (p1 ++ p2)) it draws.
Proof. exact phase_pair_anywhere. Qed.
Print Assumptions C38_phase_pair_partial.
Example C38_example : Forall (wf_entry 2) ([([0], mkCO 1 (OUnit UH))] ++ [([0; 1], mkCO 2 (OUnit UCNOT))]) /\
  Forall plain_entry ([([0], mkCO 1 (OUnit UH))] ++ [([0; 1], mkCO 2 (OUnit UCNOT))]).
Proof.
  destruct bell_wf as (A & B). split.
  - inversion A; subst. inversion H2; subst. cbn [app]. apply Forall_cons; [assumption|]. apply Forall_cons; [assumption|apply Forall_nil].
  - repeat constructor.
Qed.

(** *** C39: false for the same reason. *)
Theorem C39_stochastic_refuted : exists (b : builder) (s' : st) h ps draws,
  measure_stochastic [0] (mkSt b []) = Ret ([0], h) s' /\
  calculate_state b draws = Ok ([RtoC 1; RtoC 0], []) /\ calculate_state (bld s') draws = Ok ([RtoC 0; RtoC 0], [RStochastic ps]).
Proof.
  destruct (stochastic_first (mkB [] 1 [] 1) [0] 1 [] (fun _ => false) (fun _ => R0)) as (ps & E).
  - intros ? ? [].
  - split; [intros ? ? []|reflexivity].
  - intros q [<-|[]]. cbn. lia.
  - repeat constructor; cbn; tauto.
  - exists (mkB [] 1 [] 0), (mkSt (mkB [([0], mkCO 1 (OMeas MStoch))] 1 [] 1) []), 0, ps, (fun _ => R0).
    split; [reflexivity|]. split; [reflexivity|]. exact E.
Qed.
Print Assumptions C39_stochastic_refuted.
Theorem C39_stochastic_undoes_previous_gate : forall b p e qs k it x draws, (forall r v, In (r, v) it -> in_range (bn b) r) -> loads it x ->
  Forall (wf_entry (bn b)) (p ++ [e]) -> Forall plain_entry (p ++ [e]) -> in_range (bn b) qs -> NoDup qs ->
  exists v ps, calculate_state_with_init (with_pipeline b p) it draws = Ok (v, []) /\
    calculate_state_with_init (with_pipeline b (p ++ [e; (qs, mkCO k (OMeas MStoch))])) it draws = Ok (v, [RStochastic ps]).
Proof. exact stochastic_undoes. Qed.
Print Assumptions C39_stochastic_undoes_previous_gate.
