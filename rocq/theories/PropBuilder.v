(** Properties C26, C27, C32, C33, C34: builder histories. *)
From Coq Require Import Reals Lra.
From Coquelicot Require Import Complex.
From Verif Require Import Base OpsModel MeasureModel BuilderModel SimModel RegProofs ConserveProofs ConserveProofs2 HistorySpec HistoryProofs
  HistoryProofs2 HandleProofs LocalProofs.
Local Open Scope nat_scope.

(** A history used by the examples: registers, a merge, a split by distinct positions, a
    temporary, a toffoli, a conditioned gate, a measurement. *)
Definition demo1 : list (call * list nat) := [(CRegister 3, []); (CRegister 2, []); (CMerge2, [0; 1])].
Definition demo2 : list (call * list nat) :=
  [(CSplitRel [4; 0], [0]); (CMakeTemp, []); (CToffoli, [0; 1]); (CReturnTemp, [0]); (CConditionWith, [0]); (CGate UX, [0]);
   (CDissolve, []); (CMeasure, [0]); (CRegister 1, [])].
Definition after1 : client := (mkSt (mkB [] 5 [] 0) [], [[0; 1; 2; 3; 4]]).
Lemma demo1_reach : reach distinct_positions start after1.
Proof. apply (play_reach _ demo1); [repeat constructor|reflexivity]. Qed.
Ltac nd := repeat constructor; cbn; intuition lia.

(** *** C26 *)
Theorem C26_register_fresh : forall cl0 cl k,
  reach distinct_positions start cl0 -> reach distinct_positions cl0 cl -> 0 < k ->
  exists cl', do_call cl (CRegister k) [] = Some cl' /\
    snd cl' = snd cl ++ [seq (bn (bld (fst cl))) k] /\ bn (bld (fst cl')) = bn (bld (fst cl)) + k /\
    pipeline (bld (fst cl')) = pipeline (bld (fst cl)) /\
    (forall q, In q (seq (bn (bld (fst cl))) k) -> ~ In q (held cl0) /\ forall e, In e (pipeline (bld (fst cl0))) -> ~ In q (fst e)).
Proof. exact register_never_before. Qed.
Print Assumptions C26_register_fresh.
Theorem C26_qudit_zero : forall s, qudit 0 s = Ret None s.
Proof. exact qudit_zero. Qed.
Print Assumptions C26_qudit_zero.
Theorem C26_qudit_is_register : forall k s, 0 < k ->
  qudit k s = match register k s with Ret r s' => Ret (Some r) s' | Fail e s' => Fail e s' | Crash p => Crash p end.
Proof. exact qudit_pos. Qed.
Print Assumptions C26_qudit_is_register.
Definition summary (cl : client) := (snd cl, bn (bld (fst cl)), zeroed (bld (fst cl)), length (pipeline (bld (fst cl)))).
Lemma demo2_reach : exists cl, reach handle_ok after1 cl /\ summary cl = ([[4; 0]; [1; 2; 3]; [6]], 7, [[5]], 99).
Proof.
  assert (X : option_map summary (play demo2 after1) = Some ([[4; 0]; [1; 2; 3]; [6]], 7, [[5]], 99)) by (vm_compute; reflexivity).
  destruct (play demo2 after1) as [cl|] eqn:E; [|discriminate]. cbn [option_map] in X.
  exists cl. split; [|change (match Some (summary cl) with Some y => y = ([[4; 0]; [1; 2; 3]; [6]], 7, [[5]], 99) | None => True end); rewrite X; reflexivity]. apply (play_reach _ demo2 after1 cl); [|exact E].
  unfold handle_ok. repeat constructor; cbn; intuition lia.
Qed.
Lemma reach_mono (ok1 ok2 : call -> Prop) cl cl' : (forall c, ok1 c -> ok2 c) -> reach ok1 cl cl' -> reach ok2 cl cl'.
Proof. intros I H. induction H; [apply reach_refl|]. eapply reach_step; eauto. Qed.
Example C26_example : exists cl, reach distinct_positions start after1 /\ reach distinct_positions after1 cl /\
  held after1 = [0; 1; 2; 3; 4] /\ summary cl = ([[4; 0]; [1; 2; 3]; [6]], 7, [[5]], 99).
Proof.
  destruct demo2_reach as (cl & H & E). exists cl. split; [exact demo1_reach|]. split; [|auto].
  eapply reach_mono; [|exact H]. intros c (X & _). exact X.
Qed.

(** *** C27 *)
Theorem C27_no_cloning : forall cl, reach distinct_positions start cl -> no_cloning cl /\ entries_ok cl.
Proof. exact reach_no_cloning. Qed.
Print Assumptions C27_no_cloning.
(** Without [distinct_positions] the claim is false. *)
Theorem C27_repeated_position_clones : exists cl, reach (fun _ => True) start cl /\ ~ no_cloning cl.
Proof. exact repeated_position_clones. Qed.
Print Assumptions C27_repeated_position_clones.
Example C27_example : exists cl, reach distinct_positions start cl /\ summary cl = ([[4; 0]; [1; 2; 3]; [6]], 7, [[5]], 99).
Proof.
  destruct C26_example as (cl & H1 & H2 & _ & E). exists cl. split; [|exact E]. eapply reach_trans; eassumption.
Qed.

(** *** C32 *)
Theorem C32_broadcast : forall r c s, NoDup r -> r <> [] -> co_n c = 1 ->
  exists s', aco 0 r c s = Ret r s' /\ conds s' = conds s /\ bn (bld s') = bn (bld s) /\ zeroed (bld s') = zeroed (bld s) /\
    meas (bld s') = meas (bld s) /\ pipeline (bld s') = pipeline (bld s) ++ map (fun q => ([q], c)) r.
Proof. intros r c s N Hne E. exists (appended s (map (fun q => ([q], c)) r)). cbn [aco]. rewrite local_aco_ok by assumption.
  unfold placed. rewrite E. repeat split. Qed.
Print Assumptions C32_broadcast.
Theorem C32_whole_register : forall r c s, NoDup r -> r <> [] -> co_n c = length r -> length r <> 1 ->
  exists s', aco 0 r c s = Ret r s' /\ conds s' = conds s /\ bn (bld s') = bn (bld s) /\ zeroed (bld s') = zeroed (bld s) /\
    meas (bld s') = meas (bld s) /\ pipeline (bld s') = pipeline (bld s) ++ [(r, c)].
Proof. intros r c s N Hne E H1. exists (appended s [(r, c)]). cbn [aco]. rewrite local_aco_ok by assumption.
  unfold placed. rewrite E. rewrite (proj2 (Nat.eqb_neq _ _) H1), Nat.eqb_refl. repeat split. Qed.
Print Assumptions C32_whole_register.
Theorem C32_wrong_size : forall r c s, NoDup r -> r <> [] -> co_n c <> 1 -> co_n c <> length r -> aco 0 r c s = Fail EObjSize s.
Proof. intros r c s N Hne E H1. cbn [aco]. rewrite local_aco_ok by assumption.
  unfold placed. rewrite (proj2 (Nat.eqb_neq _ _) E), (proj2 (Nat.eqb_neq _ _) H1). reflexivity. Qed.
Print Assumptions C32_wrong_size.
Example C32_example : let s := mkSt (mkB [([0], mkCO 1 (OUnit UH))] 3 [] 0) [] in NoDup [2; 0] /\
  aco 0 [2; 0] (mkCO 1 (OUnit UX)) s = Ret [2; 0] (mkSt (mkB [([0], mkCO 1 (OUnit UH)); ([2], mkCO 1 (OUnit UX)); ([0], mkCO 1 (OUnit UX))] 3 [] 0) []) /\
  aco 0 [2; 0] (mkCO 2 (OUnit UCNOT)) s = Ret [2; 0] (mkSt (mkB [([0], mkCO 1 (OUnit UH)); ([2; 0], mkCO 2 (OUnit UCNOT))] 3 [] 0) []) /\
  aco 0 [2; 0] (mkCO 3 (OUnit UX)) s = Fail EObjSize s.
Proof. split; [nd|]. split; [reflexivity|split; reflexivity]. Qed.

(** *** C33 *)
Theorem C33_append_only : forall ok cl cl', reach ok cl cl' ->
  (exists p, pipeline (bld (fst cl')) = pipeline (bld (fst cl)) ++ p) /\ bn (bld (fst cl)) <= bn (bld (fst cl')).
Proof. exact reach_append. Qed.
Print Assumptions C33_append_only.
Example C33_example : exists cl, reach handle_ok after1 cl /\ summary after1 = ([[0; 1; 2; 3; 4]], 5, [], 0) /\
  summary cl = ([[4; 0]; [1; 2; 3]; [6]], 7, [[5]], 99).
Proof. destruct demo2_reach as (cl & H & E). exists cl. auto. Qed.

(** *** C34: without replayed measurements every handle finds its own result; false in general. *)
Theorem C34_measurement_handle_partial : forall cl r s1 rs1 h cl2 it draws v ms,
  reach handle_ok start cl -> measure_single r (fst cl) = Ret (r, h) s1 -> reach handle_ok (s1, rs1) cl2 ->
  calculate_state_with_init (bld (fst cl2)) it draws = Ok (v, ms) ->
  exists p2 v0 arena m p w,
    pipeline (bld (fst cl2)) = pipeline (bld (fst cl)) ++ (r, mkCO (length r) (OMeas MSingle)) :: p2 /\
    state_before (bld (fst cl2)) it draws (pipeline (bld (fst cl))) v0 arena /\
    measure (draws h) (bn (bld (fst cl2))) r v0 arena None None = Ok ((m, p), w) /\
    get_measurement ms h = Ok (m, p).
Proof. exact handle_single. Qed.
Print Assumptions C34_measurement_handle_partial.
Theorem C34_stochastic_handle_partial : forall cl r s1 rs1 h cl2 it draws v ms,
  reach handle_ok start cl -> measure_stochastic r (fst cl) = Ret (r, h) s1 -> reach handle_ok (s1, rs1) cl2 ->
  calculate_state_with_init (bld (fst cl2)) it draws = Ok (v, ms) ->
  exists p2 v0 arena ps,
    pipeline (bld (fst cl2)) = pipeline (bld (fst cl)) ++ (r, mkCO (length r) (OMeas MStoch)) :: p2 /\
    state_before (bld (fst cl2)) it draws (pipeline (bld (fst cl))) v0 arena /\
    measure_probs (bn (bld (fst cl2))) r v0 0 = Ok ps /\
    get_stochastic_measurement ms h = Ok ps.
Proof. exact handle_stochastic. Qed.
Print Assumptions C34_stochastic_handle_partial.
(** The missing part: applying a recorded subcircuit that measures shifts the results, and the
    getter reaches [unreachable!()]. *)
Theorem C34_replayed_measurement_refuted : exists cl r s1,
  reach distinct_positions start cl /\ measure_stochastic r (fst cl) = Ret (r, 0) s1 /\
  (exists v ms, calculate_state (bld s1) (fun _ => (/2)%R) = Ok (v, ms)) /\
  forall draws v ms, calculate_state (bld s1) draws = Ok (v, ms) -> get_stochastic_measurement ms 0 = Panic PUnreachable.
Proof. exact handle_misaligned. Qed.
Print Assumptions C34_replayed_measurement_refuted.
(** Two measurements; the second handle is 1. *)
Example C34_example : exists cl s1, reach handle_ok start cl /\ measure_stochastic [0] (fst cl) = Ret ([0], 1) s1 /\
  reach handle_ok (s1, [[0]]) (s1, [[0]]) /\
  exists v ms, calculate_state (bld s1) (fun _ => (/2)%R) = Ok (v, ms) /\ exists ps, get_stochastic_measurement ms 1 = Ok ps.
Proof.
  exists (mkSt (mkB meas_sub 1 [] 1) [], [[0]]), (mkSt (mkB (pipeline shifted) 1 [] 2) []).
  assert (R1 : reach handle_ok start (mkSt (mkB meas_sub 1 [] 1) [], [[0]])).
  { apply (play_reach _ [(CRegister 1, []); (CMeasure, [0])]); [unfold handle_ok; repeat constructor|reflexivity]. }
  split; [exact R1|]. split; [reflexivity|]. split; [apply reach_refl|].
  destruct shifted_runs as (v & ms & E). exists v, ms. split; [exact E|].
  destruct (handle_stochastic (mkSt (mkB meas_sub 1 [] 1) [], [[0]]) [0] (mkSt (mkB (pipeline shifted) 1 [] 2) []) [[0]] 1
    (mkSt (mkB (pipeline shifted) 1 [] 2) [], [[0]]) [] (fun _ => (/2)%R) v ms R1 eq_refl (reach_refl _ _) E) as (_ & _ & _ & ps & _ & _ & _ & H).
  eauto.
Qed.
