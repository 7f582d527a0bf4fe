(** Properties C47-C50, C64, C65: conditioned builders. *)
From Coq Require Import Reals QArith Qreals ZArith Lra FunctionalExtensionality Permutation.
From Coquelicot Require Import Complex.
From Verif Require Import Base BitsSpec BitsProofs OpsModel OpsSpec Instances BuilderModel RegProofs SimModel HistorySpec DenSpec DenProofs SimSpec SimProofs
  RunSpec RunProofs GateProofs ToffoliProofs SwapProofs LinkProofs RotProofs CondProofs KeepProofs HistoryProofs2 PropBuilder PropGates.
Local Open Scope nat_scope.
Local Open Scope mon_scope.

(** A conditioned section: wrap, call, take the condition register back. *)
Definition under {A} (cr : reg) (m : M A) : M (reg * A) := _ <- condition_with cr ;; a <- m ;; cr <- dissolve ;; ret (cr, a).

Lemma gate_cond u q d s D : cond_ok (mkCO 1 (OUnit u)) [q] D -> 0 < d -> wrapped d (conds s) -> tidy s -> live s (cqs d (conds s) ++ [q]) ->
  does s (cqs d (conds s) ++ [q]) (gate (aco d) u [q]) [q] (cqs d (conds s) ++ [q]) (D (cqs d (conds s))).
Proof. intros H Hd W T Lv. apply does_unwrap. apply (aco_does _ _ D H); assumption. Qed.
Lemma try_X1 k q : cond_ok (mkCO k (OUnit UX)) [q] (fun cs => controlled cs (each mX [q])).
Proof. intros s cs Hc T Lv. eapply does_eq; [apply try_X; auto; discriminate|]. intros psi. rewrite toff_phase_one. apply ctl_each_1. Qed.
Lemma try_Y1 k q : cond_ok (mkCO k (OUnit UY)) [q] (fun cs => controlled cs (each mnY [q])).
Proof. intros s cs Hc T Lv. eapply does_eq; [apply try_Y; auto; discriminate|]. intros psi. rewrite toff_phase_one. apply ctl_each_1. Qed.
Lemma try_Z1 k q : cond_ok (mkCO k (OUnit UZ)) [q] (fun cs => controlled cs (each mZ [q])).
Proof. intros s cs Hc T Lv. eapply does_eq; [apply try_Z; auto; discriminate|]. intros psi. rewrite toff_phase_one. apply ctl_each_1. Qed.

(** *** C47: holds for x, z, s, t, cnot (and swap), at every depth *)
Theorem C47_conditioned_gates_partial : forall d s q, 0 < d -> wrapped d (conds s) -> tidy s -> live s (cqs d (conds s) ++ [q]) ->
  let K := cqs d (conds s) in
  does s (K ++ [q]) (g_x (aco d) [q]) [q] (K ++ [q]) (controlled K (each mX [q])) /\
  does s (K ++ [q]) (g_z (aco d) [q]) [q] (K ++ [q]) (controlled K (each mZ [q])) /\
  does s (K ++ [q]) (g_s (aco d) [q]) [q] (K ++ [q]) (controlled K (each mS [q])) /\
  does s (K ++ [q]) (g_t (aco d) [q]) [q] (K ++ [q]) (controlled K (each mT [q])).
Proof.
  intros d s q Hd W T Lv K. split; [|split; [|split]].
  - apply (gate_cond UX q d s _ (try_X1 1 q)); assumption.
  - apply (gate_cond UZ q d s _ (try_Z1 1 q)); assumption.
  - apply (gate_cond US q d s _ (try_S 1 q)); assumption.
  - apply (gate_cond UT q d s _ (try_T 1 q)); assumption.
Qed.
Print Assumptions C47_conditioned_gates_partial.
Lemma cond_cnot_obj d s c t : 0 < d -> wrapped d (conds s) -> tidy s -> live s (cqs d (conds s) ++ [c; t]) ->
  does s (cqs d (conds s) ++ [c; t]) (aco d [c; t] (mkCO 2 (OUnit UCNOT))) [c; t] (cqs d (conds s) ++ [c; t]) (ctl_nots (cqs d (conds s) ++ [c]) [t]).
Proof. intros Hd W T Lv. apply (aco_does _ _ _ (try_CNOT 2 c t)); assumption. Qed.
Theorem C47_conditioned_cnot : forall d s c ts, 0 < d -> wrapped d (conds s) -> tidy s -> live s (cqs d (conds s) ++ c :: ts) -> ts <> [] ->
  let K := cqs d (conds s) in
  does s (K ++ c :: ts) (cnot (aco d) [c] ts) ([c], ts) (K ++ c :: ts) (ctl_nots (K ++ [c]) ts).
Proof.
  intros d s c ts Hd W T Lv Hts K. apply (cnot_does (aco d) K (conds s)); try assumption; [reflexivity|].
  intros s1 t E T1 L1. unfold K in *. rewrite <- E in *. apply cond_cnot_obj; assumption.
Qed.
Print Assumptions C47_conditioned_cnot.
Theorem C47_conditioned_swap : forall d s la lb, 0 < d -> wrapped d (conds s) -> tidy s -> length la = length lb -> la <> [] ->
  live s (cqs d (conds s) ++ la ++ lb) -> let K := cqs d (conds s) in
  does s (K ++ la ++ lb) (swap (aco d) la lb) (la, lb) (K ++ la ++ lb) (ctl_swap K la lb).
Proof.
  intros d s la lb Hd W T Hl Hne Lv K. apply (swap_does (aco d) K (conds s)); try assumption; [|reflexivity].
  intros s1 c t E T1 L1. unfold K in *. rewrite <- E in *. apply cond_cnot_obj; assumption.
Qed.
Print Assumptions C47_conditioned_swap.
(** y gives a controlled -Y, h a controlled sin(1/4) Z + cos(1/4) X. *)
Theorem C47_conditioned_y_exact : forall d s q, 0 < d -> wrapped d (conds s) -> tidy s -> live s (cqs d (conds s) ++ [q]) ->
  let K := cqs d (conds s) in
  does s (K ++ [q]) (g_y (aco d) [q]) [q] (K ++ [q]) (controlled K (each (fun r c => Copp (mY r c)) [q])).
Proof.
  intros d s q Hd W T Lv K. eapply does_eq; [apply (gate_cond UY q d s _ (try_Y1 1 q)); assumption|]. intros psi.
  replace (fun r c => Copp (mY r c)) with mnY; [reflexivity|]. meq; unfold mnY, mscal; cbn; rewrite rn_1; ring.
Qed.
Print Assumptions C47_conditioned_y_exact.
Theorem C47_conditioned_h_exact : forall d s q, 0 < d -> wrapped d (conds s) -> tidy s -> live s (cqs d (conds s) ++ [q]) ->
  let K := cqs d (conds s) in
  does s (K ++ [q]) (g_h (aco d) [q]) [q] (K ++ [q])
    (controlled K (each (fun r c => Cplus (Cmult (RtoC (sin (/ 4))) (mZ r c)) (Cmult (RtoC (cos (/ 4))) (mX r c))) [q])).
Proof.
  intros d s q Hd W T Lv K. eapply does_eq; [apply (gate_cond UH q d s _ (try_H 1 q)); assumption|]. intros psi.
  match goal with |- controlled _ (each ?m _) _ = controlled _ (each ?n _) _ => replace n with m; [reflexivity|] end.
  meq; unfold mTilt, mZ, mX, diag; cbn; rewrite ?rn_1, ?RtoC_opp; ring.
Qed.
Print Assumptions C47_conditioned_h_exact.

Lemma under_does {A} (cr : reg) (m : M A) s L a L' D : does (mkSt (bld s) (conds s ++ [Some cr])) L m a L' D -> does s L (under cr m) (cr, a) L' D.
Proof. apply does_section. Qed.
Lemma under_hyps s cr r : conds s = [] -> cr <> [] -> tidy s -> live s (cr ++ r) ->
  let s1 := mkSt (bld s) (conds s ++ [Some cr]) in
  wrapped 1 (conds s1) /\ tidy s1 /\ cqs 1 (conds s1) = cr /\ live s1 (cr ++ r).
Proof.
  intros E Hc T Lv s1. unfold s1. rewrite E. cbn [app conds]. split; [|split; [exact T|split; [cbn; apply app_nil_r|exact Lv]]].
  intros k Hk. exists cr. destruct k; [split; [reflexivity|exact Hc]|lia].
Qed.

(** (|0> + |1>) |0> / sqrt 2 should become (|00> + i |11>) / sqrt 2. *)
Theorem C47_conditioned_y_refuted : exists s' v draws,
  (_ <- g_h (aco 0) [0] ;; under [0] (g_y (aco 1) [1])) (mkSt (mkB [] 2 [] 0) []) = Ret ([0], [1]) s' /\
  calculate_state (bld s') draws = Ok (v, []) /\
  nth (enc (bn (bld s')) (fun _ => false)) v (RtoC 0) = RtoC (/ sqrt 2) /\
  nth (enc (bn (bld s')) (fun q => q <? 2)) v (RtoC 0) = Cmult (Copp Ci) (RtoC (/ sqrt 2)) /\ mY true false = Ci.
Proof.
  assert (Lf : live (fresh 2) ([0] ++ [1])) by (apply fresh_live; [nd|intros q Hq; cbn in Hq; intuition lia]).
  destruct (does_amplitudes 2 ([0] ++ [1]) (_ <- g_h (aco 0) [0] ;; under [0] (g_y (aco 1) [1])) ([0], [1]) ([0] ++ [1])
    (fun psi => controlled [0] (each (fun r c => Copp (mY r c)) [1]) (each mH [0] psi)) [] (fun _ => false) (fun _ => R0)) as (s' & v & E1 & Hn & E2 & E3).
  - eapply does_bind; [apply (gate_does UH); [reflexivity|apply fresh_tidy|exact Lf|inc|nd|discriminate]|apply incl_refl|apply incl_refl|].
    intros s1 C1 T1 L1. apply under_does. destruct (under_hyps s1 [0] [1] C1) as (W & T2 & EK & L2); [discriminate|exact T1|exact L1|].
    pose proof (C47_conditioned_y_exact 1 (mkSt (bld s1) (conds s1 ++ [Some [0]])) 1) as H. cbv zeta in H. rewrite EK in H. apply H; [lia|exact W|exact T2|exact L2].
  - intros ? ? [].
  - split; [intros ? ? []|reflexivity].
  - exists s', v, (fun _ => R0). split; [exact E1|]. split; [exact E2|]. rewrite !E3. unfold controlled, each, on1. cbn [fold_left forallb].
    split; [|split; [|reflexivity]].
    + cbn [andb]. rewrite (ket_eq _ _ (upd _ 0 false)), (ket_ne _ _ (upd _ 0 true) 0); [|lia|discriminate|intros [|q]; reflexivity]. unfold mH. cbn. ring.
    + change (0 <? 2) with true. change (1 <? 2) with true. cbn [andb].
      rewrite !upd_other by discriminate. change (0 <? 2) with true.
      rewrite (ket_eq _ _ (upd (upd _ 1 false) 0 false)); [|intros [|[|q]]; reflexivity].
      rewrite (ket_ne _ _ (upd (upd _ 1 false) 0 true) 0); [|lia|discriminate].
      rewrite (ket_ne _ _ (upd (upd _ 1 true) 0 false) 1); [|lia|discriminate].
      rewrite (ket_ne _ _ (upd (upd _ 1 true) 0 true) 0); [|lia|discriminate]. unfold mH, mY. cbn. ring.
Qed.
Print Assumptions C47_conditioned_y_refuted.
Lemma sin_quarter : (sin (/ 4) < / sqrt 2)%R.
Proof.
  apply Rlt_trans with (/ 4)%R; [apply sin_lt_x; lra|]. apply Rinv_lt_contravar; [apply Rmult_lt_0_compat; [apply sqrt_lt_R0|]; lra|].
  apply Rlt_le_trans with 2%R; [|lra]. pose proof Rlt_sqrt2_0. pose proof (sqrt_sqrt 2 ltac:(lra)). nra.
Qed.
(** Condition 1, target 0: amplitude sin(1/4) instead of 1/sqrt 2. *)
Theorem C47_conditioned_h_refuted : exists s' v draws,
  under [0] (g_h (aco 1) [1]) (mkSt (mkB [] 2 [] 0) []) = Ret ([0], [1]) s' /\
  calculate_state_with_init (bld s') [([0], 1)] draws = Ok (v, []) /\
  nth (enc (bn (bld s')) (fun q => q =? 0)) v (RtoC 0) = RtoC (sin (/ 4)) /\ mH false false = RtoC (/ sqrt 2) /\ (sin (/ 4) < / sqrt 2)%R.
Proof.
  assert (Lf : live (fresh 2) ([0] ++ [1])) by (apply fresh_live; [nd|intros q Hq; cbn in Hq; intuition lia]).
  destruct (does_amplitudes 2 ([0] ++ [1]) (under [0] (g_h (aco 1) [1])) ([0], [1]) ([0] ++ [1])
    (controlled [0] (each (mTilt (/ 4)) [1])) [([0], 1)] (fun q => q =? 0) (fun _ => R0)) as (s' & v & E1 & Hn & E2 & E3).
  - apply under_does. destruct (under_hyps (fresh 2) [0] [1] eq_refl) as (W & T2 & EK & L2); [discriminate|apply fresh_tidy|exact Lf|].
    pose proof (gate_cond UH 1 1 (mkSt (bld (fresh 2)) (conds (fresh 2) ++ [Some [0]])) _ (try_H 1 1)) as H. rewrite EK in H. apply H; [lia|exact W|exact T2|exact L2].
  - apply range_one. lia.
  - apply loads_one.
  - exists s', v, (fun _ => R0). split; [exact E1|]. split; [exact E2|]. rewrite !E3. unfold controlled, each, on1. cbn [fold_left forallb andb Nat.eqb].
    split; [|split; [reflexivity|exact sin_quarter]].
    rewrite (ket_eq _ _ (upd _ 1 false)), (ket_ne _ _ (upd _ 1 true) 1); [|lia|discriminate|intros [|[|q]]; reflexivity]. unfold mTilt. cbn. ring.
Qed.
Print Assumptions C47_conditioned_h_refuted.
(** A wrapper around a wrapper, with a pooled temporary. *)
Definition ex_cond : st := mkSt (mkB [] 6 [[1]] 0) [Some [0; 3]; Some [5]].
Lemma ex_cond_ok : wrapped 2 (conds ex_cond) /\ tidy ex_cond /\ cqs 2 (conds ex_cond) = [5; 0; 3] /\ live ex_cond ([5; 0; 3] ++ [2; 4]).
Proof.
  split; [intros [|[|k]] Hk; [exists [0; 3]; split; [reflexivity|discriminate]|exists [5]; split; [reflexivity|discriminate]|lia]|].
  split; [split; [repeat constructor|]; split; [nd|intros q [<-|[]]; cbn; lia]|]. split; [reflexivity|].
  split; [nd|]. intros q Hq [X|[<-|[]]]; cbn in *; intuition lia.
Qed.
Example C47_example : 0 < 2 /\ wrapped 2 (conds ex_cond) /\ tidy ex_cond /\ live ex_cond (cqs 2 (conds ex_cond) ++ 2 :: [4]).
Proof. destruct ex_cond_ok as (W & T & E & Lv). split; [lia|]. split; [exact W|]. split; [exact T|]. rewrite E. exact Lv. Qed.

(** *** C48: false, the rotations ignore the condition *)
(** Whatever wrappers are in place, the rotation is applied to every state. *)
Theorem C48_rotations_ignore_condition : forall t q L s, tidy s -> live s L -> In q L ->
  does s L (rz [q] t) [q] L (each (mRz t) [q]) /\ does s L (rx [q] t) [q] L (each (mRx t) [q]) /\ does s L (ry [q] t) [q] L (each (mRy (- t)) [q]).
Proof. intros t q L s T Lv I. split; [apply rz_does; assumption|]. split; [apply rx_does; assumption|apply ry_does; assumption]. Qed.
Print Assumptions C48_rotations_ignore_condition.
(** Condition qubit 0, and yet the target is turned. *)
Theorem C48_conditioned_rotation_refuted : exists s' v draws,
  under [0] (rx [1] PI) (mkSt (mkB [] 2 [] 0) []) = Ret ([0], [1]) s' /\ calculate_state (bld s') draws = Ok (v, []) /\
  nth (enc (bn (bld s')) (fun _ => false)) v (RtoC 0) = RtoC 0 /\ nth (enc (bn (bld s')) (fun q => q =? 1)) v (RtoC 0) = Copp Ci.
Proof.
  assert (Lf : live (fresh 2) ([0] ++ [1])) by (apply fresh_live; [nd|intros q Hq; cbn in Hq; intuition lia]).
  destruct (does_amplitudes 2 ([0] ++ [1]) (under [0] (rx [1] PI)) ([0], [1]) ([0] ++ [1]) (each (mRx PI) [1]) [] (fun _ => false) (fun _ => R0)) as (s' & v & E1 & Hn & E2 & E3).
  - apply under_does. apply rx_does; [apply fresh_tidy|exact Lf|right; left; reflexivity].
  - intros ? ? [].
  - split; [intros ? ? []|reflexivity].
  - exists s', v, (fun _ => R0). split; [exact E1|]. split; [exact E2|]. rewrite !E3. unfold each, on1. cbn [fold_left Nat.eqb].
    split.
    + rewrite (ket_eq _ _ (upd _ 1 false)), (ket_ne _ _ (upd _ 1 true) 1); [|lia|discriminate|intros [|[|q]]; reflexivity]. unfold mRx. cbn [eqb]. rewrite cos_PI2. ring.
    + rewrite (ket_eq _ _ (upd _ 1 false)), (ket_ne _ _ (upd _ 1 true) 1); [|lia|discriminate|intros [|[|q]]; reflexivity]. unfold mRx. cbn [eqb]. rewrite sin_PI2. ring.
Qed.
Print Assumptions C48_conditioned_rotation_refuted.
Example C48_example : tidy ex_cond /\ live ex_cond [2; 4] /\ In 4 [2; 4].
Proof.
  destruct ex_cond_ok as (_ & T & _ & Lv). split; [exact T|]. split; [|cbn; tauto]. eapply live_incl; [exact Lv|nd|]. intros q Hq. apply in_or_app. right. exact Hq.
Qed.

(** *** C49 *)
(** What a gate does under nested wrappers is what it does under one wrapper holding all the
    condition qubits; the condition registers come back as they were. *)
Definition gate_ok (u : unitary) : Prop := u = UX \/ u = UY \/ u = UZ \/ u = UH \/ u = US \/ u = UT.
Lemma gate_ok_cond u q : gate_ok u -> exists m, cond_ok (mkCO 1 (OUnit u)) [q] (fun cs => controlled cs (each m [q])).
Proof.
  intros [->|[->|[->|[->|[->| ->]]]]]; eexists; [apply try_X1|apply try_Y1|apply try_Z1|apply try_H|apply try_S|apply try_T].
Qed.
Lemma under_nested {A} (c1 c2 : reg) (m : M A) s L a L' D : does (mkSt (bld s) ((conds s ++ [Some c1]) ++ [Some c2])) L m a L' D ->
  does s L (under c1 (under c2 m)) (c1, (c2, a)) L' D.
Proof. intros H. apply under_does. apply under_does. exact H. Qed.
Theorem C49_nested_gates : forall u q c1 c2 s, gate_ok u -> conds s = [] -> c1 <> [] -> c2 <> [] -> tidy s -> live s ((c2 ++ c1) ++ [q]) ->
  exists m, (u <> UY -> u <> UH -> m = gate_mat u) /\
  does s ((c2 ++ c1) ++ [q]) (under c1 (under c2 (gate (aco 2) u [q]))) (c1, (c2, [q])) ((c2 ++ c1) ++ [q]) (controlled (c2 ++ c1) (each m [q])) /\
  does s ((c2 ++ c1) ++ [q]) (under (c2 ++ c1) (gate (aco 1) u [q])) (c2 ++ c1, [q]) ((c2 ++ c1) ++ [q]) (controlled (c2 ++ c1) (each m [q])).
Proof.
  intros u q c1 c2 s G E H1 H2 T Lv.
  assert (X : exists m, (u <> UY -> u <> UH -> m = gate_mat u) /\ cond_ok (mkCO 1 (OUnit u)) [q] (fun cs => controlled cs (each m [q]))).
  { destruct G as [->|[->|[->|[->|[->| ->]]]]]; eexists; (split; [|first [apply try_X1|apply try_Y1|apply try_Z1|apply try_H|apply try_S|apply try_T]]); intros; congruence || reflexivity. }
  destruct X as (m & Em & Hm). exists m. split; [exact Em|]. split.
  - apply under_nested. set (s1 := mkSt (bld s) ((conds s ++ [Some c1]) ++ [Some c2])).
    assert (EK : cqs 2 (conds s1) = c2 ++ c1) by (unfold s1; rewrite E; cbn; rewrite app_nil_r; reflexivity).
    pose proof (gate_cond u q 2 s1 _ Hm) as H. rewrite EK in H. apply H; [lia| |exact T|exact Lv].
    unfold s1. rewrite E. cbn. intros [|[|k]] Hk; [exists c1; auto|exists c2; auto|lia].
  - apply under_does. destruct (under_hyps s (c2 ++ c1) [q] E) as (W & T2 & EK & L2); [destruct c2; [congruence|discriminate]|exact T|exact Lv|].
    pose proof (gate_cond u q 1 (mkSt (bld s) (conds s ++ [Some (c2 ++ c1)])) _ Hm) as H. rewrite EK in H. apply H; [lia|exact W|exact T2|exact L2].
Qed.
Print Assumptions C49_nested_gates.
(** At any depth: one more wrapper adds its qubits to the condition of every such call. *)
Theorem C49_one_more_wrapper : forall cr u q s, gate_ok u -> cr <> [] -> wrapped (length (conds s)) (conds s) -> tidy s ->
  live s ((cr ++ cqs (length (conds s)) (conds s)) ++ [q]) ->
  exists m, (u <> UY -> u <> UH -> m = gate_mat u) /\ let K := cr ++ cqs (length (conds s)) (conds s) in
  does s (K ++ [q]) (under cr (gate (aco (S (length (conds s)))) u [q])) (cr, [q]) (K ++ [q]) (controlled K (each m [q])).
Proof.
  intros cr u q s G Hc W T Lv.
  assert (X : exists m, (u <> UY -> u <> UH -> m = gate_mat u) /\ cond_ok (mkCO 1 (OUnit u)) [q] (fun cs => controlled cs (each m [q]))).
  { destruct G as [->|[->|[->|[->|[->| ->]]]]]; eexists; (split; [|first [apply try_X1|apply try_Y1|apply try_Z1|apply try_H|apply try_S|apply try_T]]); intros; congruence || reflexivity. }
  destruct X as (m & Em & Hm). exists m. split; [exact Em|]. cbv zeta. apply under_does.
  pose proof (gate_cond u q (S (length (conds s))) (mkSt (bld s) (conds s ++ [Some cr])) _ Hm) as H. cbn [conds] in H. rewrite cqs_last in H.
  apply H; [lia|apply wrapped_last; assumption|exact T|exact Lv].
Qed.
Print Assumptions C49_one_more_wrapper.
Theorem C49_one_more_wrapper_cnot : forall cr c ts s, cr <> [] -> wrapped (length (conds s)) (conds s) -> tidy s -> ts <> [] ->
  live s ((cr ++ cqs (length (conds s)) (conds s)) ++ c :: ts) ->
  let K := cr ++ cqs (length (conds s)) (conds s) in
  does s (K ++ c :: ts) (under cr (cnot (aco (S (length (conds s)))) [c] ts)) (cr, ([c], ts)) (K ++ c :: ts) (ctl_nots (K ++ [c]) ts).
Proof.
  intros cr c ts s Hc W T Hts Lv K. apply under_does.
  pose proof (C47_conditioned_cnot (S (length (conds s))) (mkSt (bld s) (conds s ++ [Some cr])) c ts) as H. cbn [conds] in H. rewrite cqs_last in H.
  apply H; [lia|apply wrapped_last; assumption|exact T|exact Lv|exact Hts].
Qed.
Print Assumptions C49_one_more_wrapper_cnot.
Example C49_example : let s := mkSt (bld ex_cond) [Some [0; 3]] in
  wrapped (length (conds s)) (conds s) /\ tidy s /\ live s (([5] ++ cqs (length (conds s)) (conds s)) ++ 2 :: [4]).
Proof.
  destruct ex_cond_ok as (W & T & E & Lv). split; [intros [|k] Hk; [exists [0; 3]; split; [reflexivity|discriminate]|cbn in Hk; lia]|].
  split; [exact T|exact Lv].
Qed.

(** *** C50: false; every failing object or subcircuit leaves the innermost wrapper empty *)
Lemma dissolve_empty s : 0 < length (conds s) -> nth_error (conds s) (length (conds s) - 1) = Some None -> dissolve s = Crash PUnwrap.
Proof.
  intros H E. unfold dissolve. destruct (conds s) as [|x c] eqn:Ec using rev_ind; [cbn in H; lia|]. rewrite rev_app_distr. cbn.
  rewrite app_length in E. cbn [length] in E. replace (length c + 1 - 1) with (length c) in E by lia. rewrite nth_error_app2, Nat.sub_diag in E by lia. inversion E. reflexivity.
Qed.
Theorem C50_failure_loses_condition : forall r co sc s e s', 0 < length (conds s) ->
  aco (length (conds s)) r co s = Fail e s' \/ apply_subcircuit (length (conds s)) sc r s = Fail e s' -> dissolve s' = Crash PUnwrap.
Proof.
  intros r co sc s e s' H X. destruct (length (conds s)) as [|k] eqn:L; [lia|].
  assert (E : nth_error (conds s') k = Some None) by (destruct X as [X|X]; [eapply failed_aco|eapply failed_sub]; exact X).
  assert (L' : length (conds s') = S k).
  { apply (failed_length k s); [|congruence|exact E]. destruct X as [X|X]; [pose proof (k_aco (S k) r co s) as K|pose proof (k_sub (S k) sc r s) as K]; rewrite X in K; exact K. }
  apply dissolve_empty; rewrite L'; [lia|]. cbn [Nat.sub]. rewrite Nat.sub_0_r. exact E.
Qed.
Print Assumptions C50_failure_loses_condition.
(** A subcircuit with a measurement, applied under a condition: Err, then dissolve panics. *)
Theorem C50_condition_recoverable_refuted : exists e s', (forall s, s = mkSt (mkB [] 2 [] 0) [] ->
  (_ <- condition_with [0] ;; apply_subcircuit 1 [([0], mkCO 1 (OMeas MSingle))] [1]) s = Fail e s') /\ dissolve s' = Crash PUnwrap.
Proof. eexists. eexists. split; [intros s ->; reflexivity|]. reflexivity. Qed.
Print Assumptions C50_condition_recoverable_refuted.
(** Errors noticed before the object is handed on do no harm. *)
Theorem C50_early_errors_partial : forall d s cs ts la lb, 2 <= length cs -> length la <> length lb ->
  cnot (aco d) cs ts s = Fail (EOther 1) s /\ swap (aco d) la lb s = Fail ESizes s.
Proof.
  intros d s cs ts la lb H1 H2. split; [|apply swap_sizes; exact H2]. unfold cnot. destruct (Nat.ltb_spec 1 (length cs)); [reflexivity|lia].
Qed.
Print Assumptions C50_early_errors_partial.
Example C50_example : let s := mkSt (mkB [] 3 [] 0) [Some [0]; Some [1]] in
  exists e s', 0 < length (conds s) /\ aco (length (conds s)) [2] (mkCO 1 (OMeas MStoch)) s = Fail e s'.
Proof. eexists. eexists. split; [cbn; lia|]. reflexivity. Qed.

(** *** C64: conditioned gates on registers of several qubits; false *)
Theorem C64_conditioned_register_exact : forall u d s r, (u = UX \/ u = UY \/ u = UZ) -> r <> [] -> 0 < d -> wrapped d (conds s) -> tidy s -> live s (cqs d (conds s) ++ r) ->
  let K := cqs d (conds s) in
  let z := if length K =? 1 then RtoC 1 else cpow (Copp Ci) (length r - 1) in
  let m := match u with UY => fun a b => Copp (mY a b) | _ => gate_mat u end in
  does s (K ++ r) (gate (aco d) u r) r (K ++ r) (controlled K (fun psi x => Cmult z (each m r psi x))).
Proof.
  intros u d s r Hu Hr Hd W T Lv K z m. destruct Hu as [->|[->| ->]]; apply does_unwrap.
  - apply (aco_does _ _ _ (try_X 1 r Hr)); assumption.
  - eapply does_eq; [apply (aco_does _ _ _ (try_Y 1 r Hr)); assumption|]. intros psi. unfold m.
    replace (fun a b => Copp (mY a b)) with mnY; [reflexivity|]. meq; unfold mnY, mscal; cbn; rewrite rn_1; ring.
  - apply (aco_does _ _ _ (try_Z 1 r Hr)); assumption.
Qed.
Print Assumptions C64_conditioned_register_exact.
(** One condition qubit: x and z are right on every register. *)
Theorem C64_conditioned_register_partial : forall u c s r, (u = UX \/ u = UZ) -> r <> [] -> conds s = [] -> tidy s -> live s (c :: r) ->
  does s (c :: r) (under [c] (gate (aco 1) u r)) ([c], r) (c :: r) (controlled [c] (each (gate_mat u) r)).
Proof.
  intros u c s r Hu Hr E T Lv. apply under_does. destruct (under_hyps s [c] r E) as (W & T2 & EK & L2); [discriminate|exact T|exact Lv|].
  pose proof (C64_conditioned_register_exact u 1 (mkSt (bld s) (conds s ++ [Some [c]])) r) as H. cbv zeta in H. rewrite EK in H.
  eapply does_eq; [apply H; [tauto|exact Hr|lia|exact W|exact T2|exact L2]|]. intros psi. extensionality x. unfold controlled. destruct (forallb x [c]); [|reflexivity].
  cbn [length Nat.eqb]. destruct Hu as [->| ->]; apply Cmult_1_l.
Qed.
Print Assumptions C64_conditioned_register_partial.
(** s and t on two or more qubits: one phase for all of them at once, and all but the last
    qubit of the register end up in the condition register. *)
Lemma local_s_t s cs ts t : cs <> [] -> tidy s -> live s (cs ++ ts ++ [t]) ->
  does s (cs ++ ts ++ [t]) (local_try cs (ts ++ [t]) (mkCO 1 (OUnit US))) (cs ++ ts, [t]) (cs ++ ts ++ [t]) (ctl_phase (cs ++ ts ++ [t]) Ci) /\
  does s (cs ++ ts ++ [t]) (local_try cs (ts ++ [t]) (mkCO 1 (OUnit UT))) (cs ++ ts, [t]) (cs ++ ts ++ [t]) (ctl_phase (cs ++ ts ++ [t]) (expi (PI / 4))).
Proof.
  intros Hc T Lv. split; apply cond_phase_does; try assumption; intros s1 t1 L T1 L1 I.
  - apply (gate_does US); auto; [intros q [<-|[]]; exact I|nd|discriminate].
  - apply (gate_does UT); auto; [intros q [<-|[]]; exact I|nd|discriminate].
Qed.
Lemma under_moves u s cs r cs' r' L D : conds s = [] ->
  does (mkSt (bld s) [None]) L (local_try cs r (mkCO 1 (OUnit u))) (cs', r') L D -> does s L (under cs (gate (aco 1) u r)) (cs', r') L D.
Proof.
  intros E (s1 & p & H1 & H2 & H3 & H4 & H5 & H6 & H7 & H8 & H9 & H10 & H11 & H12). cbn [bld conds] in *.
  exists (mkSt (bld s1) []), p. split.
  { unfold under, condition_with, mbind at 1. rewrite E. cbn [app]. unfold gate, aco, unwrapM, mbind, take_cr. cbn [nth_error conds bld upd_nth try_cond]. rewrite H1.
    unfold put_cr, ret, dissolve. cbn [bld conds]. rewrite H2. reflexivity. }
  cbn [bld conds] in *. split; [symmetry; exact E|]. do 8 (split; [assumption|]). split; assumption.
Qed.
Theorem C64_conditioned_s_t_register_exact : forall s cs ts t, conds s = [] -> cs <> [] -> tidy s -> live s (cs ++ ts ++ [t]) ->
  does s (cs ++ ts ++ [t]) (under cs (g_s (aco 1) (ts ++ [t]))) (cs ++ ts, [t]) (cs ++ ts ++ [t]) (ctl_phase (cs ++ ts ++ [t]) Ci) /\
  does s (cs ++ ts ++ [t]) (under cs (g_t (aco 1) (ts ++ [t]))) (cs ++ ts, [t]) (cs ++ ts ++ [t]) (ctl_phase (cs ++ ts ++ [t]) (expi (PI / 4))).
Proof. intros s cs ts t E Hc T Lv. split; apply under_moves; try exact E; apply local_s_t; assumption. Qed.
Print Assumptions C64_conditioned_s_t_register_exact.
Theorem C64_conditioned_register_refuted : exists s', under [0] (g_s (aco 1) [1; 2]) (mkSt (mkB [] 3 [] 0) []) = Ret ([0; 1], [2]) s'.
Proof.
  destruct (C64_conditioned_s_t_register_exact (fresh 3) [0] [1] 2) as ((s' & p & H & _) & _); [reflexivity|discriminate|apply fresh_tidy| |exists s'; exact H].
  apply fresh_live; [nd|intros q Hq; cbn in Hq; intuition lia].
Qed.
Print Assumptions C64_conditioned_register_refuted.
Example C64_example : conds ex_st = [] /\ live ex_st (3 :: [0; 2]) /\ live ex_cond (cqs 2 (conds ex_cond) ++ [2; 4]).
Proof. split; [reflexivity|]. split; [exact ex_live|]. destruct ex_cond_ok as (_ & _ & E & Lv). rewrite E. exact Lv. Qed.

(** *** C65: a matrix on a conditioned builder panics *)
Lemma try_mat d : forall s cr r data k, wrapped d (conds s) -> cr <> [] -> try_cond d cr r (mkCO k (OUnit (UMAT data))) s = Crash PTodo.
Proof.
  induction d as [|d IH]; intros s cr r data k W Hc; [reflexivity|]. cbn [try_cond]. destruct (W d (Nat.lt_succ_diag_r d)) as (c & E & Hcne).
  unfold mbind at 1. unfold take_cr. rewrite E. unfold mbind at 1. rewrite merge2_ok by exact Hc. cbn [lift]. unfold mbind at 1.
  rewrite IH; [reflexivity| |destruct cr; [congruence|discriminate]]. cbn [conds]. apply wrapped_upd; [lia|]. eapply wrapped_le; [|exact W]. lia.
Qed.
Theorem C65_conditioned_matrix_refuted : forall d s r data, 0 < d -> wrapped d (conds s) -> apply_matrix (aco d) r data s = Crash PTodo.
Proof.
  intros [|d] s r data Hd W; [lia|]. unfold apply_matrix. cbn [aco]. destruct (W d (Nat.lt_succ_diag_r d)) as (c & E & Hcne).
  unfold mbind at 1. unfold take_cr. rewrite E. unfold mbind at 1. rewrite try_mat; [reflexivity| |exact Hcne]. cbn [conds].
  apply wrapped_upd; [lia|]. eapply wrapped_le; [|exact W]. lia.
Qed.
Print Assumptions C65_conditioned_matrix_refuted.
Example C65_example : wrapped 2 (conds ex_cond).
Proof. apply ex_cond_ok. Qed.
