(** Properties C40-C46 and C63: gates, swap, toffoli, rotations. *)
From Coq Require Import Reals QArith Qreals ZArith Lra FunctionalExtensionality.
From Coquelicot Require Import Complex.
From Verif Require Import Base BitsSpec BitsProofs OpsModel OpsSpec Instances BuilderModel RegProofs SimModel HistorySpec DenSpec DenProofs SimSpec SimProofs
  RunSpec RunProofs GateProofs ToffoliProofs SwapProofs LinkProofs RotProofs TidyProofs HistoryProofs2 PropBuilder.
Local Open Scope nat_scope.
Local Open Scope mon_scope.

(** *** C63: the meaning of [does] *)
(** After any history of calls, the hypotheses of the theorems below hold of the client's registers. *)
Theorem C63_reachable_tidy : forall cl, reach distinct_positions start cl ->
  tidy (fst cl) /\ live (fst cl) (concat (snd cl) ++ concat (somes (conds (fst cl)))).
Proof. exact reach_tidy. Qed.
Print Assumptions C63_reachable_tidy.
(** What a call does is what the simulator returns. *)
Theorem C63_simulated : forall A s L (m : M A) a L' D it x draws, does s L m a L' D ->
  (forall r v, In (r, v) it -> in_range (bn (bld s)) r) -> loads it x ->
  Forall (wf_entry (bn (bld s))) (pipeline (bld s)) -> Forall plain_entry (pipeline (bld s)) ->
  (forall n q, idle s q -> q < n -> clean [q] (den (pipeline (bld s)) (ket n x))) ->
  exists s' v, m s = Ret a s' /\ calculate_state_with_init (bld s') it draws = Ok (v, []) /\ length v = 2 ^ bn (bld s') /\
    st_of CN (bn (bld s')) v = D (den (pipeline (bld s)) (ket (bn (bld s')) x)).
Proof. intros A. exact does_simulate. Qed.
Print Assumptions C63_simulated.
Theorem C63_simulated_fresh : forall A n L (m : M A) a L' D it x draws, does (mkSt (mkB [] n [] 0) []) L m a L' D ->
  (forall r v, In (r, v) it -> in_range n r) -> loads it x ->
  exists s' v, m (mkSt (mkB [] n [] 0) []) = Ret a s' /\ calculate_state_with_init (bld s') it draws = Ok (v, []) /\ length v = 2 ^ bn (bld s') /\
    st_of CN (bn (bld s')) v = D (ket (bn (bld s')) x).
Proof. intros A. exact does_simulate_fresh. Qed.
Print Assumptions C63_simulated_fresh.
(** Effects of successive calls compose. *)
Theorem C63_sequence : forall A B s L (m : M A) a L1 D1 (f : A -> M B) b L2 D2,
  does s L m a L1 D1 -> incl L L1 -> incl L1 L ->
  (forall s1, conds s1 = conds s -> tidy s1 -> live s1 L1 -> does s1 L1 (f a) b L2 D2) ->
  does s L (mbind m f) b L2 (fun psi => D2 (D1 psi)).
Proof. intros A B. exact does_bind. Qed.
Print Assumptions C63_sequence.
(** A reachable client with a register, a wrapper-free builder and a pooled temporary. *)
Example C63_example : exists cl, reach distinct_positions start cl /\ summary cl = ([[4; 0]; [1; 2; 3]; [6]], 7, [[5]], 99).
Proof. exact C27_example. Qed.

(** *** C40 *)
Theorem C40_gates : forall r L s, tidy s -> live s L -> incl r L -> NoDup r -> r <> [] ->
  does s L (g_x (aco 0) r) r L (each mX r) /\ does s L (g_y (aco 0) r) r L (each mY r) /\
  does s L (g_z (aco 0) r) r L (each mZ r) /\ does s L (g_h (aco 0) r) r L (each mH r) /\
  does s L (g_s (aco 0) r) r L (each mS r) /\ does s L (g_t (aco 0) r) r L (each mT r) /\
  does s L (g_s_dagger (aco 0) r) r L (each mSd r) /\ does s L (g_t_dagger (aco 0) r) r L (each mTd r).
Proof.
  intros r L s T Lv I N Hr. do 6 (split; [first [apply (gate_does UX)|apply (gate_does UY)|apply (gate_does UZ)|apply (gate_does UH)|apply (gate_does US)|apply (gate_does UT)]; auto|]).
  split; [apply s_dagger_does|apply t_dagger_does]; assumption.
Qed.
Print Assumptions C40_gates.
Theorem C40_cnot : forall s c ts, tidy s -> live s (c :: ts) -> ts <> [] ->
  does s (c :: ts) (cnot (aco 0) [c] ts) ([c], ts) (c :: ts) (ctl_nots [c] ts).
Proof. exact local_cnot_does. Qed.
Print Assumptions C40_cnot.
Theorem C40_cnot_one_control : forall cs ts s, 2 <= length cs -> cnot (aco 0) cs ts s = Fail (EOther 1) s.
Proof. intros cs ts s H. unfold cnot. destruct (Nat.ltb_spec 1 (length cs)); [reflexivity|lia]. Qed.
Print Assumptions C40_cnot_one_control.
Lemma dagger_S : mmul mSd mS = mI. Proof. meq; unfold mmul, mSd, mS, mI, diag, Ci, Cmult, Cplus, Copp, RtoC; cbn; f_equal; ring. Qed.
Lemma dagger_T : mmul mTd mT = mI.
Proof. unfold mTd, mT, mI. rewrite mmul_diag. f_equal; [ring|]. rewrite Cmult_comm. apply w_wd. Qed.
Theorem C40_daggers_undo : forall r L s, tidy s -> live s L -> incl r L -> NoDup r -> r <> [] ->
  does s L (r <- g_s (aco 0) r ;; g_s_dagger (aco 0) r) r L (fun psi => psi) /\
  does s L (r <- g_t (aco 0) r ;; g_t_dagger (aco 0) r) r L (fun psi => psi).
Proof.
  intros r L s T Lv I N Hr. split; (eapply does_eq; [dbind; [|intros s1 C1 T1 L1]|]).
  - apply (gate_does US); auto.
  - apply s_dagger_does; assumption.
  - intros psi. cbv beta. cbn [gate_mat]. rewrite each_mul, dagger_S by exact N. apply onall_id.
  - apply (gate_does UT); auto.
  - apply t_dagger_does; assumption.
  - intros psi. cbv beta. cbn [gate_mat]. rewrite each_mul, dagger_T by exact N. apply onall_id.
Qed.
Print Assumptions C40_daggers_undo.
(** Three qubits in use, one pooled temporary. *)
Definition ex_st : st := mkSt (mkB [([0], mkCO 1 (OUnit UH))] 4 [[1]] 0) [].
Lemma ex_tidy : tidy ex_st. Proof. split; [repeat constructor|]. split; [nd|]. intros q [<-|[]]. cbn. lia. Qed.
Lemma ex_live : live ex_st [3; 0; 2]. Proof. split; [nd|]. intros q Hq [X|[<-|[]]]; cbn in *; intuition lia. Qed.
Example C40_example : tidy ex_st /\ live ex_st [3; 0; 2] /\ incl [2; 3] [3; 0; 2] /\ NoDup [2; 3].
Proof. split; [exact ex_tidy|]. split; [exact ex_live|]. split; [inc|nd]. Qed.

(** *** C41 *)
Theorem C41_swap : forall s la lb, tidy s -> length la = length lb -> la <> [] -> live s (la ++ lb) ->
  does s (la ++ lb) (swap (aco 0) la lb) (la, lb) (la ++ lb) (fun psi x => psi (exchange la lb x)).
Proof. exact local_swap_does. Qed.
Print Assumptions C41_swap.
Theorem C41_swap_sizes : forall s la lb, length la <> length lb -> swap (aco 0) la lb s = Fail ESizes s.
Proof. intros. apply swap_sizes. assumption. Qed.
Print Assumptions C41_swap_sizes.
Example C41_example : live (fresh 5) ([4; 1] ++ [0; 3]) /\ map (exchange [4; 1] [0; 3] (fun q => q <? 2)) [0; 1; 2; 3; 4] = [false; false; false; true; true].
Proof. split; [apply fresh_live; [nd|intros q Hq; cbn in Hq; intuition lia]|reflexivity]. Qed.

(** *** C42 *)
Theorem C42_toffoli : forall s cs t, tidy s -> live s (cs ++ [t]) -> cs <> [] ->
  does s (cs ++ [t]) (toffoli (aco 0) cs [t]) (cs, [t]) (cs ++ [t]) (ctl_not cs t).
Proof. exact toffoli_one. Qed.
Print Assumptions C42_toffoli.
Example C42_example : tidy ex_st /\ live ex_st ([0; 3] ++ [2]).
Proof. split; [exact ex_tidy|]. eapply live_perm; [exact ex_live|]. apply (Permutation.Permutation_middle [0] [2] 3). Qed.

(** *** C43: false, the targets pick up a phase; exactly: *)
Theorem C43_toffoli_multi_exact : forall s cs ts, tidy s -> live s (cs ++ ts) -> cs <> [] -> ts <> [] ->
  does s (cs ++ ts) (toffoli (aco 0) cs ts) (cs, ts) (cs ++ ts)
    (ctl_nots_phase cs ts (if length cs =? 1 then RtoC 1 else cpow (Copp Ci) (length ts - 1))).
Proof. exact toffoli_does. Qed.
Print Assumptions C43_toffoli_multi_exact.
Theorem C43_toffoli_multi_partial : forall s cs ts, tidy s -> live s (cs ++ ts) -> cs <> [] -> ts <> [] ->
  length cs = 1 \/ length ts = 1 \/ (exists k, length ts = 4 * k + 1) ->
  does s (cs ++ ts) (toffoli (aco 0) cs ts) (cs, ts) (cs ++ ts) (ctl_nots cs ts).
Proof.
  intros s cs ts T Lv Hc Ht H. eapply does_eq; [apply toffoli_does; assumption|]. intros psi.
  assert (X : toff_phase cs ts = RtoC 1); [|rewrite X; apply nots_phase_1]. unfold toff_phase.
  destruct (Nat.eqb_spec (length cs) 1); [reflexivity|]. assert (H' : exists k, length ts = 4 * k + 1) by (destruct H as [H|[H|H]]; [lia|exists 0; lia|exact H]).
  destruct H' as (k & ->). replace (4 * k + 1 - 1) with (4 * k) by lia. clear. induction k as [|k IH]; [reflexivity|].
  replace (4 * S k) with (S (S (S (S (4 * k))))) by lia. cbn [cpow]. rewrite IH. unfold Ci, Copp, Cmult, RtoC. cbn. f_equal; ring.
Qed.
Print Assumptions C43_toffoli_multi_partial.
Lemma loads_one q : loads [([q], 1)] (fun p => p =? q).
Proof.
  split.
  - intros r v [E|[]]; inversion E; subst. intros [|j] Hj; cbn in *; [apply Nat.eqb_refl|lia].
  - intros p Hp. apply Nat.eqb_neq. intros ->. apply (Hp [q] 1); cbn; auto.
Qed.
Lemma range_one n q (v0 : nat) : q < n -> forall r (v : nat), In (r, v) [([q], v0)] -> in_range n r.
Proof. intros H r v [E|[]]; inversion E; subst. intros p [<-|[]]. exact H. Qed.
(** Controls (|0>+|1>)/sqrt 2 and |1>: amplitude 1/sqrt 2 stays on 0100, but -i/sqrt 2 reaches 1111. *)
Theorem C43_toffoli_multi_refuted : exists s' v draws,
  (r <- g_h (aco 0) [0] ;; toffoli (aco 0) [0; 1] [2; 3]) (mkSt (mkB [] 4 [] 0) []) = Ret ([0; 1], [2; 3]) s' /\
  calculate_state_with_init (bld s') [([1], 1)] draws = Ok (v, []) /\
  nth (enc (bn (bld s')) (fun q => q =? 1)) v (RtoC 0) = RtoC (/ sqrt 2) /\
  nth (enc (bn (bld s')) (fun q => q <? 4)) v (RtoC 0) = Cmult (Copp Ci) (RtoC (/ sqrt 2)).
Proof.
  assert (Lf : live (fresh 4) ([0; 1] ++ [2; 3])) by (apply fresh_live; [nd|intros q Hq; cbn in Hq; intuition lia]).
  destruct (does_amplitudes 4 ([0; 1] ++ [2; 3]) (r <- g_h (aco 0) [0] ;; toffoli (aco 0) [0; 1] [2; 3]) ([0; 1], [2; 3]) ([0; 1] ++ [2; 3])
    (fun psi => ctl_nots_phase [0; 1] [2; 3] (toff_phase [0; 1] [2; 3]) (each mH [0] psi)) [([1], 1)] (fun q => q =? 1) (fun _ => R0)) as (s' & v & E1 & Hn & E2 & E3).
  - dbind; [apply (gate_does UH); [reflexivity|apply fresh_tidy|exact Lf|inc|nd|discriminate]|]. intros s1 C1 T1 L1.
    apply toffoli_does; [exact T1|exact L1|discriminate|discriminate].
  - apply range_one. lia.
  - apply loads_one.
  - exists s', v, (fun _ => R0). split; [exact E1|]. split; [exact E2|]. rewrite !E3. unfold ctl_nots_phase, toff_phase, each, on1. cbn [fold_left length Nat.eqb Nat.sub cpow].
    split.
    + cbn [forallb andb Nat.eqb]. rewrite (ket_eq _ _ (upd _ 0 false)), (ket_ne _ _ (upd _ 0 true) 0); [|lia|discriminate|intros [|[|q]]; reflexivity]. unfold mH. cbn. ring.
    + unfold flips at 1 3. cbn [existsb Nat.eqb orb forallb]. change (0 <? 4) with true. change (1 <? 4) with true. cbn [andb xorb].
      rewrite (ket_eq _ _ (upd _ 0 false)), (ket_ne _ _ (upd _ 0 true) 0); [|lia|discriminate|intros [|[|[|[|q]]]]; reflexivity]. unfold mH. cbn. ring.
Qed.
Print Assumptions C43_toffoli_multi_refuted.
Example C43_example : tidy ex_st /\ live ex_st ([0] ++ [3; 2]).
Proof. split; [exact ex_tidy|]. eapply live_perm; [exact ex_live|]. apply Permutation.perm_swap. Qed.

(** *** C44: holds for one qubit; *)
Theorem C44_rz_partial : forall t q L s, tidy s -> live s L -> In q L -> does s L (rz [q] t) [q] L (each (mRz t) [q]).
Proof. exact rz_does. Qed.
Print Assumptions C44_rz_partial.
(** for two or more, rz succeeds and every simulation panics afterwards, whatever follows. *)
Theorem C44_rz_refuted : forall r t s, NoDup r -> 2 <= length r ->
  exists s', rz r t s = Ret r s' /\
    forall b p it draws, pipeline b = pipeline (bld s') ++ p -> (forall rr v, In (rr, v) it -> in_range (bn b) rr) ->
      exists pa, calculate_state_with_init b it draws = Panic pa.
Proof.
  intros r t s N H. destruct (rz_multi r t s N H) as (s' & E1 & E2). exists s'. split; [exact E1|]. intros b p it draws Hp R.
  eapply rz_multi_panics; [|rewrite Hp, E2, <- app_assoc; reflexivity|exact R]. lia.
Qed.
Print Assumptions C44_rz_refuted.
Example C44_example : NoDup [2; 0] /\ 2 <= length [2; 0] /\ In 2 [3; 0; 2].
Proof. split; [nd|]. split; [cbn; lia|cbn; tauto]. Qed.

(** *** C45: rx holds, for rx_ratio too (ratio in radians); *)
Theorem C45_rx : forall t q L s, tidy s -> live s L -> In q L -> does s L (rx [q] t) [q] L (each (mRx t) [q]).
Proof. exact rx_does. Qed.
Print Assumptions C45_rx.
Theorem C45_rx_ratio : forall t q L s, tidy s -> live s L -> In q L -> does s L (rx_ratio [q] t) [q] L (each (mRx (Q2R t)) [q]).
Proof. exact rx_ratio_does. Qed.
Print Assumptions C45_rx_ratio.
(** ry turns by the opposite angle, ry_ratio by the given one. *)
Theorem C45_ry_opposite : forall t q L s, tidy s -> live s L -> In q L -> does s L (ry [q] t) [q] L (each (mRy (- t)) [q]).
Proof. exact ry_does. Qed.
Print Assumptions C45_ry_opposite.
Theorem C45_ry_ratio : forall t q L s, tidy s -> live s L -> In q L -> does s L (ry_ratio [q] t) [q] L (each (mRy (Q2R t)) [q]).
Proof. exact ry_ratio_does. Qed.
Print Assumptions C45_ry_ratio.
Lemma one_live : live (fresh 1) [0]. Proof. apply fresh_live; [nd|intros q [<-|[]]; lia]. Qed.
(** ry(pi) sends |0> to -|1>; the rotation about y sends it to |1>. *)
Theorem C45_ry_refuted : exists s' v draws, ry [0] PI (mkSt (mkB [] 1 [] 0) []) = Ret [0] s' /\ calculate_state (bld s') draws = Ok (v, []) /\
  nth (enc (bn (bld s')) (fun q => q =? 0)) v (RtoC 0) = RtoC (-1) /\ mRy PI true false = RtoC 1.
Proof.
  destruct (does_amplitudes 1 [0] (ry [0] PI) [0] [0] (each (mRy (- PI)) [0]) [] (fun _ => false) (fun _ => R0)) as (s' & v & E1 & Hn & E2 & E3).
  - apply ry_does; [apply fresh_tidy|apply one_live|left; reflexivity].
  - intros ? ? [].
  - split; [intros ? ? []|reflexivity].
  - exists s', v, (fun _ => R0). split; [exact E1|]. split; [exact E2|]. rewrite E3. unfold each, on1. cbn [fold_left].
    rewrite (ket_eq _ _ (upd _ 0 false)), (ket_ne _ _ (upd _ 0 true) 0); [|lia|discriminate|intros [|q]; reflexivity]. unfold mRy. cbn [Nat.eqb eqb].
    replace (- PI / 2)%R with (- (PI / 2))%R by field. rewrite sin_neg, cos_neg, sin_PI2, cos_PI2. split; [rewrite rn_1, RtoC_opp; ring|reflexivity].
Qed.
Print Assumptions C45_ry_refuted.
Example C45_example : tidy ex_st /\ live ex_st [3; 0; 2] /\ In 0 [3; 0; 2].
Proof. split; [exact ex_tidy|]. split; [exact ex_live|cbn; tauto]. Qed.

(** *** C46: the angle is 1/m, not pi/m *)
Theorem C46_rz_pi_by_exact : forall m q L s, (m <> 0)%Z -> (m <> - 2 ^ 63)%Z -> tidy s -> live s L -> In q L -> does s L (rz_pi_by [q] m) [q] L (each (mRz (/ IZR m)) [q]).
Proof. exact rz_pi_by_does. Qed.
Print Assumptions C46_rz_pi_by_exact.
Theorem C46_rx_ry_pi_by_exact : forall m q L s, (m <> 0)%Z -> (m <> - 2 ^ 63)%Z -> tidy s -> live s L -> In q L ->
  does s L (rx_pi_by [q] m) [q] L (each (mRx (/ IZR m)) [q]) /\ does s L (ry_pi_by [q] m) [q] L (each (mRy (/ IZR m)) [q]).
Proof. intros. split; [apply rx_pi_by_does|apply ry_pi_by_does]; assumption. Qed.
Print Assumptions C46_rx_ry_pi_by_exact.
Theorem C46_zero_partial : forall r s, rz_pi_by r 0 s = Fail EZeroRatio s.
Proof. exact rz_pi_by_0. Qed.
Print Assumptions C46_zero_partial.
(** rx_pi_by and ry_pi_by panic on 0. *)
Theorem C46_rx_ry_zero_panic : forall r s, rx_pi_by r 0 s = Crash PDivZero /\ ry_pi_by r 0 s = Crash PDivZero.
Proof. intros. split; reflexivity. Qed.
Print Assumptions C46_rx_ry_zero_panic.
(** All three panic on i64::MIN. *)
Theorem C46_min_panic : forall r s, rz_pi_by r (- 2 ^ 63) s = Crash PUnderflow /\ rx_pi_by r (- 2 ^ 63) s = Crash PUnderflow /\ ry_pi_by r (- 2 ^ 63) s = Crash PUnderflow.
Proof. intros. repeat split. Qed.
Print Assumptions C46_min_panic.
Lemma cos_half_ne : cos (1 / 2) <> 0%R.
Proof. pose proof PI2_1. apply Rgt_not_eq, cos_gt_0; unfold Rdiv in *; lra. Qed.
Theorem C46_rz_pi_by_refuted : exists s' v draws, rz_pi_by [0] 1 (mkSt (mkB [] 1 [] 0) []) = Ret [0] s' /\ calculate_state (bld s') draws = Ok (v, []) /\
  nth (enc (bn (bld s')) (fun _ => false)) v (RtoC 0) = expi (- (1 / 2)) /\ expi (- (1 / 2)) <> mRz (PI / IZR 1) false false.
Proof.
  destruct (does_amplitudes 1 [0] (rz_pi_by [0] 1) [0] [0] (each (mRz (/ IZR 1)) [0]) [] (fun _ => false) (fun _ => R0)) as (s' & v & E1 & Hn & E2 & E3).
  - apply rz_pi_by_does; [discriminate|discriminate|apply fresh_tidy|apply one_live|left; reflexivity].
  - intros ? ? [].
  - split; [intros ? ? []|reflexivity].
  - exists s', v, (fun _ => R0). split; [exact E1|]. split; [exact E2|]. rewrite E3. unfold each, on1. cbn [fold_left].
    rewrite (ket_eq _ _ (upd _ 0 false)), (ket_ne _ _ (upd _ 0 true) 0); [|lia|discriminate|intros [|q]; reflexivity]. split.
    + unfold mRz, diag. cbn [eqb]. replace (/ 1 / 2)%R with (1 / 2)%R by field. ring.
    + unfold mRz, diag, expi. cbn [eqb]. intros X. apply (f_equal fst) in X. cbn [fst] in X. rewrite !cos_neg in X.
      replace (PI / 1 / 2)%R with (PI / 2)%R in X by field. rewrite cos_PI2 in X. exact (cos_half_ne X).
Qed.
Print Assumptions C46_rz_pi_by_refuted.
Example C46_example : tidy ex_st /\ live ex_st [3; 0; 2] /\ In 3 [3; 0; 2] /\ (-4 <> 0)%Z /\ (-4 <> - 2 ^ 63)%Z.
Proof. split; [exact ex_tidy|]. split; [exact ex_live|]. split; [cbn; tauto|]. split; discriminate. Qed.
