(** Rotations. *)
From Coq Require Import Reals QArith Qreals ZArith FunctionalExtensionality Lra Permutation.
From Coquelicot Require Import Complex.
From Verif Require Import Base BitsSpec BitsProofs OpsModel OpsSpec StateOpsModel Instances BuilderModel RegProofs SimModel DenSpec DenProofs SimSpec SimProofs LocalProofs
  RunSpec RunProofs GateProofs ToffoliProofs.
Local Open Scope nat_scope.
Local Open Scope mon_scope.

(** Rz objects on one qubit. *)
Lemma rz_obj_does t q L s : tidy s -> live s L -> In q L ->
  does s L (local_aco [q] (mkCO (length [q]) (OUnit (URz t)))) [q] L (each (mRz (angle t)) [q]).
Proof.
  intros T Lv I. apply (local_aco_does (URz t)); try assumption; [reflexivity|intros p [<-|[]]; exact I|repeat constructor; intros []|discriminate].
Qed.
Lemma rz_does t q L s : tidy s -> live s L -> In q L -> does s L (rz [q] t) [q] L (each (mRz t) [q]).
Proof. intros. apply does_unwrap. apply (rz_obj_does (Floating t)); assumption. Qed.
Lemma rz_ratio_does t q L s : tidy s -> live s L -> In q L -> does s L (rz_ratio [q] t) [q] L (each (mRz (Q2R t)) [q]).
Proof. intros. apply rz_does; assumption. Qed.

Lemma ratio_1_ok m : (m <> 0)%Z -> (m <> - 2 ^ 63)%Z -> exists q, ratio_1 m = Ok q /\ Q2R q = (/ IZR m)%R.
Proof.
  intros H H63. unfold ratio_1. rewrite (proj2 (Z.eqb_neq _ _) H), (proj2 (Z.eqb_neq _ _) H63). eexists. split; [reflexivity|]. unfold Q2R. cbn [Qnum Qden].
  destruct m as [|p|p]; [congruence| |]; cbn.
  - field. apply not_0_IZR. discriminate.
  - change (Z.neg p) with (- Z.pos p)%Z. rewrite opp_IZR. change (IZR (-1)) with (-1)%R. field. apply not_0_IZR. discriminate.
Qed.
Lemma rz_pi_by_does m q L s : (m <> 0)%Z -> (m <> - 2 ^ 63)%Z -> tidy s -> live s L -> In q L -> does s L (rz_pi_by [q] m) [q] L (each (mRz (/ IZR m)) [q]).
Proof.
  intros Hm Hm3 T Lv I. unfold rz_pi_by. rewrite (proj2 (Z.eqb_neq _ _) Hm). destruct (ratio_1_ok m Hm Hm3) as (r & E & Er).
  eapply quiet_then_does; [apply quiet_lift; [exact E|exact T|exact Lv]|apply incl_refl|apply incl_refl|]. intros s1 C1 T1 L1.
  rewrite <- Er. apply (rz_obj_does (PiRational r)); assumption.
Qed.
Lemma rz_pi_by_0 r s : rz_pi_by r 0 s = Fail EZeroRatio s.
Proof. reflexivity. Qed.
Lemma rx_pi_by_0 r s : rx_pi_by r 0 s = Crash PDivZero.
Proof. reflexivity. Qed.
Lemma ry_pi_by_0 r s : ry_pi_by r 0 s = Crash PDivZero.
Proof. reflexivity. Qed.

(** Matrices. *)
Lemma expi_half a : Cplus (expi a) (expi (- a)) = RtoC (2 * cos a).
Proof. unfold expi, Cplus, RtoC. cbn. rewrite cos_neg, sin_neg. f_equal; ring. Qed.
Lemma rx_mat t : mmul mH (mmul (mRz t) mH) = mRx t.
Proof.
  unfold mRz. rewrite mmul_H_diag_H. meq; unfold had, mRx, expi, Cmult, Cplus, Cminus, Copp, RtoC, Ci; cbn; rewrite ?cos_neg, ?sin_neg; f_equal; field.
Qed.
Lemma rx_mat2 t m : mmul mH (mmul (mRz t) (mmul mH m)) = mmul (mRx t) m.
Proof. rewrite <- rx_mat, <- !mmul_assoc. reflexivity. Qed.
Lemma ry_mat t : mmul mS (mmul (mRx t) mSd) = mRy t.
Proof. meq; unfold mmul, mS, mSd, mRx, mRy, diag, Cmult, Cplus, Cminus, Copp, RtoC, Ci; cbn; f_equal; ring. Qed.
Lemma ry_mat' t : mmul mSd (mmul (mRx t) mS) = mRy (- t).
Proof.
  meq; unfold mmul, mS, mSd, mRx, mRy, diag, Cmult, Cplus, Cminus, Copp, RtoC, Ci; cbn; replace (- t / 2)%R with (- (t / 2))%R by field; rewrite ?cos_neg, ?sin_neg; f_equal; ring.
Qed.

Lemma rx_like_does (m : reg -> M reg) t q L : (forall s, tidy s -> live s L -> does s L (m [q]) [q] L (each (mRz t) [q])) ->
  forall s, tidy s -> live s L -> In q L ->
  does s L (r <- g_h local_aco [q] ;; r <- m r ;; g_h local_aco r) [q] L (each (mRx t) [q]).
Proof.
  intros Hm s T Lv I. assert (I1 : incl [q] L) by (intros p [<-|[]]; exact I). assert (N1 : NoDup [q]) by (repeat constructor; intros []).
  eapply does_eq. {
    dbind; [apply (gate_does UH); [reflexivity|exact T|exact Lv|exact I1|exact N1|discriminate]|]. intros s1 C1 T1 L1.
    dbind; [apply Hm; assumption|]. intros s2 C2 T2 L2.
    apply (gate_does UH); [reflexivity|exact T2|exact L2|exact I1|exact N1|discriminate]. }
  intros psi. cbv beta. cbn [gate_mat]. rewrite !each_mul by exact N1. rewrite <- !mmul_assoc, rx_mat. reflexivity.
Qed.
Lemma rx_does t q L s : tidy s -> live s L -> In q L -> does s L (rx [q] t) [q] L (each (mRx t) [q]).
Proof. intros T Lv I. apply (rx_like_does (fun r => rz r t)); try assumption. intros. apply rz_does; assumption. Qed.
Lemma rx_ratio_does t q L s : tidy s -> live s L -> In q L -> does s L (rx_ratio [q] t) [q] L (each (mRx (Q2R t)) [q]).
Proof. intros T Lv I. apply (rx_like_does (fun r => rz_ratio r t)); try assumption. intros. apply rz_ratio_does; assumption. Qed.

(** ry turns the other way round ... *)
Lemma ry_does t q L s : tidy s -> live s L -> In q L -> does s L (ry [q] t) [q] L (each (mRy (- t)) [q]).
Proof.
  intros T Lv I. assert (I1 : incl [q] L) by (intros p [<-|[]]; exact I). assert (N1 : NoDup [q]) by (repeat constructor; intros []).
  eapply does_eq. {
    dbind; [apply s_dagger_does; [exact T|exact Lv|exact I1|exact N1|discriminate]|]. intros s1 C1 T1 L1.
    dbind; [apply (gate_does UH); [reflexivity|exact T1|exact L1|exact I1|exact N1|discriminate]|]. intros s2 C2 T2 L2.
    dbind; [apply rz_does; assumption|]. intros s3 C3 T3 L3.
    dbind; [apply (gate_does UH); [reflexivity|exact T3|exact L3|exact I1|exact N1|discriminate]|]. intros s4 C4 T4 L4.
    apply (gate_does US); [reflexivity|exact T4|exact L4|exact I1|exact N1|discriminate]. }
  intros psi. cbv beta. cbn [gate_mat]. rewrite !each_mul by exact N1. rewrite <- !mmul_assoc, rx_mat2, ry_mat. reflexivity.
Qed.
(** ... and ry_ratio the right way, by the ratio in radians. *)
Lemma ry_ratio_does t q L s : tidy s -> live s L -> In q L -> does s L (ry_ratio [q] t) [q] L (each (mRy (Q2R t)) [q]).
Proof.
  intros T Lv I. assert (I1 : incl [q] L) by (intros p [<-|[]]; exact I). assert (N1 : NoDup [q]) by (repeat constructor; intros []).
  eapply does_eq. {
    dbind; [apply (gate_does US); [reflexivity|exact T|exact Lv|exact I1|exact N1|discriminate]|]. intros s1 C1 T1 L1.
    dbind; [apply (gate_does UH); [reflexivity|exact T1|exact L1|exact I1|exact N1|discriminate]|]. intros s2 C2 T2 L2.
    dbind; [apply rz_ratio_does; assumption|]. intros s3 C3 T3 L3.
    dbind; [apply (gate_does UH); [reflexivity|exact T3|exact L3|exact I1|exact N1|discriminate]|]. intros s4 C4 T4 L4.
    apply s_dagger_does; [exact T4|exact L4|exact I1|exact N1|discriminate]. }
  intros psi. cbv beta. cbn [gate_mat]. rewrite !each_mul by exact N1. rewrite <- !mmul_assoc, rx_mat2.
  rewrite ry_mat', Q2R_opp, Ropp_involutive. reflexivity.
Qed.
Lemma rx_pi_by_does m q L s : (m <> 0)%Z -> (m <> - 2 ^ 63)%Z -> tidy s -> live s L -> In q L -> does s L (rx_pi_by [q] m) [q] L (each (mRx (/ IZR m)) [q]).
Proof.
  intros Hm Hm3 T Lv I. unfold rx_pi_by. destruct (ratio_1_ok m Hm Hm3) as (r & E & Er).
  eapply quiet_then_does; [apply quiet_lift; [exact E|exact T|exact Lv]|apply incl_refl|apply incl_refl|]. intros s1 C1 T1 L1.
  rewrite <- Er. apply rx_ratio_does; assumption.
Qed.
Lemma ry_pi_by_does m q L s : (m <> 0)%Z -> (m <> - 2 ^ 63)%Z -> tidy s -> live s L -> In q L -> does s L (ry_pi_by [q] m) [q] L (each (mRy (/ IZR m)) [q]).
Proof.
  intros Hm Hm3 T Lv I. unfold ry_pi_by. destruct (ratio_1_ok m Hm Hm3) as (r & E & Er).
  eapply quiet_then_does; [apply quiet_lift; [exact E|exact T|exact Lv]|apply incl_refl|apply incl_refl|]. intros s1 C1 T1 L1.
  rewrite <- Er. apply ry_ratio_does; assumption.
Qed.

(** On a register of two or more qubits rz is recorded, and every simulation panics. *)
Lemma sim_bad_entry n draws p1 e p2 sm : (forall sm, exists er, sim_step n draws sm e = Err er) ->
  (exists er, foldM (sim_step n draws) (p1 ++ e :: p2) sm = Err er) \/ (exists pa, foldM (sim_step n draws) (p1 ++ e :: p2) sm = Panic pa).
Proof.
  intros He. revert sm. induction p1 as [|f p1 IH]; intros sm; cbn [app foldM].
  - destruct (He sm) as (er & ->). left. exists er. reflexivity.
  - destruct (sim_step n draws sm f) as [sm'|er|pa]; cbn [bind]; [apply IH|left; exists er; reflexivity|right; exists pa; reflexivity].
Qed.
Lemma rz_multi r t s : NoDup r -> 2 <= length r -> exists s', rz r t s = Ret r s' /\
  pipeline (bld s') = pipeline (bld s) ++ [(r, mkCO (length r) (OUnit (URz (Floating t))))].
Proof.
  intros N H. unfold rz, unwrapM. rewrite local_aco_ok; [|exact N|destruct r; cbn in H; [lia|discriminate]].
  unfold placed. cbn [co_n]. rewrite Nat.eqb_refl. destruct (length r =? 1) eqn:E; [apply Nat.eqb_eq in E; lia|].
  eexists. split; reflexivity.
Qed.
Lemma rz_multi_panics b r k t p1 p2 it draws : length r <> 1 -> pipeline b = p1 ++ (r, mkCO k (OUnit (URz t))) :: p2 ->
  (forall rr v, In (rr, v) it -> in_range (bn b) rr) -> 
  exists pa, calculate_state_with_init b it draws = Panic pa.
Proof.
  intros Hr Hp R. unfold calculate_state_with_init. 
  assert (X : exists i, initial_index (bn b) it = Ok i).
  { unfold initial_index. rewrite (mapM_ok (init_bits (bn b)) (fun rx => map (init_pair (bn b) (length (fst rx)) (snd rx)) (enumerate (rev (fst rx))))); [eexists; reflexivity|].
    intros [rr v] Hin. apply init_bits_ok. eapply R. exact Hin. }
  destruct X as (i & ->). cbn [bind]. destruct (idx (repeat (RtoC 0) (2 ^ bn b)) i) as [z|er|pa] eqn:Ei; cbn [bind].
  - destruct (sim_bad_entry (bn b) draws p1 (r, mkCO k (OUnit (URz t))) p2 (upd_nth i (RtoC 1) (repeat (RtoC 0) (2 ^ bn b)), repeat (RtoC 0) (2 ^ bn b), [])) as [(er & E)|(pa & E)].
    + intros [[st ar] ms]. unfold sim_step. cbn [co_obj unitary_op]. unfold make_matrix_op. 
      destruct (length r =? 0) eqn:E0; [eexists; reflexivity|].
      assert (Hb : (length [cis (- (rot_angle t * / 2)); RtoC 0; RtoC 0; cis (rot_angle t * / 2)] =? 2 ^ (2 * length r)) = false).
      { apply Nat.eqb_neq. cbn [length]. apply Nat.eqb_neq in E0. change 4 with (2 ^ 2). intros X. apply Nat.pow_inj_r in X; lia. }
      first [rewrite Hb | idtac]. eexists. reflexivity.
    + rewrite Hp, E. eexists. reflexivity.
    + rewrite Hp, E. eexists. reflexivity.
  - unfold idx in Ei. destruct (nth_error _ _); discriminate.
  - eexists. reflexivity.
Qed.
