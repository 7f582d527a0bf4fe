(** Properties C68-C70: matrices handed to the builder, and the default gate objects. *)
From Coq Require Import Reals Lra FunctionalExtensionality.
From Coquelicot Require Import Complex.
From Verif Require Import Base BitsSpec BitsProofs OpsModel OpsSpec OpsProofs ConjSpec Instances StateOpsModel BuilderModel RegProofs SimModel DefaultModel DenSpec DenProofs SimSpec UnitaryProofs SimProofs LocalProofs
  RunSpec RunProofs GateProofs LinkProofs RotProofs SubProofs5.
Local Open Scope nat_scope.
Local Open Scope mon_scope.

(** The matrix with the given entries, row by row. *)
Definition rows (k : nat) (data : list C) : list bool -> list bool -> C := fun r c => nth (be r * 2 ^ k + be c) data (RtoC 0).

(** The call and what it appends, whatever the data. *)
Lemma apply_matrix_runs r data s : NoDup r -> r <> [] ->
  apply_matrix (aco 0) r data s = Ret r (appended s [(r, mkCO (length r) (OUnit (UMAT data)))]).
Proof.
  intros N Hr. unfold apply_matrix. change (aco 0) with local_aco. rewrite local_aco_ok by assumption. unfold placed. cbn [co_n].
  destruct (length r =? 1) eqn:E; [|rewrite Nat.eqb_refl; reflexivity]. apply Nat.eqb_eq in E. destruct r as [|q [|? ?]]; try discriminate E. reflexivity.
Qed.
Lemma local_act r M : local r (act CN r M).
Proof.
  intros q psi Hq. rewrite !clean1. intros H x Hx. unfold act. apply (big_zero CN CN_laws). intros c _.
  rewrite H; [cbn; ring|]. rewrite updl_notin by exact Hq. exact Hx.
Qed.
(** An entry the simulation rejects: the unwrap around it panics. *)
Lemma bad_entry_panics b p1 e p2 it draws : (forall sm, exists er, sim_step (bn b) draws sm e = Err er) -> pipeline b = p1 ++ e :: p2 ->
  (forall rr v, In (rr, v) it -> in_range (bn b) rr) -> exists pa, calculate_state_with_init b it draws = Panic pa.
Proof.
  intros He Hp R. unfold calculate_state_with_init.
  assert (X : exists i, initial_index (bn b) it = Ok i).
  { unfold initial_index. rewrite (mapM_ok (init_bits (bn b)) (fun rx => map (init_pair (bn b) (length (fst rx)) (snd rx)) (enumerate (rev (fst rx))))); [eexists; reflexivity|].
    intros [rr v] Hin. apply init_bits_ok. eapply R. exact Hin. }
  destruct X as (i & ->). cbn [bind]. destruct (idx (repeat (RtoC 0) (2 ^ bn b)) i) as [z|er|pa] eqn:Ei; cbn [bind].
  - rewrite Hp. destruct (sim_bad_entry (bn b) draws p1 e p2 (upd_nth i (RtoC 1) (repeat (RtoC 0) (2 ^ bn b)), repeat (RtoC 0) (2 ^ bn b), []) He) as [(er & E)|(pa & E)];
      rewrite E; eexists; reflexivity.
  - unfold idx in Ei. destruct (nth_error _ _); discriminate.
  - eexists. reflexivity.
Qed.
(** A matrix object of the wrong size: every simulation panics. *)
Lemma bad_matrix_panics b r k data p1 p2 it draws : length data <> 2 ^ (2 * length r) -> pipeline b = p1 ++ (r, mkCO k (OUnit (UMAT data))) :: p2 ->
  (forall rr v, In (rr, v) it -> in_range (bn b) rr) -> exists pa, calculate_state_with_init b it draws = Panic pa.
Proof.
  intros Hr Hp R. apply (bad_entry_panics b p1 (r, mkCO k (OUnit (UMAT data))) p2); [|exact Hp|exact R].
  intros [[st ar] ms]. unfold sim_step. cbn [co_obj unitary_op]. unfold make_matrix_op. destruct (length r =? 0); [eexists; reflexivity|].
  apply Nat.eqb_neq in Hr. first [rewrite Hr | idtac]. eexists. reflexivity.
Qed.

(** *** C68 *)
Theorem C68_apply_matrix : forall r data L s, tidy s -> live s L -> incl r L -> NoDup r -> r <> [] ->
  length data = 2 ^ (2 * length r) -> unitary2 CN Cconj (length r) (rows (length r) data) ->
  does s L (apply_matrix (aco 0) r data) r L (act CN r (rows (length r) data)).
Proof.
  intros r data L s T Lv I N Hr Hd U.
  pose proof (does_push s r (mkCO (length r) (OUnit (UMAT data))) L T Lv I N (conj Hr Hd)) as H.
  destruct H as (s1 & p & E & H); [repeat split; apply U|eapply local_incl; [exact I|apply local_act]|].
  exists s1, p. split; [|exact H]. rewrite apply_matrix_runs by assumption. inversion E. reflexivity.
Qed.
Print Assumptions C68_apply_matrix.
(** Any matrix of the right size, unitary or not, after any circuit of unitaries. *)
Theorem C68_simulated : forall r data s it x draws, NoDup r -> r <> [] -> in_range (bn (bld s)) r -> length data = 2 ^ (2 * length r) ->
  (forall r v, In (r, v) it -> in_range (bn (bld s)) r) -> loads it x ->
  Forall (wf_entry (bn (bld s))) (pipeline (bld s)) -> Forall plain_entry (pipeline (bld s)) ->
  exists s' v, apply_matrix (aco 0) r data s = Ret r s' /\ calculate_state_with_init (bld s') it draws = Ok (v, []) /\ bn (bld s') = bn (bld s) /\
    st_of CN (bn (bld s)) v = act CN r (rows (length r) data) (den (pipeline (bld s)) (ket (bn (bld s)) x)).
Proof.
  intros r data s it x draws N Hr R Hd Hit Hl W Pl. rewrite apply_matrix_runs by assumption.
  destruct (simulate_ok (bld (appended s [(r, mkCO (length r) (OUnit (UMAT data)))])) it x draws) as (v & E1 & _ & E2).
  - exact Hit.
  - exact Hl.
  - cbn. apply Forall_app. split; [exact W|]. constructor; [|constructor]. split; [exact N|]. split; [exact R|]. split; assumption.
  - cbn. apply Forall_app. split; [exact Pl|]. constructor; [exact I|constructor].
  - exists (appended s [(r, mkCO (length r) (OUnit (UMAT data)))]), v. split; [reflexivity|]. split; [exact E1|]. split; [reflexivity|].
    cbn in E2. rewrite E2. rewrite den_app. reflexivity.
Qed.
Print Assumptions C68_simulated.
(** Data of another length: the call succeeds, every later simulation panics. *)
Theorem C68_wrong_size : forall r data s, NoDup r -> r <> [] -> length data <> 2 ^ (2 * length r) ->
  exists s', apply_matrix (aco 0) r data s = Ret r s' /\
    forall b p it draws, pipeline b = pipeline (bld s') ++ p -> (forall rr v, In (rr, v) it -> in_range (bn b) rr) ->
      exists pa, calculate_state_with_init b it draws = Panic pa.
Proof.
  intros r data s N Hr Hd. eexists. split; [apply apply_matrix_runs; assumption|]. intros b p it draws Hp R.
  eapply bad_matrix_panics; [exact Hd| |exact R]. rewrite Hp. cbn. rewrite <- app_assoc. reflexivity.
Qed.
Print Assumptions C68_wrong_size.
(** A controlled Z written as a matrix is unitary; in other data row 1, column 2 is entry 6. *)
Definition cz_data : list C := map RtoC [1;0;0;0; 0;1;0;0; 0;0;1;0; 0;0;0;-1]%R.
Example C68_example : length cz_data = 2 ^ (2 * length [3; 1]) /\ unitary2 CN Cconj 2 (rows 2 cz_data) /\
  rows 2 [RtoC 0; RtoC 0; RtoC 0; RtoC 0; RtoC 0; RtoC 0; Ci; RtoC 0] [false; true] [true; false] = Ci.
Proof.
  split; [reflexivity|]. split; [|reflexivity].
  assert (A : forall r c, length r = 2 -> length c = 2 -> adj Cconj (rows 2 cz_data) r c = rows 2 cz_data r c).
  { intros r c Hr Hc. destruct r as [|r0 [|r1 [|? ?]]]; try discriminate Hr. destruct c as [|c0 [|c1 [|? ?]]]; try discriminate Hc.
    unfold adj. destruct r0, r1, c0, c1; cbn; apply Cconj_RtoC. }
  assert (U : unitary_mat CN Cconj 2 (rows 2 cz_data)).
  { intros c1 c2 H1 H2. destruct c1 as [|a0 [|a1 [|? ?]]]; try discriminate H1. destruct c2 as [|b0 [|b1 [|? ?]]]; try discriminate H2.
    destruct a0, a1, b0, b1; cbn; rewrite ?Cconj_RtoC; apply injective_projections; cbn; ring. }
  split; [exact U|]. eapply unitary_ext; [|exact U]. intros r c Hr Hc. symmetry. apply A; assumption.
Qed.

(** *** C69: false for two qubits or more: the object is given the size of the register. *)
Theorem C69_broadcast_refuted : forall r data s, NoDup r -> 2 <= length r -> length data = 4 ->
  exists s', broadcast_single_qubit_matrix (aco 0) r data s = Ret r s' /\
    forall b p it draws, pipeline b = pipeline (bld s') ++ p -> (forall rr v, In (rr, v) it -> in_range (bn b) rr) ->
      exists pa, calculate_state_with_init b it draws = Panic pa.
Proof.
  intros r data s N Hr Hd. destruct (C68_wrong_size r data s N) as (s' & E & H); [intros ->; cbn in Hr; lia| |].
  - rewrite Hd. change 4 with (2 ^ 2). intros X. apply Nat.pow_inj_r in X; lia.
  - exists s'. split; [|exact H]. unfold broadcast_single_qubit_matrix, unwrapM. rewrite E. reflexivity.
Qed.
Print Assumptions C69_broadcast_refuted.
Theorem C69_broadcast_partial : forall (m : mat1) q L s, tidy s -> live s L -> In q L -> unitary2 CN Cconj 1 (rows 1 [m false false; m false true; m true false; m true true]) ->
  does s L (broadcast_single_qubit_matrix (aco 0) [q] [m false false; m false true; m true false; m true true]) [q] L (each m [q]).
Proof.
  intros m q L s T Lv I U. apply does_unwrap. eapply does_eq.
  - apply C68_apply_matrix; [exact T|exact Lv|intros p [<-|[]]; exact I|repeat constructor; intros []|discriminate|reflexivity|exact U].
  - intros psi. exact (uden_mat m q psi).
Qed.
Print Assumptions C69_broadcast_partial.
Definition unitary1_mat (m : mat1) : Prop :=
  Cplus (Cmult (Cconj (m false false)) (m false false)) (Cmult (Cconj (m true false)) (m true false)) = RtoC 1 /\
  Cplus (Cmult (Cconj (m false true)) (m false true)) (Cmult (Cconj (m true true)) (m true true)) = RtoC 1 /\
  Cplus (Cmult (Cconj (m false false)) (m false true)) (Cmult (Cconj (m true false)) (m true true)) = RtoC 0 /\
  Cplus (Cmult (Cconj (m false true)) (m false false)) (Cmult (Cconj (m true true)) (m true false)) = RtoC 0.
Definition list1 (m : mat1) : list C := [m false false; m false true; m true false; m true true].
Lemma one_unitary2 (m : mat1) : unitary1_mat m -> unitary1_mat (fun r c => Cconj (m c r)) -> unitary2 CN Cconj 1 (rows 1 (list1 m)).
Proof.
  intros (A1 & A2 & A3 & A4) (B1 & B2 & B3 & B4).
  assert (E : forall r c, length r = 1 -> length c = 1 -> rows 1 (list1 m) r c = mat_of m r c).
  { intros r c Hr Hc. destruct r as [|b [|? ?]]; try discriminate. destruct c as [|b' [|? ?]]; try discriminate. destruct b, b'; reflexivity. }
  split.
  - eapply unitary_ext; [|apply (unitary1 m); assumption]. intros r c Hr Hc. symmetry. apply E; assumption.
  - eapply unitary_ext; [|apply (unitary1 (fun r c => Cconj (m c r))); assumption]. intros r c Hr Hc. unfold adj. rewrite E by assumption.
    destruct r as [|b [|? ?]]; try discriminate. destruct c as [|b' [|? ?]]; try discriminate. reflexivity.
Qed.
Ltac u1 := unfold unitary1_mat, mX, mY, mZ, mH, mS, mT, diag, expi, Ci, RtoC, Cmult, Cplus, Cconj, Copp; cbn; repeat split; apply injective_projections; cbn; nra.
Lemma sq2 : (/ sqrt 2 * / sqrt 2 = / 2)%R.
Proof. rewrite <- Rinv_mult, sqrt_sqrt; [reflexivity|lra]. Qed.
Lemma cs2 t : (cos t * cos t + sin t * sin t = 1)%R.
Proof. pose proof (sin2_cos2 t) as H. unfold Rsqr in H. lra. Qed.
(** The Hadamard matrix meets the hypothesis; [2; 0] meets those of the refutation. *)
Example C69_example : unitary2 CN Cconj 1 (rows 1 (list1 mH)) /\ NoDup [2; 0] /\ 2 <= length [2; 0].
Proof.
  split; [|split; [repeat constructor; cbn; intuition discriminate|cbn; lia]].
  pose proof sq2. apply one_unitary2; u1.
Qed.

(** *** C70 *)
Lemma default_does (m : mat1) co r L s : unitary2 CN Cconj 1 (rows 1 (list1 m)) -> co = matrix_to_circuitobject 1 (list1 m) ->
  tidy s -> live s L -> incl r L -> NoDup r -> r <> [] -> does s L (aco 0 r co) r L (each m r).
Proof.
  intros U -> T (N & Lv) I Nr Hr. set (co := matrix_to_circuitobject 1 (list1 m)).
  exists (appended s (map (fun q => ([q], co)) r)), (map (fun q => ([q], co)) r).
  split; [change (aco 0) with local_aco; rewrite local_aco_ok by assumption; reflexivity|].
  split; [reflexivity|]. split; [reflexivity|]. split; [cbn; lia|]. split; [reflexivity|].
  split; [|split; [|split; [exact T|split; [split; assumption|split; [tauto|split]]]]].
  - apply Forall_forall. intros e He. apply in_map_iff in He. destruct He as (q & <- & Hq). split; [repeat constructor; cbn; tauto|].
    split; [|split; [discriminate|reflexivity]]. intros q' [<-|[]]. cbn. specialize (Lv q (I q Hq)). unfold idle in Lv. lia.
  - apply Forall_forall. intros e He. apply in_map_iff in He. destruct He as (q & <- & Hq). repeat split; apply U.
  - eapply local_incl; [exact I|]. intros q psi. apply (local_onall (fun _ => m) r).
  - intros psi _. apply den_each. intros q phi. exact (uden_mat m q phi).
Qed.
(** The default objects are the gates: with C40, they do what [LocalBuilder]'s own objects do. *)
Theorem C70_default_gates : forall r L s, tidy s -> live s L -> incl r L -> NoDup r -> r <> [] ->
  does s L (aco 0 r default_x) r L (each mX r) /\ does s L (aco 0 r default_y) r L (each mY r) /\
  does s L (aco 0 r default_z) r L (each mZ r) /\ does s L (aco 0 r default_h) r L (each mH r) /\
  does s L (aco 0 r default_s) r L (each mS r) /\ does s L (aco 0 r default_t) r L (each mT r).
Proof.
  intros r L s T Lv I N Hr. pose proof sq2 as S2. pose proof (cs2 (PI / 4)) as CS.
  repeat split; apply default_does; try assumption; try (apply one_unitary2; u1); unfold default_x, default_y, default_z, default_h, default_s, default_t, list1, matrix_to_circuitobject;
    repeat f_equal; unfold mX, mY, mZ, mH, mS, mT, diag, cis, expi, RtoC, Cmult, Copp; cbn; apply injective_projections; cbn; ring.
Qed.
Print Assumptions C70_default_gates.
Theorem C70_default_cnot : forall c t L s, tidy s -> live s L -> In c L -> In t L -> c <> t ->
  does s L (aco 0 [c; t] default_cnot) [c; t] L (ctl_not [c] t).
Proof.
  intros c t L s T Lv Hc Ht Hct. eapply does_eq.
  - apply (C68_apply_matrix [c; t]); [exact T|exact Lv|intros q [<-|[<-|[]]]; assumption|repeat constructor; cbn; intuition congruence|discriminate|reflexivity|].
    assert (A : forall r c, length r = 2 -> length c = 2 -> adj Cconj (rows 2 [RtoC 1; RtoC 0; RtoC 0; RtoC 0; RtoC 0; RtoC 1; RtoC 0; RtoC 0; RtoC 0; RtoC 0; RtoC 0; RtoC 1; RtoC 0; RtoC 0; RtoC 1; RtoC 0]) r c
      = rows 2 [RtoC 1; RtoC 0; RtoC 0; RtoC 0; RtoC 0; RtoC 1; RtoC 0; RtoC 0; RtoC 0; RtoC 0; RtoC 0; RtoC 1; RtoC 0; RtoC 0; RtoC 1; RtoC 0] r c).
    { intros r k Hr Hk. destruct r as [|r0 [|r1 [|? ?]]]; try discriminate Hr. destruct k as [|c0 [|c1 [|? ?]]]; try discriminate Hk.
      unfold adj. destruct r0, r1, c0, c1; cbn; apply Cconj_RtoC. }
    assert (U : unitary_mat CN Cconj 2 (rows 2 [RtoC 1; RtoC 0; RtoC 0; RtoC 0; RtoC 0; RtoC 1; RtoC 0; RtoC 0; RtoC 0; RtoC 0; RtoC 0; RtoC 1; RtoC 0; RtoC 0; RtoC 1; RtoC 0])).
    { intros c1 c2 H1 H2. destruct c1 as [|a0 [|a1 [|? ?]]]; try discriminate H1. destruct c2 as [|b0 [|b1 [|? ?]]]; try discriminate H2.
      destruct a0, a1, b0, b1; cbn; rewrite ?Cconj_RtoC; apply injective_projections; cbn; ring. }
    split; [exact U|]. eapply unitary_ext; [|exact U]. intros r k Hr Hk. symmetry. apply A; assumption.
  - intros psi. extensionality x. unfold act, ctl_not, cflip, flip. cbn [map length bools]. cbn.
    assert (U : forall q b, x q = b -> upd x q b = x) by (intros q b <-; extensionality p; unfold upd; destruct (p =? q) eqn:E; [apply Nat.eqb_eq in E; subst; reflexivity|reflexivity]).
    destruct (x c) eqn:Ec, (x t) eqn:Et; cbn; rewrite ?(U c _ Ec), ?(U t _ Et); ring.
Qed.
Print Assumptions C70_default_cnot.
Example C70_example : live (fresh 4) [3; 0; 2] /\ NoDup [2; 0] /\ incl [2; 0] [3; 0; 2] /\ tidy (fresh 4).
Proof.
  split; [apply fresh_live; [|intros q H; cbn in H; lia]; repeat (constructor; [cbn; intuition discriminate|]); constructor|]. split; [repeat constructor; cbn; intuition discriminate|].
  split; [intros q; cbn; tauto|apply fresh_tidy].
Qed.
