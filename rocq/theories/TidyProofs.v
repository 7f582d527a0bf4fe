(** After any history the pool of temporaries holds distinct single qubits, and the client's
    registers are in use. *)
From Coq Require Import Reals ZArith QArith.
From Coquelicot Require Import Complex.
From Verif Require Import Base BuilderModel RegProofs HistorySpec HistoryProofs DenSpec RunSpec.
Local Open Scope nat_scope.
Local Open Scope mon_scope.

Definition sing (s : st) : Prop := Forall (fun r => length r = 1) (zeroed (bld s)).
Definition keeps {A} (m : M A) : Prop := forall s, sing s -> match m s with Ret _ s' | Fail _ s' => sing s' | Crash _ => True end.

Lemma k_ret {A} (a : A) : keeps (ret a). Proof. intros s H. exact H. Qed.
Lemma k_fail {A} e : keeps (@fail A e). Proof. intros s H. exact H. Qed.
Lemma k_crash {A} p : keeps (@crash A p). Proof. intros s H. exact Logic.I. Qed.
Lemma k_lift {A} (r : res A) : keeps (lift r). Proof. intros s H. unfold lift. destruct r; auto. Qed.
Lemma k_bind {A B} (m : M A) (f : A -> M B) : keeps m -> (forall a, keeps (f a)) -> keeps (mbind m f).
Proof. intros H1 H2 s H. unfold mbind. specialize (H1 s H). destruct (m s); auto. apply H2. exact H1. Qed.
Lemma k_unwrap {A} (m : M A) : keeps m -> keeps (unwrapM m).
Proof. intros H1 s H. unfold unwrapM. specialize (H1 s H). destruct (m s); auto. Qed.
Lemma k_assert b : keeps (massert b).
Proof. unfold massert. destruct b; [apply k_ret|apply k_crash]. Qed.
Lemma k_fold {A B} (f : A -> B -> M A) l : (forall a b, keeps (f a b)) -> forall a, keeps (mfold f l a).
Proof. intros H. induction l as [|b l IH]; intros a; cbn [mfold]; [apply k_ret|apply k_bind; [apply H|exact IH]]. Qed.
Lemma k_map {A B} (f : A -> M B) l : (forall a, keeps (f a)) -> keeps (mmap f l).
Proof. intros H. induction l as [|b l IH]; cbn [mmap]; [apply k_ret|]. apply k_bind; [apply H|]. intros b'. apply k_bind; [exact IH|]. intros. apply k_ret. Qed.
Lemma k_get : keeps get. Proof. intros s H. exact H. Qed.
Lemma k_push e : keeps (push e). Proof. intros s H. exact H. Qed.
Lemma k_register k : keeps (register k).
Proof. intros s H. unfold register, mbind, get, lift, put. destruct (unwrap_opt _); cbn; auto. Qed.
Lemma k_make : keeps make_zeroed_temp_qubit.
Proof.
  intros s H. unfold make_zeroed_temp_qubit, mbind, get. destruct (rev (zeroed (bld s))) as [|r z] eqn:E; [apply k_register; exact H|].
  cbn. unfold sing in *. cbn. assert (X : zeroed (bld s) = rev z ++ [r]) by (rewrite <- (rev_involutive (zeroed (bld s))), E; reflexivity).
  rewrite X in H. apply Forall_app in H. apply H.
Qed.
Lemma split0_single r sp : split_rel r [0] = Ok sp -> match sp with Selected r => length r = 1 | Split r0 _ => length r0 = 1 | Unselected _ => True end.
Proof.
  unfold split_rel. cbn [select Nat.leb]. unfold idx. destruct (nth_error r 0); cbn [bind new_reg]; [|discriminate].
  destruct (filter _ r); cbn [new_reg]; intros E; inversion E; reflexivity.
Qed.
Lemma split_helper_single fuel : forall r acc rs, Forall (fun r : reg => length r = 1) acc -> split_helper fuel r acc = Ok rs -> Forall (fun r : reg => length r = 1) rs.
Proof.
  induction fuel as [|fuel IH]; intros r acc rs H E; cbn [split_helper] in E; [discriminate|].
  destruct (split_rel r [0]) as [sp| |] eqn:Es; try discriminate. cbn [bind] in E. apply split0_single in Es. destruct sp as [r0|r0|r0 r1]; try discriminate.
  - inversion E; subst. apply Forall_app. auto.
  - eapply IH; [|exact E]. apply Forall_app. auto.
Qed.
Lemma k_return r : keeps (return_zeroed_temp_register r).
Proof.
  intros s H. unfold return_zeroed_temp_register, mbind, lift, get, put. destruct (split_all r) as [rs| |] eqn:E; cbn; auto.
  unfold sing. cbn. apply Forall_app. split; [exact H|]. unfold split_all in E. eapply split_helper_single; [|exact E]. constructor.
Qed.
Lemma k_measure m r : keeps (measure_with m r). Proof. intros s H. exact H. Qed.
Lemma k_take k : keeps (take_cr k).
Proof. intros s H. unfold take_cr. destruct (nth_error (conds s) k) as [[r|]|]; auto. Qed.
Lemma k_put k r : keeps (put_cr k r). Proof. intros s H. exact H. Qed.
Lemma k_with c : keeps (condition_with c). Proof. intros s H. exact H. Qed.
Lemma k_dissolve : keeps dissolve.
Proof. intros s H. unfold dissolve. destruct (rev (conds s)) as [|[r|] ?]; auto. Qed.
Lemma k_dropw : keeps drop_wrapper. Proof. intros s H. exact H. Qed.
Lemma k_with_conds {A} c (m : M A) : keeps m -> keeps (with_conds c m).
Proof. intros H1 s H. unfold with_conds. specialize (H1 (mkSt (bld s) c) H). destruct (m _); auto. Qed.
Lemma k_on_new {A} (m : M A) : keeps (on_new m).
Proof. intros s H. unfold on_new. destruct (m _); auto. Qed.

Ltac kp := repeat first
  [ assumption | match goal with H : forall a, keeps _ |- _ => apply H | H : forall a b, keeps _ |- _ => apply H | H : forall a b c, keeps _ |- _ => apply H end | apply k_ret | apply k_fail | apply k_crash | apply k_lift | apply k_get | apply k_push | apply k_register | apply k_make | apply k_return
  | apply k_measure | apply k_take | apply k_put | apply k_with | apply k_dissolve | apply k_dropw | apply k_assert | apply k_on_new
  | apply k_bind; [|intros] | apply k_unwrap | apply k_fold; intros | apply k_map; intros | apply k_with_conds
  | match goal with |- keeps (match ?x with _ => _ end) => destruct x end
  ].

Lemma k_local_aco r c : keeps (local_aco r c). Proof. unfold local_aco. kp. Qed.
Lemma k_make_reg n : keeps (make_zeroed_temp_register n). Proof. unfold make_zeroed_temp_register. kp. Qed.
Lemma k_qudit k : keeps (qudit k). Proof. unfold qudit. kp. Qed.
Section Ac.
Context (ac : reg -> cobj -> M reg) (H : forall r c, keeps (ac r c)).
Lemma k_gate u r : keeps (gate ac u r). Proof. unfold gate. kp. Qed.
Lemma k_sdg r : keeps (g_s_dagger ac r). Proof. unfold g_s_dagger. apply k_bind; intros; apply k_gate. Qed.
Lemma k_tdg r : keeps (g_t_dagger ac r). Proof. unfold g_t_dagger. apply k_bind; intros; [apply k_sdg|apply k_gate]. Qed.
Lemma k_matrix r d : keeps (apply_matrix ac r d). Proof. unfold apply_matrix. kp. Qed.
Lemma k_cnot a b : keeps (cnot ac a b). Proof. unfold cnot, cnot_step. kp. Qed.
Lemma k_swap a b : keeps (swap ac a b). Proof. unfold swap, swap_pair. pose proof k_cnot. kp. Qed.
Lemma k_basic a b : keeps (basic_toffoli ac a b).
Proof. unfold basic_toffoli, g_h, g_t. pose proof k_cnot. pose proof (k_gate UH). pose proof (k_gate UT). pose proof k_tdg. kp. Qed.
Lemma k_toffoli_fuel f : forall a b, keeps (toffoli_fuel ac f a b).
Proof. induction f as [|f IH]; intros a b; cbn [toffoli_fuel]; [apply k_crash|]. pose proof k_cnot. pose proof k_basic. kp. Qed.
Lemma k_toffoli a b : keeps (toffoli ac a b). Proof. apply k_toffoli_fuel. Qed.
Lemma k_pipe sc r : keeps (apply_pipeline_objects ac sc r).
Proof. unfold apply_pipeline_objects, apply_entry, split_vector_at. pose proof k_make_reg. kp. Qed.
End Ac.
Lemma k_rz r t : keeps (rz r t). Proof. unfold rz. pose proof k_local_aco. kp. Qed.
Lemma k_rzr r t : keeps (rz_ratio r t). Proof. apply k_rz. Qed.
Lemma k_rz_pi r m : keeps (rz_pi_by r m). Proof. unfold rz_pi_by. pose proof k_local_aco. kp. Qed.
Ltac gates := pose proof k_local_aco; pose proof (k_gate local_aco k_local_aco UH); pose proof (k_gate local_aco k_local_aco US); pose proof (k_gate local_aco k_local_aco UT);
  pose proof (k_sdg local_aco k_local_aco); pose proof (k_toffoli local_aco k_local_aco); pose proof (k_cnot local_aco k_local_aco); pose proof k_rz; pose proof k_rzr.
Lemma k_rx r t : keeps (rx r t). Proof. unfold rx, g_h. gates. kp. Qed.
Lemma k_ry r t : keeps (ry r t). Proof. unfold ry, g_h, g_s. gates. kp. Qed.
Lemma k_rxr r t : keeps (rx_ratio r t). Proof. unfold rx_ratio, g_h. gates. kp. Qed.
Lemma k_ryr r t : keeps (ry_ratio r t). Proof. unfold ry_ratio, g_h, g_s. gates. kp. Qed.
Lemma k_rxp r t : keeps (rx_pi_by r t). Proof. unfold rx_pi_by. pose proof k_rxr. kp. Qed.
Lemma k_ryp r t : keeps (ry_pi_by r t). Proof. unfold ry_pi_by. pose proof k_ryr. kp. Qed.
Lemma k_phase r t : keeps (apply_global_phase r t). Proof. unfold apply_global_phase. gates. kp. Qed.
Lemma k_phase_ratio r t : keeps (apply_global_phase_ratio r t). Proof. unfold apply_global_phase_ratio. gates. kp. Qed.
Lemma k_local_try cr r co : keeps (local_try cr r co).
Proof.
  unfold local_try, cond_phase, cond_swap_step, cond_swap_half, split_vector_at, g_s, g_h, g_t. gates. pose proof k_ryp. pose proof k_phase. pose proof k_phase_ratio. kp.
Qed.
Lemma k_give k n cr r : keeps (give_back k n cr r). Proof. unfold give_back. kp. Qed.
Lemma k_try d : forall cr r co, keeps (try_cond d cr r co).
Proof. induction d as [|d IH]; intros; cbn [try_cond]; [apply k_local_try|]. pose proof k_give. kp. Qed.
Lemma k_aco d r c : keeps (aco d r c). Proof. destruct d; cbn [aco]; [apply k_local_aco|]. pose proof (k_try d). kp. Qed.
Lemma k_csub d sc : forall cr r, keeps (apply_cond_subcircuit d sc cr r).
Proof.
  induction d as [|d IH]; intros; cbn [apply_cond_subcircuit].
  - unfold local_cond_subcircuit. pose proof (k_pipe (aco 1) (k_aco 1)). kp.
  - pose proof k_give. kp.
Qed.
Lemma k_sub d sc r : keeps (apply_subcircuit d sc r).
Proof. destruct d; cbn [apply_subcircuit]; [apply k_pipe, k_local_aco|]. pose proof (k_csub d sc). kp. Qed.
Lemma k_inv d sc r : keeps (apply_inverted_subcircuit d sc r). Proof. unfold apply_inverted_subcircuit. pose proof k_sub. kp. Qed.
Lemma k_inverter d rs f : keeps (inverter d rs f). Proof. unfold inverter. pose proof k_inv. kp. Qed.
Lemma k_inv_macro d rs f : keeps (inv_macro d rs f). Proof. unfold inv_macro. pose proof k_inv. kp. Qed.

Lemma k_run_call d c args : keeps (run_call d c args).
Proof.
  destruct c; cbn [run_call]; unfold one, two, out1, out2, broadcast_single_qubit_matrix, apply_matrix, apply_global_phase_pi_by, measure_single, measure_stochastic;
    pose proof (k_aco d); pose proof (k_gate (aco d) (k_aco d)); pose proof (k_sdg (aco d) (k_aco d)); pose proof (k_tdg (aco d) (k_aco d));
    pose proof (k_cnot (aco d) (k_aco d)); pose proof (k_swap (aco d) (k_aco d)); pose proof (k_toffoli (aco d) (k_aco d)); pose proof k_qudit;
    pose proof k_rz; pose proof k_rzr; pose proof k_rx; pose proof k_ry; pose proof k_rxr; pose proof k_ryr; pose proof k_rz_pi; pose proof k_rxp; pose proof k_ryp;
    pose proof k_phase; pose proof k_phase_ratio; pose proof k_make_reg; pose proof k_sub; pose proof k_inverter; pose proof k_inv_macro; kp.
Qed.
Lemma reach_sing ok cl cl' : reach ok cl cl' -> sing (fst cl) -> sing (fst cl').
Proof.
  induction 1 as [|[s1 r1] [s2 r2] [s3 r3] c ps _ IH _ _ E]; intros H; [exact H|]. specialize (IH H). cbn [fst] in *. unfold do_call in E.
  pose proof (k_run_call (length (conds s2)) c (pick r2 ps) s2 IH) as X. destruct (run_call _ c _ s2); inversion E; subst; exact X.
Qed.

Lemma reach_tidy cl : reach distinct_positions start cl -> tidy (fst cl) /\ live (fst cl) (concat (snd cl) ++ concat (somes (conds (fst cl)))).
Proof.
  intros H. destruct (reach_no_cloning cl H) as ((N & R) & _). pose proof (reach_sing _ _ _ H ltac:(constructor)) as S.
  unfold held in *. rewrite app_assoc in N, R. apply NoDup_app_iff in N. destruct N as (N1 & N2 & N3). split.
  - split; [exact S|]. split; [exact N2|]. intros q Hq. apply R, in_or_app. right. exact Hq.
  - split; [exact N1|]. intros q Hq [X|X]; [|apply (N3 q Hq X)]. specialize (R q (in_or_app _ _ _ (or_introl Hq))). lia.
Qed.
