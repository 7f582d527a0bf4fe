(** Calls leave the wrappers of the builder in place: no condition is lost or left behind. *)
From Coq Require Import Reals ZArith QArith.
From Coquelicot Require Import Complex.
From Verif Require Import Base BuilderModel ProgramModel ProgramSpec ConserveProofs.
Local Open Scope nat_scope.
Local Open Scope mon_scope.

Lemma w_ret {A} (a : A) : wraps (ret a). Proof. intros s. reflexivity. Qed.
Lemma w_fail {A} e : wraps (@fail A e). Proof. intros s. reflexivity. Qed.
Lemma w_crash {A} p : wraps (@crash A p). Proof. intros s. exact Logic.I. Qed.
Lemma w_lift {A} (r : res A) : wraps (lift r). Proof. intros s. unfold lift. destruct r; auto. Qed.
Lemma w_bind {A B} (m : M A) (f : A -> M B) : wraps m -> (forall a, wraps (f a)) -> wraps (mbind m f).
Proof. intros H1 H2 s. unfold mbind. specialize (H1 s). destruct (m s) as [a s1| |]; auto. specialize (H2 a s1). destruct (f a s1); auto; congruence. Qed.
Lemma w_unwrap {A} (m : M A) : wraps m -> wraps (unwrapM m).
Proof. intros H1 s. unfold unwrapM. specialize (H1 s). destruct (m s); auto. Qed.
Lemma w_assert b : wraps (massert b).
Proof. unfold massert. destruct b; [apply w_ret|apply w_crash]. Qed.
Lemma w_fold {A B} (f : A -> B -> M A) l : (forall a b, In b l -> wraps (f a b)) -> forall a, wraps (mfold f l a).
Proof. induction l as [|b l IH]; intros H a; cbn [mfold]; [apply w_ret|apply w_bind; [apply H; left; reflexivity|apply IH]]. intros; apply H; right; assumption. Qed.
Lemma w_map {A B} (f : A -> M B) l : (forall a, wraps (f a)) -> wraps (mmap f l).
Proof. intros H. induction l as [|b l IH]; cbn [mmap]; [apply w_ret|]. apply w_bind; [apply H|]. intros b'. apply w_bind; [exact IH|]. intros. apply w_ret. Qed.
Lemma w_get : wraps get. Proof. intros s. reflexivity. Qed.
Lemma w_push e : wraps (push e). Proof. intros s. reflexivity. Qed.
Lemma w_register k : wraps (register k).
Proof. intros s. unfold register, mbind, get, lift, put. destruct (unwrap_opt _); cbn; auto. Qed.
Lemma w_make : wraps make_zeroed_temp_qubit.
Proof. intros s. unfold make_zeroed_temp_qubit, mbind, get. destruct (rev (zeroed (bld s))) as [|r z] eqn:E; [apply w_register|]. cbn. auto. Qed.
Lemma w_return r : wraps (return_zeroed_temp_register r).
Proof. intros s. unfold return_zeroed_temp_register, mbind, lift, get, put. destruct (split_all r) as [rs| |] eqn:E; cbn; auto. Qed.
Lemma upd_length {A} (l : list A) : forall n x, length (upd_nth n x l) = length l.
Proof. induction l as [|a l IH]; intros [|n] x; cbn; auto. Qed.
Lemma w_take k : wraps (take_cr k).
Proof. intros s. unfold take_cr. destruct (nth_error (conds s) k) as [[r|]|]; auto. cbn. apply upd_length. Qed.
Lemma w_put k r : wraps (put_cr k r).
Proof. intros s. cbn. apply upd_length. Qed.
Lemma w_with_conds {A} c (m : M A) : wraps (with_conds c m).
Proof. intros s. unfold with_conds. destruct (m _); auto. Qed.
Lemma w_in_condition {A} cr (m : M A) : wraps m -> wraps (in_condition cr m).
Proof.
  intros H s. unfold in_condition, scoped, condition_with, mbind. specialize (H (mkSt (bld s) (conds s ++ [Some cr]))). destruct (m _) as [a s1|e s1|p]; cbn [conds] in *; auto.
  - unfold dissolve. rewrite <- rev_length in H. destruct (rev (conds s1)) as [|[c|] l] eqn:E; auto. cbn. rewrite rev_length. cbn in H. rewrite app_length in H. cbn in H. lia.
  - rewrite app_length in H. cbn in H. rewrite firstn_length. lia.
Qed.

Ltac wr := repeat first
  [ assumption
  | match goal with H : forall a, wraps _ |- _ => apply H | H : forall a b, wraps _ |- _ => apply H | H : forall a b c, wraps _ |- _ => apply H end
  | apply w_ret | apply w_fail | apply w_crash | apply w_lift | apply w_get | apply w_push | apply w_register | apply w_make | apply w_return
  | apply w_take | apply w_put | apply w_assert
  | apply w_bind; [|intros] | apply w_unwrap | apply w_fold; intros | apply w_map; intros | apply w_with_conds
  | match goal with |- wraps (match ?x with _ => _ end) => destruct x end
  ].
Lemma w_local_aco r c : wraps (local_aco r c). Proof. unfold local_aco. wr. Qed.
Lemma w_make_reg n : wraps (make_zeroed_temp_register n). Proof. unfold make_zeroed_temp_register. wr. Qed.
Section Ac.
Context (ac : reg -> cobj -> M reg) (H : forall r c, wraps (ac r c)).
Lemma w_gate u r : wraps (gate ac u r). Proof. unfold gate. wr. Qed.
Lemma w_sdg r : wraps (g_s_dagger ac r). Proof. unfold g_s_dagger. apply w_bind; intros; apply w_gate. Qed.
Lemma w_tdg r : wraps (g_t_dagger ac r). Proof. unfold g_t_dagger. apply w_bind; intros; [apply w_sdg|apply w_gate]. Qed.
Lemma w_cnot a b : wraps (cnot ac a b). Proof. unfold cnot, cnot_step. wr. Qed.
Lemma w_swap a b : wraps (swap ac a b). Proof. unfold swap, swap_pair. pose proof w_cnot. wr. Qed.
Lemma w_basic a b : wraps (basic_toffoli ac a b).
Proof. unfold basic_toffoli, g_h, g_t. pose proof w_cnot. pose proof (w_gate UH). pose proof (w_gate UT). pose proof w_tdg. wr. Qed.
Lemma w_toffoli_fuel f : forall a b, wraps (toffoli_fuel ac f a b).
Proof. induction f as [|f IH]; intros a b; cbn [toffoli_fuel]; [apply w_crash|]. pose proof w_cnot. pose proof w_basic. wr. Qed.
Lemma w_toffoli a b : wraps (toffoli ac a b). Proof. apply w_toffoli_fuel. Qed.
End Ac.
Lemma w_rz r t : wraps (rz r t). Proof. unfold rz. pose proof w_local_aco. wr. Qed.
Lemma w_rzr r t : wraps (rz_ratio r t). Proof. apply w_rz. Qed.
Ltac wgates := pose proof w_local_aco; pose proof (w_gate local_aco w_local_aco UH); pose proof (w_gate local_aco w_local_aco US); pose proof (w_gate local_aco w_local_aco UT);
  pose proof (w_sdg local_aco w_local_aco); pose proof (w_toffoli local_aco w_local_aco); pose proof (w_cnot local_aco w_local_aco); pose proof w_rz; pose proof w_rzr.
Lemma w_ryr r t : wraps (ry_ratio r t). Proof. unfold ry_ratio, g_h, g_s. wgates. wr. Qed.
Lemma w_ryp r t : wraps (ry_pi_by r t). Proof. unfold ry_pi_by. pose proof w_ryr. wr. Qed.
Lemma w_phase r t : wraps (apply_global_phase r t). Proof. unfold apply_global_phase. pose proof w_local_aco. wr. Qed.
Lemma w_phase_ratio r t : wraps (apply_global_phase_ratio r t). Proof. unfold apply_global_phase_ratio. pose proof w_local_aco. wr. Qed.
Lemma w_local_try cr r co : wraps (local_try cr r co).
Proof. unfold local_try, cond_phase, cond_swap_step, cond_swap_half, split_vector_at, g_s, g_h, g_t. wgates. pose proof w_ryp. pose proof w_phase. pose proof w_phase_ratio. wr. Qed.
Lemma w_give k n cr r : wraps (give_back k n cr r). Proof. unfold give_back. wr. Qed.
Lemma w_try d : forall cr r co, wraps (try_cond d cr r co).
Proof. induction d as [|d IH]; intros cr r co; cbn [try_cond]; [apply w_local_try|]. pose proof w_give. wr. Qed.
Lemma w_aco d r c : wraps (aco d r c). Proof. destruct d; cbn [aco]; [apply w_local_aco|]. pose proof (w_try d). wr. Qed.

Lemma w_negate d r m : wraps (negate_bitmask d r m).
Proof. unfold negate_bitmask, negate_step, g_x. pose proof (w_gate (aco d) (w_aco d) UX). wr. Qed.
Lemma w_call d l rs : (forall d rs, wraps (l_fun l d rs)) -> wraps (call_line d l rs).
Proof.
  intros H. unfold call_line. pose proof (w_negate d). destruct (l_ctl l) as [mask|]; [|apply H]. destruct rs as [|cr rest]; [apply w_crash|].
  apply w_bind; [destruct mask; wr|]. intros c. apply w_bind; [apply w_in_condition, H|]. intros [c' r']. wr.
Qed.
Lemma w_program d rs ls : Forall (fun l => forall d rs, wraps (l_fun l d rs)) ls -> wraps (program d rs ls).
Proof.
  intros H. rewrite Forall_forall in H. unfold program. apply w_bind; [apply w_lift|]. intros e. apply w_bind; [|intros; apply w_lift].
  apply w_fold. intros e' l Hl. unfold run_line. apply w_bind; [apply w_lift|]. intros [rs' e1]. apply w_bind; [apply w_call, H, Hl|]. intros. apply w_lift.
Qed.
Lemma w_op1 g d rs : (forall r, wraps (g (aco d) r)) -> wraps (op1 g d rs).
Proof. intros H. unfold op1. wr. Qed.
Lemma w_op2 g d rs : (forall a b, wraps (g (aco d) a b)) -> wraps (op2 g d rs).
Proof. intros H. unfold op2. wr. Qed.
