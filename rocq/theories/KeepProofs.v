(** Calls leave alone the condition registers of wrappers further out. *)
From Coq Require Import Reals ZArith QArith.
From Coquelicot Require Import Complex.
From Verif Require Import Base BuilderModel ConserveProofs.
Local Open Scope nat_scope.
Local Open Scope mon_scope.

(** [m] changes no entry of [conds] from [n] on. *)
Definition above {A} (n : nat) (m : M A) : Prop :=
  forall s, match m s with Ret _ s' | Fail _ s' => forall j, n <= j -> nth_error (conds s') j = nth_error (conds s) j | Crash _ => True end.

Lemma k_ret {A} n (a : A) : above n (ret a). Proof. intros s j H. reflexivity. Qed.
Lemma k_fail {A} n e : above n (@fail A e). Proof. intros s j H. reflexivity. Qed.
Lemma k_crash {A} n p : above n (@crash A p). Proof. intros s. exact Logic.I. Qed.
Lemma k_lift {A} n (r : res A) : above n (lift r). Proof. intros s. unfold lift. destruct r; auto. Qed.
Lemma k_bind {A B} n (m : M A) (f : A -> M B) : above n m -> (forall a, above n (f a)) -> above n (mbind m f).
Proof. intros H1 H2 s. unfold mbind. specialize (H1 s). destruct (m s) as [a s1| |]; auto. specialize (H2 a s1). destruct (f a s1); auto; intros j Hj; rewrite H2, H1 by exact Hj; reflexivity. Qed.
Lemma k_unwrap {A} n (m : M A) : above n m -> above n (unwrapM m).
Proof. intros H1 s. unfold unwrapM. specialize (H1 s). destruct (m s); auto. Qed.
Lemma k_assert n b : above n (massert b).
Proof. unfold massert. destruct b; [apply k_ret|apply k_crash]. Qed.
Lemma k_fold {A B} n (f : A -> B -> M A) l : (forall a b, above n (f a b)) -> forall a, above n (mfold f l a).
Proof. intros H. induction l as [|b l IH]; intros a; cbn [mfold]; [apply k_ret|apply k_bind; [apply H|exact IH]]. Qed.
Lemma k_map {A B} n (f : A -> M B) l : (forall a, above n (f a)) -> above n (mmap f l).
Proof. intros H. induction l as [|b l IH]; cbn [mmap]; [apply k_ret|]. apply k_bind; [apply H|]. intros b'. apply k_bind; [exact IH|]. intros. apply k_ret. Qed.
Lemma k_get n : above n get. Proof. intros s j H. reflexivity. Qed.
Lemma k_push n e : above n (push e). Proof. intros s j H. reflexivity. Qed.
Lemma k_register n k : above n (register k).
Proof. intros s. unfold register, mbind, get, lift, put. destruct (unwrap_opt _); cbn; auto. Qed.
Lemma k_make n : above n make_zeroed_temp_qubit.
Proof.
  intros s. unfold make_zeroed_temp_qubit, mbind, get. destruct (rev (zeroed (bld s))) as [|r z] eqn:E; [apply k_register|]. cbn. auto.
Qed.
Lemma k_return n r : above n (return_zeroed_temp_register r).
Proof. intros s. unfold return_zeroed_temp_register, mbind, lift, get, put. destruct (split_all r) as [rs| |] eqn:E; cbn; auto. Qed.
Lemma k_take n k : k < n -> above n (take_cr k).
Proof. intros L s. unfold take_cr. destruct (nth_error (conds s) k) as [[r|]|]; auto. intros j H. cbn. rewrite nth_error_upd_nth. destruct (Nat.eqb_spec j k); [lia|reflexivity]. Qed.
Lemma k_put n k r : k < n -> above n (put_cr k r).
Proof. intros L s j H. cbn. rewrite nth_error_upd_nth. destruct (Nat.eqb_spec j k); [lia|reflexivity]. Qed.
Lemma k_with_conds {A} n c (m : M A) : above n (with_conds c m).
Proof. intros s. unfold with_conds. destruct (m _); auto. Qed.
Lemma above_le {A} n k (m : M A) : n <= k -> above n m -> above k m.
Proof. intros L H s. specialize (H s). destruct (m s); auto; intros j Hj; apply H; lia. Qed.

Ltac kp := repeat first
  [ assumption | match goal with H : forall a, above _ _ |- _ => apply H | H : forall a b, above _ _ |- _ => apply H | H : forall a b c, above _ _ |- _ => apply H end
  | apply k_ret | apply k_fail | apply k_crash | apply k_lift | apply k_get | apply k_push | apply k_register | apply k_make | apply k_return
  | apply k_take; lia | apply k_put; lia | apply k_assert
  | apply k_bind; [|intros] | apply k_unwrap | apply k_fold; intros | apply k_map; intros | apply k_with_conds
  | match goal with |- above _ (match ?x with _ => _ end) => destruct x end
  ].

Section N.
Context (nn : nat).
Lemma k_local_aco r c : above nn (local_aco r c). Proof. unfold local_aco. kp. Qed.
Lemma k_make_reg n : above nn (make_zeroed_temp_register n). Proof. unfold make_zeroed_temp_register. kp. Qed.
Lemma k_qudit k : above nn (qudit k). Proof. unfold qudit. kp. Qed.
Section Ac.
Context (ac : reg -> cobj -> M reg) (H : forall r c, above nn (ac r c)).
Lemma k_gate u r : above nn (gate ac u r). Proof. unfold gate. kp. Qed.
Lemma k_sdg r : above nn (g_s_dagger ac r). Proof. unfold g_s_dagger. apply k_bind; intros; apply k_gate. Qed.
Lemma k_tdg r : above nn (g_t_dagger ac r). Proof. unfold g_t_dagger. apply k_bind; intros; [apply k_sdg|apply k_gate]. Qed.
Lemma k_matrix r d : above nn (apply_matrix ac r d). Proof. unfold apply_matrix. kp. Qed.
Lemma k_cnot a b : above nn (cnot ac a b). Proof. unfold cnot, cnot_step. kp. Qed.
Lemma k_swap a b : above nn (swap ac a b). Proof. unfold swap, swap_pair. pose proof k_cnot. kp. Qed.
Lemma k_basic a b : above nn (basic_toffoli ac a b).
Proof. unfold basic_toffoli, g_h, g_t. pose proof k_cnot. pose proof (k_gate UH). pose proof (k_gate UT). pose proof k_tdg. kp. Qed.
Lemma k_toffoli_fuel f : forall a b, above nn (toffoli_fuel ac f a b).
Proof. induction f as [|f IH]; intros a b; cbn [toffoli_fuel]; [apply k_crash|]. pose proof k_cnot. pose proof k_basic. kp. Qed.
Lemma k_toffoli a b : above nn (toffoli ac a b). Proof. apply k_toffoli_fuel. Qed.
Lemma k_pipe sc r : above nn (apply_pipeline_objects ac sc r).
Proof. unfold apply_pipeline_objects, apply_entry, split_vector_at. pose proof k_make_reg. kp. Qed.
End Ac.
Lemma k_rz r t : above nn (rz r t). Proof. unfold rz. pose proof k_local_aco. kp. Qed.
Lemma k_rzr r t : above nn (rz_ratio r t). Proof. apply k_rz. Qed.
Lemma k_rz_pi r m : above nn (rz_pi_by r m). Proof. unfold rz_pi_by. pose proof k_local_aco. kp. Qed.
Ltac gates := pose proof k_local_aco; pose proof (k_gate local_aco k_local_aco UH); pose proof (k_gate local_aco k_local_aco US); pose proof (k_gate local_aco k_local_aco UT);
  pose proof (k_sdg local_aco k_local_aco); pose proof (k_toffoli local_aco k_local_aco); pose proof (k_cnot local_aco k_local_aco); pose proof k_rz; pose proof k_rzr.
Lemma k_rx r t : above nn (rx r t). Proof. unfold rx, g_h. gates. kp. Qed.
Lemma k_ry r t : above nn (ry r t). Proof. unfold ry, g_h, g_s. gates. kp. Qed.
Lemma k_rxr r t : above nn (rx_ratio r t). Proof. unfold rx_ratio, g_h. gates. kp. Qed.
Lemma k_ryr r t : above nn (ry_ratio r t). Proof. unfold ry_ratio, g_h, g_s. gates. kp. Qed.
Lemma k_rxp r t : above nn (rx_pi_by r t). Proof. unfold rx_pi_by. pose proof k_rxr. kp. Qed.
Lemma k_ryp r t : above nn (ry_pi_by r t). Proof. unfold ry_pi_by. pose proof k_ryr. kp. Qed.
Lemma k_phase r t : above nn (apply_global_phase r t). Proof. unfold apply_global_phase. gates. kp. Qed.
Lemma k_phase_ratio r t : above nn (apply_global_phase_ratio r t). Proof. unfold apply_global_phase_ratio. gates. kp. Qed.
Lemma k_local_try cr r co : above nn (local_try cr r co).
Proof.
  unfold local_try, cond_phase, cond_swap_step, cond_swap_half, split_vector_at, g_s, g_h, g_t. gates. pose proof k_ryp. pose proof k_phase. pose proof k_phase_ratio. kp.
Qed.
End N.
Lemma k_give n k m cr r : k < n -> above n (give_back k m cr r). Proof. intros L. unfold give_back. kp. Qed.
Lemma k_try d : forall n cr r co, d <= n -> above n (try_cond d cr r co).
Proof.
  induction d as [|d IH]; intros n cr r co L; cbn [try_cond]; [apply k_local_try|].
  apply k_bind; [apply k_take; lia|]. intros. apply k_bind; [apply k_lift|]. intros. apply k_bind; [apply IH; lia|]. intros [? ?]. apply k_give. lia.
Qed.
Lemma k_csub d sc : forall n cr r, d <= n -> above n (apply_cond_subcircuit d sc cr r).
Proof.
  induction d as [|d IH]; intros n cr r L; cbn [apply_cond_subcircuit]; [apply k_with_conds|].
  apply k_bind; [apply k_take; lia|]. intros. apply k_bind; [apply k_lift|]. intros. apply k_bind; [apply IH; lia|]. intros [? ?]. apply k_give. lia.
Qed.

(** A failing object (or subcircuit) on a wrapper leaves it without its condition register. *)
Lemma failed_aco k r co s e s' : aco (S k) r co s = Fail e s' -> nth_error (conds s') k = Some None.
Proof.
  cbn [aco]. unfold mbind, take_cr. destruct (nth_error (conds s) k) as [[c|]|] eqn:E; try discriminate.
  pose proof (k_try k k c r co (Nat.le_refl k) (mkSt (bld s) (upd_nth k None (conds s)))) as H.
  destruct (try_cond k c r co _) as [[c1 r1] s1|e1 s1|]; try discriminate. intros X. inversion X; subst. rewrite H by lia. cbn [conds].
  rewrite nth_error_upd_nth, Nat.eqb_refl.
  cbn [andb]. destruct (Nat.ltb_spec k (length (conds s))); [reflexivity|]. assert (nth_error (conds s) k = None) by (apply nth_error_None; lia). congruence.
Qed.
Lemma failed_sub k sc r s e s' : apply_subcircuit (S k) sc r s = Fail e s' -> nth_error (conds s') k = Some None.
Proof.
  cbn [apply_subcircuit]. unfold mbind, take_cr. destruct (nth_error (conds s) k) as [[c|]|] eqn:E; try discriminate.
  pose proof (k_csub k sc k c r (Nat.le_refl k) (mkSt (bld s) (upd_nth k None (conds s)))) as H.
  destruct (apply_cond_subcircuit k sc c r _) as [[c1 r1] s1|e1 s1|]; try discriminate. intros X. inversion X; subst. rewrite H by lia. cbn [conds].
  rewrite nth_error_upd_nth, Nat.eqb_refl.
  cbn [andb]. destruct (Nat.ltb_spec k (length (conds s))); [reflexivity|]. assert (nth_error (conds s) k = None) by (apply nth_error_None; lia). congruence.
Qed.
Lemma k_aco d r co : above d (aco d r co).
Proof. destruct d as [|d]; cbn [aco]; [apply k_local_aco|]. apply k_bind; [apply k_take; lia|]. intros. apply k_bind; [apply k_try; lia|]. intros [? ?]. kp. Qed.
Lemma k_sub d sc r : above d (apply_subcircuit d sc r).
Proof.
  destruct d as [|d]; cbn [apply_subcircuit]; [apply k_pipe, k_local_aco|]. apply k_bind; [apply k_take; lia|]. intros. apply k_bind; [apply k_csub; lia|]. intros [? ?]. kp.
Qed.
Lemma failed_length d (s s' : st) : (forall j, S d <= j -> nth_error (conds s') j = nth_error (conds s) j) -> S d = length (conds s) ->
  nth_error (conds s') d = Some None -> length (conds s') = S d.
Proof.
  intros H L E. assert (d < length (conds s')) by (apply nth_error_Some; congruence).
  assert (length (conds s') <= S d) by (apply nth_error_None; rewrite H by lia; apply nth_error_None; lia). lia.
Qed.
