(** The functions of the arithmetic module append gates and rotations only. *)
From Coq Require Import Reals ZArith QArith.
From Coquelicot Require Import Complex.
From Verif Require Import Base BuilderModel DenSpec RunSpec SubSpec ProgramModel ArithModel.
Local Open Scope nat_scope.
Local Open Scope mon_scope.

Definition knd {A} (m : M A) : Prop := forall s, Forall kept (pipeline (bld s)) -> match m s with Ret _ s' | Fail _ s' => Forall kept (pipeline (bld s')) | Crash _ => True end.

Lemma n_ret {A} (a : A) : knd (ret a). Proof. intros s H. exact H. Qed.
Lemma n_fail {A} e : knd (@fail A e). Proof. intros s H. exact H. Qed.
Lemma n_crash {A} p : knd (@crash A p). Proof. intros s H. exact Logic.I. Qed.
Lemma n_lift {A} (r : res A) : knd (lift r). Proof. intros s H. unfold lift. destruct r; auto. Qed.
Lemma n_bind {A B} (m : M A) (f : A -> M B) : knd m -> (forall a, knd (f a)) -> knd (mbind m f).
Proof. intros H1 H2 s H. unfold mbind. specialize (H1 s H). destruct (m s); auto. apply H2. exact H1. Qed.
Lemma n_unwrap {A} (m : M A) : knd m -> knd (unwrapM m).
Proof. intros H1 s H. unfold unwrapM. specialize (H1 s H). destruct (m s); auto. Qed.
Lemma n_assert b : knd (massert b).
Proof. unfold massert. destruct b; [apply n_ret|apply n_crash]. Qed.
Lemma n_fold {A B} (f : A -> B -> M A) l : (forall a b, In b l -> knd (f a b)) -> forall a, knd (mfold f l a).
Proof. induction l as [|b l IH]; intros H a; cbn [mfold]; [apply n_ret|apply n_bind; [apply H; left; reflexivity|apply IH]]. intros; apply H; right; assumption. Qed.
Lemma n_map {A B} (f : A -> M B) l : (forall a, knd (f a)) -> knd (mmap f l).
Proof. intros H. induction l as [|b l IH]; cbn [mmap]; [apply n_ret|]. apply n_bind; [apply H|]. intros b'. apply n_bind; [exact IH|]. intros. apply n_ret. Qed.
Lemma n_get : knd get. Proof. intros s H. exact H. Qed.
Lemma n_push r c : kept ([], c) -> knd (push (r, c)).
Proof. intros K s H. cbn. apply Forall_app. split; [exact H|]. constructor; [exact K|constructor]. Qed.
Lemma n_register k : knd (register k).
Proof. intros s H. unfold register, mbind, get, lift, put. destruct (unwrap_opt _); cbn; auto. Qed.
Lemma n_make : knd make_zeroed_temp_qubit.
Proof. intros s H. unfold make_zeroed_temp_qubit, mbind, get. destruct (rev (zeroed (bld s))) as [|r z] eqn:E; [apply n_register; exact H|]. exact H. Qed.
Lemma n_return r : knd (return_zeroed_temp_register r).
Proof. intros s H. unfold return_zeroed_temp_register, mbind, lift, get, put. destruct (split_all r) as [rs| |] eqn:E; cbn; auto. Qed.
Lemma n_take k : knd (take_cr k).
Proof. intros s H. unfold take_cr. destruct (nth_error (conds s) k) as [[r|]|]; auto; exact Logic.I. Qed.
Lemma n_put k r : knd (put_cr k r). Proof. intros s H. exact H. Qed.
Lemma n_with c : knd (condition_with c). Proof. intros s H. exact H. Qed.
Lemma n_dissolve : knd dissolve.
Proof. intros s H. unfold dissolve. destruct (rev (conds s)) as [|[r|] ?]; auto. Qed.
Lemma n_with_conds {A} c (m : M A) : knd m -> knd (with_conds c m).
Proof. intros H1 s H. unfold with_conds. specialize (H1 (mkSt (bld s) c) H). destruct (m _); auto. Qed.
Lemma n_scoped {A} (m : M A) : knd m -> knd (scoped m).
Proof. intros H1 s H. unfold scoped. specialize (H1 s H). destruct (m s); auto. Qed.

Ltac kn := repeat first
  [ assumption | exact Logic.I
  | match goal with
    | H : forall a, knd _ |- _ => apply H | H : forall a b, knd _ |- _ => apply H | H : forall a b c, knd _ |- _ => apply H
    end
  | apply n_ret | apply n_fail | apply n_crash | apply n_lift | apply n_get | apply n_register | apply n_make | apply n_return
  | apply n_take | apply n_put | apply n_with | apply n_dissolve | apply n_assert | apply n_push; assumption
  | apply n_bind; [|intros] | apply n_unwrap | apply n_fold; intros | apply n_map; intros | apply n_with_conds | apply n_scoped
  | match goal with |- knd (match ?x with _ => _ end) => destruct x end
  ].

Lemma n_local_aco r c : kept ([], c) -> knd (local_aco r c). Proof. intros K. unfold local_aco. kn. Qed.
Lemma n_make_reg n : knd (make_zeroed_temp_register n). Proof. unfold make_zeroed_temp_register. kn. Qed.
Section Ac.
Context (ac : reg -> cobj -> M reg) (H : forall r c, kept ([], c) -> knd (ac r c)).
Lemma n_gate u r : kept ([], mkCO 1 (OUnit u)) -> knd (gate ac u r). Proof. intros K. unfold gate. apply n_unwrap, H. exact K. Qed.
Ltac g1 := apply n_gate; exact Logic.I.
Lemma n_sdg r : knd (g_s_dagger ac r). Proof. unfold g_s_dagger. apply n_bind; intros; g1. Qed.
Lemma n_tdg r : knd (g_t_dagger ac r). Proof. unfold g_t_dagger. apply n_bind; intros; [apply n_sdg|g1]. Qed.
Lemma n_cnot a b : knd (cnot ac a b). Proof. unfold cnot, cnot_step. kn. Qed.
Lemma n_swap a b : knd (swap ac a b). Proof. unfold swap, swap_pair. pose proof n_cnot. kn. Qed.
Lemma n_basic a b : knd (basic_toffoli ac a b).
Proof. unfold basic_toffoli, g_h, g_t. pose proof n_cnot. pose proof (fun r => n_gate UH r Logic.I). pose proof (fun r => n_gate UT r Logic.I). pose proof n_tdg. kn. Qed.
Lemma n_toffoli_fuel f : forall a b, knd (toffoli_fuel ac f a b).
Proof. induction f as [|f IH]; intros a b; cbn [toffoli_fuel]; [apply n_crash|]. pose proof n_cnot. pose proof n_basic. kn. Qed.
Lemma n_toffoli a b : knd (toffoli ac a b). Proof. apply n_toffoli_fuel. Qed.
Lemma n_entry a e : kept e -> knd (apply_entry ac a e).
Proof. intros K. unfold apply_entry. destruct e as [is co]. kn. Qed.
Lemma n_pipe sc r : Forall kept sc -> knd (apply_pipeline_objects ac sc r).
Proof.
  intros K. unfold apply_pipeline_objects, split_vector_at. pose proof n_make_reg. rewrite Forall_forall in K.
  kn. all: apply n_entry; apply K; assumption.
Qed.
End Ac.
Lemma n_rz r t : knd (rz r t). Proof. unfold rz. pose proof n_local_aco. kn. Qed.
Lemma n_rzr r t : knd (rz_ratio r t). Proof. apply n_rz. Qed.
Ltac ngates := pose proof n_local_aco; pose proof (fun r => n_gate local_aco n_local_aco UH r Logic.I); pose proof (fun r => n_gate local_aco n_local_aco US r Logic.I); pose proof (fun r => n_gate local_aco n_local_aco UT r Logic.I);
  pose proof (n_sdg local_aco n_local_aco); pose proof (n_toffoli local_aco n_local_aco); pose proof (n_cnot local_aco n_local_aco); pose proof n_rz; pose proof n_rzr.
Lemma n_ryr r t : knd (ry_ratio r t). Proof. unfold ry_ratio, g_h, g_s. ngates. kn. Qed.
Lemma n_ryp r t : knd (ry_pi_by r t). Proof. unfold ry_pi_by. pose proof n_ryr. kn. Qed.
Lemma n_local_try cr r co : kept ([], co) -> knd (local_try cr r co).
Proof.
  intros K. unfold kept in K. cbn [snd] in K. unfold local_try. destruct (co_obj co) as [u|]; [|destruct K]. destruct u; try destruct K;
  unfold cond_phase, split_vector_at, g_s, g_h, g_t; ngates; pose proof n_ryp; kn.
Qed.
Lemma n_give k n cr r : knd (give_back k n cr r). Proof. unfold give_back. kn. Qed.
Lemma n_try d : forall cr r co, kept ([], co) -> knd (try_cond d cr r co).
Proof. induction d as [|d IH]; intros cr r co K; cbn [try_cond]; [apply n_local_try; exact K|]. pose proof n_give. pose proof (fun a b => IH a b co K). kn. Qed.
Lemma n_aco d r c : kept ([], c) -> knd (aco d r c). Proof. intros K. destruct d; cbn [aco]; [apply n_local_aco; exact K|]. pose proof (fun a b => n_try d a b c K). kn. Qed.
Lemma n_csub d sc : Forall kept sc -> forall cr r, knd (apply_cond_subcircuit d sc cr r).
Proof.
  intros K. induction d as [|d IH]; intros; cbn [apply_cond_subcircuit].
  - unfold local_cond_subcircuit. pose proof (fun r => n_pipe (aco 1) (n_aco 1) sc r K). kn.
  - pose proof n_give. kn.
Qed.
Lemma n_sub d sc r : Forall kept sc -> knd (apply_subcircuit d sc r).
Proof. intros K. destruct d; cbn [apply_subcircuit]; [apply n_pipe; [apply n_local_aco|exact K]|]. pose proof (n_csub d sc K). kn. Qed.
Lemma invert_kept p q : Forall kept p -> invert_subcircuit p = Ok q -> Forall kept q.
Proof.
  unfold invert_subcircuit. intros F. apply Forall_rev in F. revert F. assert (G : Forall kept ([] : pipe)) by constructor. revert G.
  generalize ([] : pipe). generalize (rev p). clear p. induction l as [|e l IH]; intros acc G F E; cbn [foldM] in E; [injection E as <-; exact G|].
  inversion F as [|? ? F1 F2]; subst. destruct e as [ind co]. unfold kept in F1. cbn [snd] in F1. unfold invert_circuit_object in E.
  destruct (co_obj co) as [u|]; [|destruct F1].
  destruct u; try destruct F1; cbn [bind map] in E; (eapply IH; [|exact F2|exact E]); apply Forall_app; split; try exact G; repeat constructor.
Qed.
Lemma n_inv d sc r : Forall kept sc -> knd (apply_inverted_subcircuit d sc r).
Proof.
  intros K s H. unfold apply_inverted_subcircuit, mbind. destruct (invert_subcircuit sc) as [q| |] eqn:E; cbn [lift]; [|exact H|exact Logic.I].
  apply n_sub; [exact (invert_kept sc q K E)|exact H].
Qed.
Lemma n_inv_macro d rs f : (forall rs, knd (f rs)) -> knd (inv_macro d rs f).
Proof.
  intros Hf s H. unfold inv_macro. unfold mbind at 1. unfold on_new.
  assert (X : forall sc s1, (sub_rs <- mmap (fun r => register (length r)) rs ;; _ <- f sub_rs ;; make_subcircuit) (mkSt empty_builder []) = Ret sc s1 -> Forall kept sc).
  { intros sc s1. pose proof (n_map (fun r : list nat => register (length r)) rs ltac:(intros; apply n_register) (mkSt empty_builder []) ltac:(constructor)) as X.
    unfold mbind at 1. destruct (mmap (fun r : list nat => register (length r)) rs _) as [a s0|e s0|p]; [|intros Y; discriminate Y|intros Y; discriminate Y]. unfold mbind at 1. specialize (Hf a s0 X). destruct (f a s0) as [b s2|e s2|p]; [|intros Y; discriminate Y|intros Y; discriminate Y].
    intros E. injection E as <- _. exact Hf. }
  destruct ((sub_rs <- mmap (fun r => register (length r)) rs ;; _ <- f sub_rs ;; make_subcircuit) (mkSt empty_builder [])) as [sc s1|e s1|p]; [|exact H|exact Logic.I].
  specialize (X sc s1 eq_refl). revert s H. match goal with |- forall s, _ -> match ?m s with _ => _ end => change (knd m) end.
  pose proof (fun r => n_inv d sc r X). kn.
Qed.

(** *** Programs *)
Definition kline (l : line) : Prop := forall d rs, knd (l_fun l d rs).
Lemma n_negate d r m : knd (negate_bitmask d r m).
Proof. unfold negate_bitmask, negate_step, g_x. pose proof (fun r => n_gate (aco d) (n_aco d) UX r Logic.I). kn. Qed.
Lemma n_run_line d e l : kline l -> knd (run_line d e l).
Proof. intros K. unfold run_line, call_line, in_condition. pose proof n_negate. pose proof (K d). pose proof (K (S d)). kn. Qed.
Lemma n_program d rs ls : Forall kline ls -> knd (program d rs ls).
Proof. intros K. unfold program. rewrite Forall_forall in K. apply n_bind; [apply n_lift|]. intros. apply n_bind; [|intros; apply n_lift]. apply n_fold. intros. apply n_run_line, K. assumption. Qed.
Lemma n_op_x d rs : knd (op_x d rs).
Proof. unfold op_x, op1, g_x. pose proof (fun r => n_gate (aco d) (n_aco d) UX r Logic.I). kn. Qed.
Ltac klines := repeat apply Forall_cons; try apply Forall_nil; unfold kline; cbn [call control control_mask l_fun]; intros.

Lemma n_sum d rs : knd (sum d rs). Proof. unfold sum. apply n_program. klines; apply n_op_x. Qed.
Lemma n_carry d rs : knd (carry d rs). Proof. unfold carry. apply n_program. klines; apply n_op_x. Qed.
Lemma n_carry_inv d rs : knd (carry_inv d rs). Proof. apply n_inv_macro. intros; apply n_carry. Qed.
Lemma n_add_fuel f : forall d rs, knd (add_fuel f d rs).
Proof.
  induction f as [|f IH]; intros d rs; cbn [add_fuel]; [apply n_crash|]. destruct rs as [|rc [|ra [|rb [|? ?]]]]; try apply n_crash.
  destruct (_ && _ && _); [apply n_program; klines; [apply n_carry|apply n_sum]|]. destruct (_ && _); [|apply n_fail].
  apply n_program. klines; [apply n_carry|apply IH|apply n_carry_inv|apply n_sum].
Qed.
Lemma n_add d rs : knd (add d rs). Proof. apply n_add_fuel. Qed.
Lemma n_add_inv d rs : knd (add_inv d rs). Proof. apply n_inv_macro. intros; apply n_add. Qed.
Lemma n_add_mod d rs : knd (add_mod d rs).
Proof.
  unfold add_mod. pose proof n_make_reg. pose proof (fun rs ls K => n_program d rs ls K). kn. klines; first [apply n_add|apply n_add_inv|apply n_op_x].
Qed.
Lemma n_rshift d rs : knd (rshift d rs).
Proof. unfold rshift, rshift_step. pose proof (n_swap (aco d) (n_aco d)). kn. Qed.
Lemma n_lshift d rs : knd (lshift d rs). Proof. apply n_inv_macro. intros; apply n_rshift. Qed.
Lemma n_copy d rs : knd (copy d rs).
Proof. unfold copy, copy_step. pose proof (n_cnot (aco d) (n_aco d)). kn. Qed.
Lemma n_copy_inv d rs : knd (copy_inv d rs). Proof. apply n_inv_macro. intros; apply n_copy. Qed.
Lemma n_times_mod d rs : knd (times_mod d rs).
Proof.
  unfold times_mod. pose proof n_make_reg.
  assert (forall n i rs, knd (times_first d n i rs)) by (intros; apply n_program; klines; first [apply n_add_inv|apply n_op_x|apply n_add|apply n_add_mod|apply n_rshift]).
  assert (forall n i rs, knd (times_second d n i rs)).
  { intros n i rs0. unfold times_second. assert (forall rs, knd (program d rs [call lshift [whole 0]; control add_inv [part 2 [i]; whole 3; whole 1; whole 0]; control op_x [part 0 [n]; part 2 [i]]; call add [whole 3; whole 1; whole 0]])).
    { intros. apply n_program. klines; first [apply n_lshift|apply n_add_inv|apply n_op_x|apply n_add]. } kn. }
  kn.
Qed.
Lemma n_times_mod_inv d rs : knd (times_mod_inv d rs). Proof. apply n_inv_macro. intros; apply n_times_mod. Qed.
Lemma n_square_mod d rs : knd (square_mod d rs).
Proof.
  unfold square_mod. pose proof n_make_reg. pose proof (fun rs ls K => n_program d rs ls K). kn. klines; first [apply n_copy|apply n_times_mod|apply n_copy_inv].
Qed.
Lemma n_square_mod_inv d rs : knd (square_mod_inv d rs). Proof. apply n_inv_macro. intros; apply n_square_mod. Qed.
Lemma n_exp_mod_fuel f : forall d rs, knd (exp_mod_fuel f d rs).
Proof.
  induction f as [|f IH]; intros d rs; cbn [exp_mod_fuel]; [apply n_crash|]. pose proof n_make_reg. pose proof (fun rs ls K => n_program d rs ls K). kn.
  - klines; first [apply n_copy|apply n_times_mod].
  - klines; first [apply n_copy|apply n_copy_inv|apply n_times_mod|apply n_times_mod_inv|apply n_square_mod|apply n_square_mod_inv|apply IH].
Qed.
