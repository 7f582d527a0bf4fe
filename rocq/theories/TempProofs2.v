From Coq Require Import Reals Lra ZArith QArith FunctionalExtensionality Permutation.
From Coquelicot Require Import Complex.
From Verif Require Import Base BitsSpec BitsProofs OpsModel OpsSpec Instances BuilderModel RegProofs ConserveProofs HistorySpec HistoryProofs HistoryProofs2 TidyProofs NonemptyProofs SimModel DenSpec SimSpec DenProofs LocalProofs LinkProofs
  RunSpec RunProofs GateProofs ToffoliProofs CondProofs CondToffProofs PropCond OutcomeSpec OutcomeProofs OutcomeProofs2 OutcomeProofs4 PropOutcome MoveSpec MoveProofs ProjSpec WholeSpec WholeProofs WholeProofs2 WholeProofs3 ShapeSpec AwaySpec AwayProofs AwayProofs2 TempSpec TempProofs.
Local Open Scope nat_scope.
Local Open Scope mon_scope.

(** *** Steps whose operation is known *)
Definition nstep (s s' : st) : Prop := bn (bld s) <= bn (bld s') /\ tidy s' /\ exists p, pipeline (bld s') = pipeline (bld s) ++ p /\ Forall (wf_entry (bn (bld s'))) p /\ Forall proper_entry p /\
  forall N psi, bn (bld s') <= N -> (forall q, idle s q -> q < N -> clean [q] psi) -> forall q, idle s' q -> q < N -> clean [q] (den p psi).
Lemma nstep_pstep s s' : nstep s s' -> pstep s s'.
Proof.
  intros (B & (_ & _ & T) & p & E & W & P & H). split; [exact B|]. exists p. split; [exact E|]. intros ms psi C. rewrite plain_branch by (apply does_plain, P).
  apply clean_all. intros q Hq. apply (H (bn (bld s')) psi (le_n _) C q); [right; exact Hq|apply T, Hq].
Qed.
Lemma nstep_trans s1 s2 s3 : nstep s1 s2 -> nstep s2 s3 -> nstep s1 s3.
Proof.
  intros (B1 & T1 & p1 & E1 & W1 & P1 & H1) (B2 & T2 & p2 & E2 & W2 & P2 & H2). split; [lia|]. split; [exact T2|]. exists (p1 ++ p2).
  split; [rewrite E2, E1, app_assoc; reflexivity|]. split; [apply Forall_app; split; [eapply wf_wider; [exact B2|exact W1]|exact W2]|]. split; [apply Forall_app; auto|].
  intros N psi HN C q Hq Hlt. rewrite den_app. apply (H2 N); [exact HN| |exact Hq|exact Hlt]. intros i Hi Hil. apply (H1 N); [lia|exact C|exact Hi|exact Hil].
Qed.
Lemma moves_nstep {A} s c L (m : M A) a L' D s' : moves s c L m a L' D -> incl L L' -> m s = Ret a s' -> nstep s s'.
Proof.
  intros (s1 & p & H1 & _ & _ & B & E & W & P & T & Lv & I & Lo & H) Hi Em. rewrite Em in H1. inversion H1; subst s1. split; [exact B|]. split; [exact T|]. exists p. do 3 (split; [assumption|]).
  intros N psi HN C q Hq Hlt. rewrite H by (intros i Hi' Hl; apply C; [exact Hi'|lia]).
  assert (X : ~ In q L) by (intros X; apply (proj2 Lv q); [apply Hi, X|exact Hq]). apply Lo; [exact X|]. apply C; [|exact Hlt].
  destruct (proj1 (I q) (or_introl Hq)) as [Y|Y]; [exact Y|contradiction].
Qed.
Lemma does_nstep {A} s L (m : M A) a L' D s' : does s L m a L' D -> incl L L' -> m s = Ret a s' -> nstep s s'.
Proof. intros H. eapply moves_nstep, moves_does, H. Qed.
Lemma wp_both {A} (m : M A) s Q1 Q2 : wp m s Q1 -> wp m s Q2 -> wp m s (fun a s' => Q1 a s' /\ Q2 a s').
Proof. intros (a & s1 & E1 & H1) (b & s2 & E2 & H2). rewrite E1 in E2. inversion E2; subst. exists b, s2. auto. Qed.
Lemma moves_wp {A} s c L (m : M A) a D : moves s c L m a L D -> wp m s (fun _ s' => nstep s s').
Proof. intros H. pose proof H as (s' & p & E & _). exists a, s'. split; [exact E|]. eapply moves_nstep; [exact H|apply incl_refl|exact E]. Qed.
Lemma does_wp {A} s L (m : M A) a D : does s L m a L D -> wp m s (fun _ s' => nstep s s').
Proof. intros H. eapply moves_wp, moves_does, H. Qed.

(** The object does not leave a temporary behind. *)
Definition tame (co : cobj) (n : nat) : Prop := match co_obj co with OUnit UH => n = 1 | OUnit (UPhase _) => False | _ => True end.
Lemma aco_nstep d co r s F : 0 < d -> r <> [] -> object_verdict d co (length r) = Works -> tame co (length r) -> owns d s (r ++ F) -> wp (aco d r co) s (fun _ s' => nstep s s').
Proof.
  intros Hd Hr Hv Ht (T & E & W & Lv). assert (L1 : live s (cqs d (conds s) ++ r)) by (rewrite app_assoc in Lv; eapply live_part; [reflexivity|exact Lv]). clear Lv.
  assert (X : forall D, cond_ok co r D -> wp (aco d r co) s (fun _ s' => nstep s s')) by (intros D H; eapply does_wp, (aco_does co r D H); assumption).
  unfold object_verdict in Hv. destruct (Nat.eqb_spec d 0); [lia|]. unfold object_verdict1, tame in *. destruct co as [k o]. cbn [co_obj] in *.
  assert (Y : forall u c, (forall s1 t L, tidy s1 -> live s1 L -> In t L -> does s1 L (BuilderModel.gate local_aco u [t]) [t] L (each (diag (RtoC 1) c) [t])) -> 
     (forall cs r0, local_try cs r0 (mkCO k (OUnit u)) = cond_phase (BuilderModel.gate local_aco u) cs r0) -> wp (aco d r (mkCO k (OUnit u))) s (fun _ s' => nstep s s')).
  { intros u c G El. destruct (@exists_last _ r Hr) as (ts & t & ->).
    eapply moves_wp. apply (aco_moves (mkCO k (OUnit u)) (ts ++ [t]) ts [t] (fun K => ctl_phase (K ++ ts ++ [t]) c)); [|reflexivity|exact Hd|exact W|exact T|exact L1].
    intros s0 cs Hc T0 L0. rewrite El. apply (cond_phase_does (BuilderModel.gate local_aco u) c cs ts t s0 T0 L0 Hc). intros s1 t1 L T1 L2 I. apply G; assumption. }
  destruct o as [[]|m]; try discriminate; try contradiction.
  - eapply X, try_X; exact Hr.
  - eapply X, try_Y; exact Hr.
  - eapply X, try_Z; exact Hr.
  - destruct r as [|q [|]]; try discriminate. eapply X, try_H.
  - apply (Y US Ci); [|reflexivity]. intros s1 t L T1 L2 I. apply (gate_does US); auto; [intros q [<-|[]]; exact I|repeat constructor; cbn; tauto|discriminate].
  - apply (Y UT (expi (PI / 4))); [|reflexivity]. intros s1 t L T1 L2 I. apply (gate_does UT); auto; [intros q [<-|[]]; exact I|repeat constructor; cbn; tauto|discriminate].
  - destruct (Nat.eqb_spec (length r) 2) as [El|]; [|discriminate]. destruct r as [|a [|b [|]]]; try discriminate. eapply X, try_CNOT.
  - destruct (Nat.even _) in Hv; discriminate.
  - eapply X, try_Rz; exact Hr.
Qed.

(** *** Calls that leave the LocalBuilder alone *)
Definition still {A} (m : M A) : Prop := forall s, match m s with Ret _ s' => bld s' = bld s | Fail _ s' => bld s' = bld s | Crash _ => True end.
Lemma sl_ret {A} (a : A) : still (ret a). Proof. intros s. reflexivity. Qed.
Lemma sl_fail {A} e : still (@fail A e). Proof. intros s. reflexivity. Qed.
Lemma sl_crash {A} p : still (@crash A p). Proof. intros s. exact I. Qed.
Lemma sl_lift {A} (r : res A) : still (lift r). Proof. intros s. unfold lift. destruct r; reflexivity || exact I. Qed.
Lemma sl_bind {A B} (m : M A) (f : A -> M B) : still m -> (forall a, still (f a)) -> still (mbind m f).
Proof.
  intros H G s. specialize (H s). unfold mbind. destruct (m s) as [a s1|e s1|p]; [|exact H|exact I]. specialize (G a s1). destruct (f a s1); [congruence|congruence|exact I].
Qed.
Lemma sl_bind_lift {A B} (r : res A) (f : A -> M B) : (forall a, r = Ok a -> still (f a)) -> still (mbind (lift r) f).
Proof. intros H s. unfold mbind, lift. destruct r as [a|e|p]; [apply H; reflexivity|reflexivity|exact I]. Qed.
Lemma sl_massert b : still (massert b). Proof. destruct b; [apply sl_ret|apply sl_crash]. Qed.
Lemma sl_take k : still (take_cr k). Proof. intros s. unfold take_cr. destruct (nth_error (conds s) k) as [[r|]|]; reflexivity || exact I. Qed.
Lemma sl_put k r : still (put_cr k r). Proof. intros s. reflexivity. Qed.
Lemma sl_mfold {A B} (f : A -> B -> M A) (Q : A -> Prop) l : (forall a b, Q a -> still (f a b)) -> (forall a b s a' s', Q a -> f a b s = Ret a' s' -> Q a') -> forall a, Q a -> still (mfold f l a).
Proof.
  intros H G. induction l as [|b l IH]; intros a Ha; cbn [mfold]; [apply sl_ret|]. intros s. specialize (H a b Ha s). unfold mbind. destruct (f a b s) as [a1 s1|e s1|p] eqn:E; [|exact H|exact I].
  specialize (IH a1 (G _ _ _ _ _ Ha E) s1). destruct (mfold f l a1 s1); [congruence|congruence|exact I].
Qed.
Lemma cnot_wide ac cr r s : 1 < length cr -> cnot ac cr r s = Fail (EOther 1) s.
Proof. intros H. unfold cnot. apply Nat.ltb_lt in H. rewrite H. reflexivity. Qed.
Lemma swap_half_errs cr ra rb s : cr <> [] -> 1 <= length ra -> exists e, cond_swap_half cr ra rb s = Fail e s.
Proof.
  intros Hc Ha. unfold cond_swap_half. unfold mbind at 1. rewrite merge2_ok by exact Hc. cbn [lift]. unfold mbind at 1. rewrite cnot_wide; [eexists; reflexivity|].
  rewrite app_length. destruct cr; [congruence|]. cbn. lia.
Qed.
Lemma swap_step_still acc p : fst (fst acc) <> [] -> still (cond_swap_step acc p) /\ forall s a s', cond_swap_step acc p s <> Ret a s'.
Proof.
  intros H. destruct acc as [[cr ras] rbs], p as [ra rb]. cbn [fst] in H. unfold cond_swap_step.
  assert (X : forall s, match (_ <- massert (length ra =? 1) ;; _ <- massert (length rb =? 1) ;; '(cr, ra, rb) <- cond_swap_half cr ra rb ;; '(cr, rb, ra) <- cond_swap_half cr rb ra ;; '(cr, ra, rb) <- cond_swap_half cr ra rb ;; ret (cr, ras ++ [ra], rbs ++ [rb])) s with
     Ret _ _ => False | Fail _ s' => bld s' = bld s | Crash _ => True end).
  { intros s. unfold massert. destruct (Nat.eqb_spec (length ra) 1) as [E|E]; [|exact I]. destruct (length rb =? 1); [|exact I].
    destruct (swap_half_errs cr ra rb s H) as (e & Ee); [lia|]. unfold mbind, ret. rewrite Ee. reflexivity. }
  match type of X with forall s, match ?m s with _ => _ end => generalize dependent m end. intros m X.
  split; intros s; specialize (X s); [destruct (m s); [destruct X|exact X|exact I]|]. intros a s' E. rewrite E in X. exact X.
Qed.
Lemma local_still cr r co : cr <> [] -> co_obj co = OUnit USWAP \/ (exists m, co_obj co = OMeas m) -> still (local_try cr r co).
Proof.
  intros Hc [E|(m & E)]; unfold local_try; rewrite E; [|apply sl_fail]. apply sl_bind; [apply sl_massert|]. intros _. apply sl_bind; [apply sl_lift|]. intros rs.
  apply sl_bind; [unfold split_vector_at; apply sl_bind; [apply sl_massert|intros; apply sl_ret]|]. intros [ra rb]. apply sl_bind.
  - apply (sl_mfold cond_swap_step (fun acc => fst (fst acc) <> [])); [intros a b Ha; apply swap_step_still, Ha| |exact Hc].
    intros a b s a' s' Ha Ea. destruct (proj2 (swap_step_still a b Ha) s a' s' Ea).
  - intros [[? ?] ?]. apply sl_bind; [apply sl_lift|]. intros. apply sl_bind; [apply sl_lift|]. intros. apply sl_ret.
Qed.
Lemma try_still r co : co_obj co = OUnit USWAP \/ (exists m, co_obj co = OMeas m) -> forall d cr, cr <> [] -> still (try_cond d cr r co).
Proof.
  intros H. induction d as [|d IH]; intros cr Hc; cbn [try_cond]; [apply local_still; assumption|]. apply sl_bind; [apply sl_take|]. intros ccr. apply sl_bind_lift. intros cr' E.
  apply sl_bind.
  - apply IH. rewrite merge2_ok in E by exact Hc. inversion E. destruct cr; [congruence|discriminate].
  - intros [cr2 r2]. unfold give_back. apply sl_bind; [apply sl_lift|]. intros [x|x|x y]; [apply sl_crash|apply sl_crash|]. apply sl_bind; [apply sl_put|intros; apply sl_ret].
Qed.
Lemma aco_still d r co s : 0 < d -> wrapped d (conds s) -> co_obj co = OUnit USWAP \/ (exists m, co_obj co = OMeas m) ->
  match aco d r co s with Ret _ s' => bld s' = bld s | Fail _ s' => bld s' = bld s | Crash _ => True end.
Proof.
  intros Hd W H. destruct d as [|k]; [lia|]. cbn [aco]. destruct (W k (Nat.lt_succ_diag_r k)) as (c & E & Hc). unfold mbind at 1, take_cr. rewrite E.
  pose proof (sl_bind (try_cond k c r co) (fun '(cr, r) => _ <- put_cr k cr ;; ret r) (try_still r co H k c Hc)) as X.
  apply (X (fun '(cr, r) => sl_bind _ _ (sl_put k cr) (fun _ => sl_ret r)) (mkSt (bld s) (upd_nth k None (conds s)))).
Qed.

(** *** A wrapper that lost its register *)
Definition lost (s : st) : Prop := Forall (fun r => r <> []) (somes (conds s)) /\ ~ Forall (fun o => o <> None) (conds s).
Lemma aco_lost s r co : lost s -> exists p, aco (length (conds s)) r co s = Crash p.
Proof.
  intros (F & W). assert (X : OutcomeSpec.seen (aco (length (conds s)) r co s) = Panics).
  { assert (X : exists k, k < length (conds s) /\ nth_error (conds s) k = Some None).
    { destruct (existsb (fun o => match o with None => true | _ => false end) (conds s)) eqn:E.
      - apply existsb_exists in E. destruct E as ([|] & Hi & Eo); [discriminate|]. apply In_nth_error in Hi. destruct Hi as (k & Hk). exists k. split; [|exact Hk]. apply nth_error_Some. congruence.
      - exfalso. apply W. apply Forall_forall. intros o Ho ->. apply Bool.not_true_iff_false in E. apply E. apply existsb_exists. exists None. auto. }
    destruct X as (k & Hk & E). destruct (length (conds s)) as [|d] eqn:El; [lia|]. cbn [aco]. unfold mbind at 1, take_cr. destruct (nth_error (conds s) d) as [[c|]|] eqn:Ed; [|reflexivity|reflexivity].
    apply seen_bind; [discriminate|]. apply try_lost.
    - rewrite Forall_forall in F. apply F. unfold somes. apply in_concat. exists [c]. split; [|left; reflexivity]. apply in_map_iff. exists (Some c). split; [reflexivity|]. eapply nth_error_In, Ed.
    - exists k. assert (k <> d) by congruence. split; [lia|]. cbn [conds]. rewrite nth_error_upd_nth. destruct (Nat.eqb_spec k d); [congruence|exact E]. }
  destruct (aco _ r co s) as [a s'|e s'|p]; [discriminate|discriminate|]. exists p. reflexivity.
Qed.
Definition dead {A} (m : M A) (s : st) : Prop := match m s with Ret _ _ => False | Fail _ s' => bld s' = bld s | Crash _ => True end.
Lemma dead_bind {A B} (m : M A) (f : A -> M B) s : dead m s -> dead (mbind m f) s.
Proof. unfold dead, mbind. destruct (m s); tauto. Qed.
Lemma dead_lift {A B} (r : res A) (f : A -> M B) s : (forall a, r = Ok a -> dead (f a) s) -> dead (mbind (lift r) f) s.
Proof. intros H. unfold dead, mbind, lift. destruct r as [a|e|p]; [apply (H a eq_refl)|reflexivity|exact I]. Qed.
Lemma dead_unwrap {A} (m : M A) s : dead m s -> dead (unwrapM m) s.
Proof. unfold dead, unwrapM. destruct (m s); tauto. Qed.
Section Lost.
Context (s : st) (L : lost s).
Let d := length (conds s).
Lemma dead_aco r co : dead (aco d r co) s.
Proof. destruct (aco_lost s r co L) as (p & E). unfold dead, d. rewrite E. exact I. Qed.
Lemma dead_cnot a b : dead (cnot (aco d) a b) s.
Proof.
  unfold cnot. destruct (1 <? length a); [reflexivity|]. apply dead_lift. intros rs _. destruct rs as [|r0 rs].
  - cbn [mfold]. unfold dead, mbind, ret. cbn. exact I.
  - cbn [mfold]. apply dead_bind, dead_bind. unfold cnot_step at 1. apply dead_lift. intros r _. apply dead_bind, dead_aco.
Qed.
Lemma dead_swap a b : dead (swap (aco d) a b) s.
Proof.
  unfold swap. destruct (length a =? length b); [|reflexivity]. apply dead_lift. intros ras _. apply dead_lift. intros rbs _. destruct (combine ras rbs) as [|[ra rb] l].
  - cbn. exact I.
  - cbn [mmap]. apply dead_bind, dead_bind. unfold swap_pair, massert. destruct (length ra =? 1); [|exact I]. destruct (length rb =? 1); [|exact I]. unfold mbind at 1 2, ret. unfold dead at 1. apply dead_unwrap, dead_bind, dead_cnot.
Qed.
Lemma dead_toffoli cr r : length cr <= 2 -> dead (toffoli (aco d) cr r) s.
Proof.
  intros H. unfold toffoli. cbn [toffoli_fuel]. destruct cr as [|a [|b [|]]]; [| | |cbn in H; lia].
  - exact I.
  - cbn [length Nat.eqb]. apply dead_cnot.
  - cbn [length Nat.eqb]. unfold basic_toffoli. cbn [length Nat.eqb]. apply dead_lift. intros [x|x|x y] _; [exact I|exact I|]. apply dead_bind. unfold g_h, BuilderModel.gate. apply dead_unwrap, dead_aco.
Qed.
Lemma dead_call c args : on_objects c = true -> dead (run_call d c args) s.
Proof.
  assert (O : forall (k : reg -> M (list reg)), (forall r, dead (k r) s) -> dead (one args k) s) by (intros k Hk; unfold one; destruct args as [|r [|]]; [exact I|apply Hk|exact I]).
  assert (O2 : forall (k : reg -> reg -> M (list reg)), (forall a b, dead (k a b) s) -> dead (two args k) s) by (intros k Hk; unfold two; destruct args as [|r [|r1 [|]]]; [exact I|exact I|apply Hk|exact I]).
  intros H. destruct c; try discriminate H; cbn [run_call]; first [apply O|apply O2]; intros; unfold out1, out2; apply dead_bind.
  - apply dead_aco.
  - unfold BuilderModel.gate. apply dead_unwrap, dead_aco.
  - unfold g_s_dagger, g_z, BuilderModel.gate. apply dead_bind, dead_unwrap, dead_aco.
  - unfold g_t_dagger, g_s_dagger, g_z, BuilderModel.gate. apply dead_bind, dead_bind, dead_unwrap, dead_aco.
  - unfold apply_matrix. apply dead_aco.
  - unfold broadcast_single_qubit_matrix, apply_matrix. apply dead_unwrap, dead_aco.
  - apply dead_cnot.
  - apply dead_swap.
Qed.
End Lost.
