(** Measurement handles. *)
From Coq Require Import Reals Lra FunctionalExtensionality.
From Coquelicot Require Import Complex.
From Verif Require Import Base BitsSpec BitsProofs OpsModel OpsSpec Instances MeasureModel MeasureSpec MeasureProofs MeasureProofs2
  BuilderModel SimModel DenSpec DenProofs ConserveProofs ConserveProofs2 HistorySpec HistoryProofs.
Local Open Scope nat_scope.

Lemma foldM_app {A B} (f : A -> B -> res A) l1 : forall l2 a, foldM f (l1 ++ l2) a = bind (foldM f l1 a) (fun a' => foldM f l2 a').
Proof. induction l1 as [|b l1 IH]; intros l2 a; cbn [foldM app]; [reflexivity|]. destruct (f a b); cbn [bind]; auto. Qed.

(** one step adds a result exactly for a measurement *)
Lemma sim_step_results n draws v a ms e v' a' ms' : sim_step n draws (v, a, ms) e = Ok (v', a', ms') ->
  exists l, ms' = ms ++ l /\ length l = if is_meas e then 1 else 0.
Proof.
  destruct e as [qs co]. unfold sim_step, is_meas. cbn [snd]. destruct (co_obj co) as [u|[]]; intros H.
  - exists []. rewrite app_nil_r. destruct u; cbn [bind] in H;
      try (match type of H with bind (bind ?x _) _ = _ => destruct x as [o| |]; cbn [bind] in H; try discriminate end);
      try (destruct (apply_op_overwrite _ _ _ _ _ _ _); cbn [bind] in H; try discriminate);
      inversion H; auto.
  - destruct (measure _ _ _ _ _ _ _) as [[[m p] w]| |]; cbn [bind] in H; try discriminate. inversion H. eexists. split; reflexivity.
  - destruct (measure_probs _ _ _ _) as [ps| |]; cbn [bind] in H; try discriminate. inversion H. eexists. split; reflexivity.
Qed.

Lemma sim_results n draws p : forall v a ms v' a' ms', foldM (sim_step n draws) p (v, a, ms) = Ok (v', a', ms') ->
  exists l, ms' = ms ++ l /\ length l = nmeas p.
Proof.
  induction p as [|e p IH]; intros v a ms v' a' ms' H; cbn [foldM] in H.
  - inversion H. exists []. rewrite app_nil_r. auto.
  - destruct (sim_step n draws (v, a, ms) e) as [[[v1 a1] ms1]| |] eqn:E; cbn [bind] in H; try discriminate.
    apply sim_step_results in E. destruct E as (l1 & -> & L1). apply IH in H. destruct H as (l2 & -> & L2).
    exists (l1 ++ l2). rewrite app_assoc. split; [reflexivity|]. unfold nmeas in *. cbn [filter]. destruct (is_meas e); rewrite app_length; cbn [length]; lia.
Qed.

(** The result of a single measurement entry is found at the number of measurements before it. *)
Lemma sim_single n draws p1 r k p2 v a v' a' ms' :
  foldM (sim_step n draws) (p1 ++ (r, mkCO k (OMeas MSingle)) :: p2) (v, a, []) = Ok (v', a', ms') ->
  exists v0 a0 ms0 m p w, foldM (sim_step n draws) p1 (v, a, []) = Ok (v0, a0, ms0) /\ length ms0 = nmeas p1 /\
    measure (draws (nmeas p1)) n r v0 a0 None None = Ok ((m, p), w) /\ get_measurement ms' (nmeas p1) = Ok (m, p).
Proof.
  intros H. rewrite foldM_app in H. destruct (foldM _ p1 _) as [[[v0 a0] ms0]| |] eqn:E; cbn [bind foldM] in H; try discriminate.
  pose proof E as E'. apply sim_results in E'. destruct E' as (l & El & L). cbn in El. subst l.
  unfold sim_step in H at 1. cbn [co_obj] in H. destruct (measure (draws (length ms0)) n r v0 a0 None None) as [[[m p] w]| |] eqn:Em; cbn [bind] in H; try discriminate.
  apply sim_results in H. destruct H as (l2 & -> & _). exists v0, a0, ms0, m, p, w. rewrite <- L. repeat split; auto.
  unfold get_measurement. rewrite <- app_assoc. unfold idx. rewrite nth_error_app2, Nat.sub_diag by lia. reflexivity.
Qed.
Lemma sim_stochastic n draws p1 r k p2 v a v' a' ms' :
  foldM (sim_step n draws) (p1 ++ (r, mkCO k (OMeas MStoch)) :: p2) (v, a, []) = Ok (v', a', ms') ->
  exists v0 a0 ms0 ps, foldM (sim_step n draws) p1 (v, a, []) = Ok (v0, a0, ms0) /\ length ms0 = nmeas p1 /\
    measure_probs n r v0 0 = Ok ps /\ get_stochastic_measurement ms' (nmeas p1) = Ok ps.
Proof.
  intros H. rewrite foldM_app in H. destruct (foldM _ p1 _) as [[[v0 a0] ms0]| |] eqn:E; cbn [bind foldM] in H; try discriminate.
  pose proof E as E'. apply sim_results in E'. destruct E' as (l & El & L). cbn in El. subst l.
  unfold sim_step in H at 1. cbn [co_obj] in H. destruct (measure_probs n r v0 0) as [ps| |] eqn:Em; cbn [bind] in H; try discriminate.
  apply sim_results in H. destruct H as (l2 & -> & _). exists v0, a0, ms0, ps. rewrite <- L. repeat split; auto.
  unfold get_stochastic_measurement. rewrite <- app_assoc. unfold idx. rewrite nth_error_app2, Nat.sub_diag by lia. reflexivity.
Qed.

(** Without replayed measurements the counter is the number of measurement entries. *)
Definition counted (cl : client) : Prop := meas (bld (fst cl)) = nmeas (pipeline (bld (fst cl))).
Definition handle_ok (c : call) : Prop := distinct_positions c /\ no_meas_objects c.

Lemma do_call_counted cl c ps cl' : handle_ok c -> legal (snd cl) ps -> do_call cl c ps = Some cl' -> counted cl -> counted cl'.
Proof.
  destruct cl as [s rs], cl' as [s' rs']. intros (HD & HM) HL H G. apply (do_call_post True) in H; [|exact HD|intros _; exact HM|exact HL].
  destruct H as (_ & (p & E & Mm & _) & _). unfold counted in *. cbn [fst] in *. rewrite E, nmeas_app. specialize (Mm I). lia.
Qed.
Lemma reach_counted cl cl' : reach handle_ok cl cl' -> counted cl -> counted cl'.
Proof. intros H G. induction H; [exact G|]. eapply do_call_counted; eauto. Qed.

(** What a run produced for the entry after the prefix [p1] of the pipeline. *)
Definition sim_init (b : builder) (it : list (reg * nat)) (v0 : list C) : Prop :=
  exists i, initial_index (bn b) it = Ok i /\ v0 = upd_nth i (RtoC 1) (repeat (RtoC 0) (2 ^ bn b)).

Lemma calculate_inv b it draws v ms : calculate_state_with_init b it draws = Ok (v, ms) ->
  exists i a, initial_index (bn b) it = Ok i /\ i < 2 ^ bn b /\
    foldM (sim_step (bn b) draws) (pipeline b) (upd_nth i (RtoC 1) (repeat (RtoC 0) (2 ^ bn b)), repeat (RtoC 0) (2 ^ bn b), []) = Ok (v, a, ms).
Proof.
  unfold calculate_state_with_init. intros H. destruct (initial_index (bn b) it) as [i| |]; cbn [bind] in H; try discriminate.
  destruct (idx (repeat (RtoC 0) (2 ^ bn b)) i) as [x| |] eqn:X; cbn [bind] in H; try discriminate.
  match type of H with match ?x with _ => _ end = _ => destruct x as [[[v1 a1] ms1]| |] eqn:E; try discriminate end.
  inversion H; subst. exists i, a1. repeat split; auto.
  apply idx_inv in X. assert (Y : nth_error (repeat (RtoC 0) (2 ^ bn b)) i <> None) by congruence. apply nth_error_Some in Y. rewrite repeat_length in Y. exact Y.
Qed.

(** The state when the entry after prefix [p1] was reached. *)
Definition state_before (b : builder) (it : list (reg * nat)) (draws : nat -> R) (p1 : pipe) (v0 arena : list C) : Prop :=
  exists i ms, initial_index (bn b) it = Ok i /\
    foldM (sim_step (bn b) draws) p1 (upd_nth i (RtoC 1) (repeat (RtoC 0) (2 ^ bn b)), repeat (RtoC 0) (2 ^ bn b), []) = Ok (v0, arena, ms).

Lemma handle_single cl r s1 rs1 h cl2 it draws v ms :
  reach handle_ok start cl -> measure_single r (fst cl) = Ret (r, h) s1 -> reach handle_ok (s1, rs1) cl2 ->
  calculate_state_with_init (bld (fst cl2)) it draws = Ok (v, ms) ->
  exists p2 v0 arena m p w,
    pipeline (bld (fst cl2)) = pipeline (bld (fst cl)) ++ (r, mkCO (length r) (OMeas MSingle)) :: p2 /\
    state_before (bld (fst cl2)) it draws (pipeline (bld (fst cl))) v0 arena /\
    measure (draws h) (bn (bld (fst cl2))) r v0 arena None None = Ok ((m, p), w) /\
    get_measurement ms h = Ok (m, p).
Proof.
  intros H1 HM H2 HC. assert (K : counted cl) by (eapply reach_counted; [exact H1|reflexivity]).
  cbn in HM. inversion HM; subst. clear HM. destruct (reach_append _ _ _ H2) as ((p2 & E) & _). cbn [fst bld pipeline] in E.
  rewrite <- app_assoc in E. cbn [app] in E. apply calculate_inv in HC. destruct HC as (i & a & Hi & _ & HC). rewrite E in HC.
  apply sim_single in HC. destruct HC as (v0 & a0 & ms0 & m & p & w & S1 & S2 & S3 & S4).
  exists p2, v0, a0, m, p, w. unfold counted in K. rewrite K. split; [exact E|]. split; [exists i, ms0; auto|]. auto.
Qed.
Lemma handle_stochastic cl r s1 rs1 h cl2 it draws v ms :
  reach handle_ok start cl -> measure_stochastic r (fst cl) = Ret (r, h) s1 -> reach handle_ok (s1, rs1) cl2 ->
  calculate_state_with_init (bld (fst cl2)) it draws = Ok (v, ms) ->
  exists p2 v0 arena ps,
    pipeline (bld (fst cl2)) = pipeline (bld (fst cl)) ++ (r, mkCO (length r) (OMeas MStoch)) :: p2 /\
    state_before (bld (fst cl2)) it draws (pipeline (bld (fst cl))) v0 arena /\
    measure_probs (bn (bld (fst cl2))) r v0 0 = Ok ps /\
    get_stochastic_measurement ms h = Ok ps.
Proof.
  intros H1 HM H2 HC. assert (K : counted cl) by (eapply reach_counted; [exact H1|reflexivity]).
  cbn in HM. inversion HM; subst. clear HM. destruct (reach_append _ _ _ H2) as ((p2 & E) & _). cbn [fst bld pipeline] in E.
  rewrite <- app_assoc in E. cbn [app] in E. apply calculate_inv in HC. destruct HC as (i & a & Hi & _ & HC). rewrite E in HC.
  apply sim_stochastic in HC. destruct HC as (v0 & a0 & ms0 & ps & S1 & S2 & S3 & S4).
  exists p2, v0, a0, ps. unfold counted in K. rewrite K. split; [exact E|]. split; [exists i, ms0; auto|]. auto.
Qed.

(** Replaying a measuring subcircuit shifts later handles. *)
Definition meas_sub : pipe := [([0], mkCO 1 (OMeas MSingle))].
Definition shifted : builder := mkB [([0], mkCO 1 (OMeas MSingle)); ([0], mkCO 1 (OMeas MStoch))] 1 [] 1.

Lemma in_range_10 : in_range 1 [0]. Proof. intros q [<-|[]]. lia. Qed.
Lemma shifted_runs : exists v ms, calculate_state shifted (fun _ => (/2)%R) = Ok (v, ms).
Proof.
  unfold calculate_state, calculate_state_with_init. cbn [bn shifted initial_index mapM bind concat map fold_left].
  change (2 ^ 1) with 2. cbn [repeat idx nth_error bind upd_nth pipeline shifted foldM].
  unfold sim_step at 1. cbn [co_obj].
  destruct (measure_ok (/2)%R 1 [0] [RtoC 1; RtoC 0] [RtoC 0; RtoC 0]) as (m & p & w & E & _ & _ & _ & _ & L & _); try reflexivity.
  - exact in_range_10.
  - repeat constructor; cbn; tauto.
  - unfold prob_magnitude, nsum, norm_sqr. cbn. ring.
  - lra.
  - cbn [length]. rewrite E. cbn [bind]. unfold sim_step. cbn [co_obj].
    destruct (measure_probs_ok 1 [0] w) as (ps & Ep & _); [exact in_range_10|repeat constructor; cbn; tauto|exact L|].
    rewrite Ep. cbn [bind]. eexists _, _. reflexivity.
Qed.

Lemma handle_misaligned : exists cl r s1,
  reach distinct_positions start cl /\ measure_stochastic r (fst cl) = Ret (r, 0) s1 /\
  (exists v ms, calculate_state (bld s1) (fun _ => (/2)%R) = Ok (v, ms)) /\
  forall draws v ms, calculate_state (bld s1) draws = Ok (v, ms) -> get_stochastic_measurement ms 0 = Panic PUnreachable.
Proof.
  exists (mkSt (mkB meas_sub 1 [] 0) [], [[0]]), [0], (mkSt shifted []). split; [|split; [reflexivity|split; [exact shifted_runs|]]].
  - eapply reach_step with (c := CSubcircuit meas_sub) (ps := [0]).
    + eapply reach_step with (c := CRegister 1) (ps := []); [apply reach_refl|exact I|split; [constructor|intros ? []]|reflexivity].
    + exact I.
    + split; [repeat constructor; cbn; tauto|intros q [<-|[]]; cbn; lia].
    + reflexivity.
  - intros draws v ms H. apply calculate_inv in H. destruct H as (i & a & _ & _ & H). cbn [bld shifted pipeline] in H.
    apply (sim_single _ _ []) in H. destruct H as (v0 & a0 & ms0 & m & p & w & _ & _ & _ & H). cbn [nmeas filter length] in H.
    unfold get_measurement, get_stochastic_measurement in *. destruct (idx ms 0) as [[?|?]| |]; cbn [bind] in *; try discriminate. reflexivity.
Qed.
