From Coq Require Import Permutation ZArith QArith Reals.
From Verif Require Import Base BuilderModel RegProofs ConserveProofs ConserveProofs2 HistorySpec.
Local Open Scope nat_scope.

Section S.
Context (P : Prop).

Lemma s_one args k : (forall r, args = [r] -> spec P [r] (k r) (fun l => [concat l])) -> spec P [concat args] (one args k) (fun l => [concat l]).
Proof.
  intros H. destruct args as [|r [|? ?]]; try apply spec_crash. eapply spec_weak; [apply H; reflexivity|cn|cn].
Qed.
Lemma s_two args k : (forall a b, args = [a; b] -> spec P [a; b] (k a b) (fun l => [concat l])) -> spec P [concat args] (two args k) (fun l => [concat l]).
Proof.
  intros H. destruct args as [|r [|r2 [|? ?]]]; try apply spec_crash. eapply spec_weak; [apply H; reflexivity|cn|cn].
Qed.
Lemma s_out1 ins (m : M reg) : spec P ins m (fun r => [r]) -> spec P ins (out1 m) (fun l => [concat l]).
Proof. intros H. unfold out1. apply (spec_bind P ins m (fun r => [r]) []); [exact H|cn|]. intros r. apply spec_ret. cn. Qed.
Lemma s_out2 ins (m : M (reg * reg)) : spec P ins m (fun x => [fst x; snd x]) -> spec P ins (out2 m) (fun l => [concat l]).
Proof. intros H. unfold out2. apply (spec_bind P ins m (fun x => [fst x; snd x]) []); [exact H|cn|]. intros [a b]. apply spec_ret. cn. Qed.
Lemma of_opt_concat o : concat (of_opt o) = oregs o.
Proof. destruct o; cbn; [apply app_nil_r|reflexivity]. Qed.
Lemma of_split_concat sp : concat (of_split sp) = sp_qs sp.
Proof. destruct sp; cbn; rewrite ?app_nil_r; reflexivity. Qed.
Lemma of_many_concat sm : concat (of_many sm) = sm_qs sm.
Proof. destruct sm; cbn; rewrite ?concat_app; cbn; rewrite ?app_nil_r; reflexivity. Qed.

Lemma s_drop ins {A} (a : A) outs : (forall q, cnt q (concat (outs a)) = 0) -> spec P ins (ret a) outs.
Proof. intros H. apply spec_ret. intros q. rewrite H. lia. Qed.

Lemma split_abs_cnt q r is sp : NoDup is -> split_abs r is = Ok sp -> cnt q (sp_qs sp) <= cnt q r.
Proof.
  intros ND H. unfold split_abs in H. apply (split_rel_cnt q) in H; [exact H|]. clear H.
  induction is as [|a is IH]; [constructor|]. inversion ND; subst. cbn [map concat].
  destruct (find _ r) as [i|] eqn:E; cbn [app]; [|apply IH; assumption].
  apply find_some in E. destruct E as (_ & E). apply Nat.eqb_eq in E. subst. constructor; [|apply IH; assumption].
  intros Hi. apply H1. apply in_concat in Hi. destruct Hi as (l & Hl & Hi). apply in_map_iff in Hl. destruct Hl as (b & <- & Hb).
  destruct (find _ r) as [j|] eqn:E; [|destruct Hi]. destruct Hi as [->|[]]. apply find_some in E. destruct E as (_ & E).
  apply Nat.eqb_eq in E. subst. exact Hb.
Qed.

Lemma s_removelast (s : st) q : cnt q (oqs (removelast (conds s))) <= cnt q (oqs (conds s)).
Proof.
  destruct (conds s) as [|c l] using rev_ind; [reflexivity|]. rewrite removelast_last, oqs_app, cnt_app. lia.
Qed.
Lemma s_drop_wrapper : spec P [] drop_wrapper (fun _ => []).
Proof.
  intros s. cbn. apply (post_conds P s [] s [] (removelast (conds s))); [intros q; apply s_removelast|apply post_refl; cn].
Qed.

Lemma s_run_call d c args : distinct_positions c -> (P -> no_meas_objects c) -> spec P [concat args] (run_call d c args) (fun l => [concat l]).
Proof.
  intros HD HM. pose proof (s_aco P d) as Hac.
  destruct c; cbn [run_call distinct_positions no_meas_objects] in *;
    try (apply s_one; intros r _); try (apply s_two; intros ra rb _); try (destruct (d =? 0); [|apply spec_crash]; apply s_one; intros r _);
    try apply s_out1; try apply s_out2.
  - eapply spec_weak; [apply s_register|cn|cn].
  - eapply spec_weak; [|intros q; apply Nat.le_refl|intros; apply Nat.le_refl].
    apply (spec_bind P [] _ (fun o => [oregs o]) [concat args]); [apply s_qudit|cn|]. intros o. apply spec_ret. cn. rewrite of_opt_concat. lia.
  - apply s_merge2.
  - use (s_merge P args). apply spec_ret. cn. rewrite of_opt_concat. lia.
  - use (s_split_rel P r is HD). apply spec_ret. cn. rewrite of_split_concat. lia.
  - assert (X : spec P [r] (lift (split_abs r is)) (fun sp => [sp_qs sp])).
    { apply spec_lift. intros a q H. apply (split_abs_cnt q) in H; [|exact HD]. cn. }
    use X. apply spec_ret. cn. rewrite of_split_concat. lia.
  - apply s_split_all.
  - use (s_split_first P r). destruct a as [o r']. cbn [fst snd]. apply spec_ret. cn. rewrite of_opt_concat. cn.
  - use (s_split_last P r). destruct a as [r' o]. cbn [fst snd]. apply spec_ret. cn. rewrite of_opt_concat. cn.
  - assert (X : spec P [r] (lift (split_groups r gs)) (fun sm => [sm_qs sm])).
    { apply spec_lift. intros a q H. apply (split_groups_cnt q) in H. cn. }
    use X. apply spec_ret. cn. rewrite of_many_concat. lia.
  - apply Hac. exact HM.
  - apply s_gate; exact Hac.
  - apply s_sdg; exact Hac.
  - apply s_tdg; exact Hac.
  - apply s_apply_matrix; exact Hac.
  - apply s_broadcast; exact Hac.
  - apply s_cnot; exact Hac.
  - apply s_swap; exact Hac.
  - apply s_toffoli; exact Hac.
  - apply s_rz.
  - apply s_rx.
  - apply s_ry.
  - apply s_rz_ratio.
  - apply s_rx_ratio.
  - apply s_ry_ratio.
  - apply s_rz_pi_by.
  - apply s_rx_pi_by.
  - apply s_ry_pi_by.
  - apply s_phase.
  - apply s_phase_ratio.
  - apply s_phase_pi_by.
  - eapply spec_weak; [apply s_make_temp|cn|cn].
  - eapply spec_weak; [apply s_make_temp_reg|cn|cn].
  - use (s_return_temp P r). apply spec_ret. cn.
  - use (s_measure P MSingle r). destruct a as [x h]. apply spec_ret. cn.
  - use (s_measure P MStoch r). destruct a as [x h]. apply spec_ret. cn.
  - use (s_condition_with P r). apply spec_ret. cn.
  - eapply spec_weak; [apply s_dissolve|cn|cn].
  - apply (spec_bind P [] _ (fun _ => []) [concat args]); [apply s_drop_wrapper|cn|]. intros u. apply spec_ret. cn.
  - apply s_apply_sub. exact HM.
  - apply s_inverter.
  - apply s_inv_macro.
  - apply spec_ret. cn.
Qed.
End S.

(** *** Clients *)
Lemma pick_keep_cnt q rs ps : legal rs ps -> cnt q (concat (pick rs ps)) + cnt q (concat (keep rs ps)) = cnt q (concat rs).
Proof.
  intros (ND & R). rewrite <- cnt_app, <- concat_app. unfold pick, keep. rewrite <- map_app.
  assert (Pm : Permutation (ps ++ filter (fun p => negb (existsb (Nat.eqb p) ps)) (seq 0 (length rs))) (seq 0 (length rs))).
  { apply NoDup_Permutation.
    - apply NoDup_app_iff. split; [exact ND|]. split; [apply NoDup_filter, seq_NoDup|].
      intros i Hi Hf. apply filter_In in Hf. destruct Hf as (_ & Hf). apply (proj2 (existsb_eqb_In i ps)) in Hi. rewrite Hi in Hf. discriminate.
    - apply seq_NoDup.
    - intros i. rewrite in_app_iff, filter_In, in_seq. destruct (existsb (Nat.eqb i) ps) eqn:E.
      + apply existsb_eqb_In in E. apply R in E as E'. cbn. intuition lia.
      + assert (~ In i ps) by (intros Hi; apply (proj2 (existsb_eqb_In i ps)) in Hi; congruence). cbn. intuition. }
  apply (Permutation_map (fun p => nth p rs [])) in Pm.
  assert (X : forall l1 l2 : list reg, Permutation l1 l2 -> cnt q (concat l1) = cnt q (concat l2)).
  { intros l1 l2 H. induction H; cbn; rewrite ?cnt_app; try lia. }
  rewrite (X _ _ Pm). f_equal. f_equal. apply nth_ext with (d := []) (d' := []); rewrite map_length, seq_length; [reflexivity|].
  intros n Hn. rewrite nth_indep with (d' := nth 0 rs []) by (rewrite map_length, seq_length; exact Hn).
  rewrite (map_nth (fun p => nth p rs [])), seq_nth by exact Hn. reflexivity.
Qed.

Lemma held_cnt q s rs : cnt q (held (s, rs)) = cnt q (concat rs) + cnt q (reserve s).
Proof. unfold held, reserve, oqs. cbn [fst snd]. rewrite !cnt_app. lia. Qed.

Lemma do_call_post (P : Prop) s rs c ps s' rs' : distinct_positions c -> (P -> no_meas_objects c) -> legal rs ps ->
  do_call (s, rs) c ps = Some (s', rs') -> post P s [concat rs] s' [concat rs'].
Proof.
  intros HD HM HL H. cbn [do_call] in H.
  pose proof (s_run_call P (length (conds s)) c (pick rs ps) HD HM s) as S.
  assert (K : forall q, cnt q (concat (pick rs ps)) + cnt q (concat (keep rs ps)) = cnt q (concat rs)) by (intros q; apply pick_keep_cnt; exact HL).
  destruct (run_call _ c (pick rs ps) s) as [outs s1|e s1|p]; inversion H; subst.
  - eapply (post_trans P s s' s' [concat (pick rs ps)] [concat outs] [concat (keep rs ps)]); [exact S| |].
    + intros q. specialize (K q). cn.
    + apply post_refl. cn.
  - eapply (post_trans P s s' s' [concat (pick rs ps)] [] [concat (keep rs ps)]); [exact S| |].
    + intros q. specialize (K q). cn.
    + apply post_refl. cn.
Qed.

Lemma post_inv P s rs s' rs' : post P s [concat rs] s' [concat rs'] -> no_cloning (s, rs) ->
  no_cloning (s', rs') /\ (exists p, pipeline (bld s') = pipeline (bld s) ++ p /\ (P -> nmeas p + meas (bld s) = meas (bld s')) /\
    Forall (fun e => NoDup (fst e) /\ forall q, In q (fst e) -> q < bn (bld s')) p) /\ bn (bld s) <= bn (bld s').
Proof.
  intros (B & (p & E & Mm & C) & D) (N & R). cbn [fst] in R. cbn [concat] in C, D. 
  assert (N' : forall q, cnt q (concat rs) + cnt q (reserve s) <= 1) by (intros q; rewrite <- held_cnt; apply cnt_NoDup; exact N).
  assert (R' : forall q, 1 <= cnt q (concat rs) + cnt q (reserve s) -> q < bn (bld s)).
  { intros q Hq. apply R. apply cnt_In. rewrite held_cnt. exact Hq. }
  assert (F : forall q, cnt q (concat rs) + cnt q (reserve s) + ConserveProofs.fresh s s' q <= 1 /\
    (1 <= cnt q (concat rs) + cnt q (reserve s) + ConserveProofs.fresh s s' q -> q < bn (bld s'))).
  { intros q. specialize (N' q). specialize (R' q). unfold ConserveProofs.fresh.
    destruct (Nat.leb_spec (bn (bld s)) q), (Nat.ltb_spec q (bn (bld s'))); cbn [andb]; split; try lia. }
  split; [|split; [|exact B]].
  - split.
    + apply cnt_NoDup. intros q. rewrite held_cnt. specialize (D q). destruct (F q). rewrite !app_nil_r in D. lia.
    + intros q Hq. cbn [fst]. apply cnt_In in Hq. rewrite held_cnt in Hq. specialize (D q). destruct (F q). rewrite !app_nil_r in D. lia.
  - exists p. split; [exact E|]. split; [exact Mm|]. apply Forall_forall. intros e He. split.
    + apply cnt_NoDup. intros q. specialize (C e q He). destruct (F q). rewrite !app_nil_r in C. lia.
    + intros q Hq. apply cnt_In in Hq. specialize (C e q He). destruct (F q). rewrite !app_nil_r in C. lia.
Qed.

Definition good (cl : client) : Prop := no_cloning cl /\ entries_ok cl.

Lemma good_start : good start.
Proof. split; [split; [constructor|intros q []]|constructor]. Qed.

Lemma entries_mono n n' (p : pipe) : n <= n' -> Forall (fun e : list nat * cobj => NoDup (fst e) /\ forall q, In q (fst e) -> q < n) p ->
  Forall (fun e => NoDup (fst e) /\ forall q, In q (fst e) -> q < n') p.
Proof. intros H. apply Forall_impl. intros e (A & B). split; [exact A|]. intros q Hq. specialize (B q Hq). lia. Qed.

Lemma do_call_good cl c ps cl' : distinct_positions c -> legal (snd cl) ps -> do_call cl c ps = Some cl' -> good cl -> good cl'.
Proof.
  destruct cl as [s rs], cl' as [s' rs']. intros HD HL H (G1 & G2).
  apply (do_call_post False) in H; [|exact HD|intros []|exact HL].
  destruct (post_inv _ _ _ _ _ H G1) as (G1' & (p & E & _ & F) & B). split; [exact G1'|].
  unfold entries_ok in *. cbn [fst] in *. rewrite E. apply Forall_app. split; [|exact F].
  eapply entries_mono; [exact B|exact G2].
Qed.

Lemma reach_good cl cl' : reach distinct_positions cl cl' -> good cl -> good cl'.
Proof. intros H G. induction H; [exact G|]. eapply do_call_good; eauto. Qed.

Lemma reach_no_cloning cl : reach distinct_positions start cl -> no_cloning cl /\ entries_ok cl.
Proof. intros H. apply (reach_good _ _ H good_start). Qed.

Lemma pure_call_state d c args s : (exists is, c = CSplitRel is \/ c = CSplitAbs is) ->
  match run_call d c args s with Ret _ s' => s' = s | Fail _ s' => s' = s | Crash _ => True end.
Proof.
  intros (is & [-> | ->]); cbn [run_call]; unfold one; destruct args as [|r [|? ?]]; cbn; try exact I; unfold mbind, lift;
    [destruct (split_rel r is)|destruct (split_abs r is)]; cbn; auto.
Qed.

Lemma do_call_append cl c ps cl' : legal (snd cl) ps -> do_call cl c ps = Some cl' ->
  (exists p, pipeline (bld (fst cl')) = pipeline (bld (fst cl)) ++ p) /\ bn (bld (fst cl)) <= bn (bld (fst cl')).
Proof.
  destruct cl as [s rs], cl' as [s' rs']. intros HL H.
  assert (X : distinct_positions c \/ exists is, c = CSplitRel is \/ c = CSplitAbs is) by (destruct c; cbn; eauto).
  destruct X as [HD|HS].
  - apply (do_call_post False) in H; [|exact HD|intros []|exact HL]. destruct H as (B & (p & E & _) & _). cbn [fst]. eauto.
  - pose proof (pure_call_state (length (conds s)) c (pick rs ps) s HS) as Q. cbn [do_call] in H. cbn [fst].
    destruct (run_call _ c _ s); inversion H; subst; (split; [exists []; rewrite app_nil_r; reflexivity|lia]).
Qed.

Lemma reach_append ok cl cl' : reach ok cl cl' ->
  (exists p, pipeline (bld (fst cl')) = pipeline (bld (fst cl)) ++ p) /\ bn (bld (fst cl)) <= bn (bld (fst cl')).
Proof.
  intros H. induction H as [cl|cl1 cl2 cl3 c ps H IH Hc HL HD].
  - split; [exists []; rewrite app_nil_r; reflexivity|lia].
  - destruct IH as ((p1 & E1) & B1). destruct (do_call_append _ _ _ _ HL HD) as ((p2 & E2) & B2).
    split; [|lia]. exists (p1 ++ p2). rewrite E2, E1, app_assoc. reflexivity.
Qed.

(** Fresh qubits. *)
Lemma register_fresh cl k ps : reach distinct_positions start cl -> 0 < k -> ps = [] ->
  exists cl', do_call cl (CRegister k) ps = Some cl' /\
    snd cl' = snd cl ++ [seq (bn (bld (fst cl))) k] /\ bn (bld (fst cl')) = bn (bld (fst cl)) + k /\
    pipeline (bld (fst cl')) = pipeline (bld (fst cl)) /\
    (forall q, In q (seq (bn (bld (fst cl))) k) -> ~ In q (held cl) /\ forall e, In e (pipeline (bld (fst cl))) -> ~ In q (fst e)).
Proof.
  intros HR Hk ->. destruct (reach_no_cloning _ HR) as ((N & R) & E). destruct cl as [s rs]. cbn [fst snd] in *.
  assert (K : keep rs [] = rs).
  { unfold keep. cbn [existsb negb]. rewrite filter_all_true by reflexivity.
    apply nth_ext with (d := []) (d' := []); rewrite map_length, seq_length; [reflexivity|].
    intros n Hn. rewrite nth_indep with (d' := nth 0 rs []) by (rewrite map_length, seq_length; exact Hn).
    rewrite (map_nth (fun p => nth p rs [])), seq_nth by exact Hn. reflexivity. }
  exists (mkSt (mkB (pipeline (bld s)) (bn (bld s) + k) (zeroed (bld s)) (meas (bld s))) (conds s), rs ++ [seq (bn (bld s)) k]).
  split; [|split; [reflexivity|split; [reflexivity|split; [reflexivity|]]]].
  - cbn [do_call run_call pick map]. unfold out1, register, mbind, get, put, lift, ret. destruct k; [lia|]. cbn [seq new_reg unwrap_opt]. rewrite K. reflexivity.
  - intros q Hq. apply in_seq in Hq. split.
    + intros Hh. apply R in Hh. lia.
    + intros e He Hq'. unfold entries_ok in E. rewrite Forall_forall in E. destruct (E e He) as (_ & X). apply X in Hq'. cbn [fst] in Hq'. lia.
Qed.
