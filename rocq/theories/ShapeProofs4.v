From Coq Require Import Reals ZArith QArith.
From Coquelicot Require Import Complex.
From Verif Require Import Base BitsProofs OpsModel StateOpsModel OpsSpec Instances MeasureModel MeasureSpec BuilderModel RegProofs HistorySpec HistoryProofs SimModel DenSpec DenProofs SimSpec SimProofs SimProofs2
  ProjSpec WholeSpec WholeProofs ShapeSpec ShapeProofs ShapeProofs3.
Local Open Scope nat_scope.

Lemma sized_wf n e : NoDup (fst e) /\ (forall q, In q (fst e) -> q < n) -> sized e -> wf_entry n e.
Proof.
  destruct e as [qs [k o]]. intros (A & B) (N & E & F). unfold wf_entry, fits in *. cbn [fst snd co_obj co_n] in *. split; [exact A|]. split; [exact B|].
  subst k. destruct o as [u|m]; [|exact I]. destruct u; cbn [wf_unitary]; auto; (split; [exact N|apply F]).
Qed.
Lemma history_wf cl : history cl -> Forall (wf_entry (bn (bld (fst cl)))) (pipeline (bld (fst cl))).
Proof.
  intros H. destruct (history_inv cl H) as ((S & _) & _ & R). pose proof (proj2 (reach_no_cloning cl R)) as K. unfold entries_ok in K.
  rewrite Forall_forall in *. intros e He. apply sized_wf; [apply K|apply S]; exact He.
Qed.
Lemma unitary_op_wf u qs op : unitary_op qs u = Ok op -> wf_unitary u qs.
Proof.
  assert (One : forall (d : list C) q, length d = 4 -> make_matrix_op q d = Ok op -> length q = 1).
  { intros d q L H. unfold make_matrix_op in H. rewrite L in H. destruct q as [|a [|b q]]; [discriminate|reflexivity|]. exfalso. change (length (a :: b :: q)) with (S (S (length q))) in H.
    assert (X : 4 =? 2 ^ (2 * S (S (length q))) = false); [|rewrite X in H; discriminate].
    apply Nat.eqb_neq. replace (2 * S (S (length q))) with (2 * length q + 4) by lia. rewrite Nat.pow_add_r. pose proof (Nat.pow_nonzero 2 (2 * length q)). change (2 ^ 4) with 16. nia. }
  destruct u; cbn [unitary_op wf_unitary]; intros H; try (revert H; apply One; reflexivity).
  - destruct qs as [|c qs]; cbn [idx nth_error bind] in H; [discriminate|]. unfold slice in H. cbn [length] in H. 
    replace ((1 <=? S (length qs)) && (S (length qs) <=? S (length qs))) with true in H by (symmetry; apply andb_true_intro; split; apply Nat.leb_le; lia).
    cbn [bind skipn] in H. replace (S (length qs) - 1) with (length qs) in H by lia. rewrite firstn_all in H.
    destruct qs as [|a [|b q]]; [discriminate|reflexivity|]. exfalso. unfold make_matrix_op in H at 1. cbn [length] in H.
    assert (X : 4 =? 2 ^ (2 * S (S (length q))) = false).
    { apply Nat.eqb_neq. replace (2 * S (S (length q))) with (2 * length q + 4) by lia. rewrite Nat.pow_add_r. pose proof (Nat.pow_nonzero 2 (2 * length q)). change (2 ^ 4) with 16. nia. }
    rewrite X in H. discriminate.
  - destruct (length qs mod 2 =? 0) eqn:M; cbn [negb] in H; [|discriminate]. apply Nat.eqb_eq in M. split; [intros ->; discriminate|].
    exists (length qs / 2). pose proof (Nat.div_mod (length qs) 2). lia.
  - unfold make_matrix_op in H. destruct qs as [|q qs]; [discriminate|]. split; [discriminate|]. cbn [length Nat.eqb] in H.
    destruct (length data =? 2 ^ (2 * S (length qs))) eqn:E; cbn [negb] in H; [|discriminate]. apply Nat.eqb_eq. exact E.
  - exact I.
Qed.
Lemma step_suits n draws s e s' : sim_step n draws s e = Ok s' -> suits e.
Proof.
  destruct s as [[v a] ms], e as [qs [k o]]. unfold sim_step, suits. cbn [co_obj fst snd]. destruct o as [u|m]; [|intros _; exact I].
  destruct u; try (intros _; exact I); destruct (unitary_op qs _) as [op| |] eqn:E; try discriminate; intros _; exact (unitary_op_wf _ _ _ E).
Qed.
Lemma run_suits b it draws v ms : calculate_state_with_init b it draws = Ok (v, ms) -> Forall suits (pipeline b).
Proof.
  unfold calculate_state_with_init. destruct (initial_index (bn b) it) as [i| |]; cbn [bind]; try discriminate. destruct (idx _ i); cbn [bind]; try discriminate.
  generalize (upd_nth i (RtoC 1) (repeat (RtoC 0) (2 ^ bn b)), repeat (RtoC 0) (2 ^ bn b), @nil mresult) as s. generalize (bn b) as n.
  intros n s H. destruct (foldM (sim_step n draws) (pipeline b) s) as [s'| |] eqn:E; try discriminate. clear H. revert s s' E.
  induction (pipeline b) as [|e p IH]; intros s s' E; [constructor|]. cbn [foldM] in E. destruct (sim_step n draws s e) as [s1| |] eqn:E1; cbn [bind] in E; try discriminate.
  constructor; [exact (step_suits _ _ _ _ _ E1)|exact (IH _ _ E)].
Qed.
Lemma run_no_error b it draws e : (forall r v, In (r, v) it -> in_range (bn b) r) -> NoDup (concat (map fst it)) -> calculate_state_with_init b it draws <> Err e.
Proof.
  intros R N. unfold calculate_state_with_init. rewrite (initial_index_ok _ _ (loaded it) R (loads_loaded it N)). cbn [bind]. destruct (idx _ _) eqn:E; cbn [bind]; try discriminate.
  - destruct (foldM _ _ _) as [[[? ?] ?]| |]; discriminate.
  - unfold idx in E. destruct (nth_error _ _); discriminate.
Qed.
Lemma run_exactly cl it draws : reach distinct_positions start cl -> (forall r v, In (r, v) it -> in_range (bn (bld (fst cl))) r) -> NoDup (concat (map fst it)) ->
  ((exists v ms, calculate_state_with_init (bld (fst cl)) it draws = Ok (v, ms)) /\ Forall suits (pipeline (bld (fst cl)))) \/
  ((exists p, calculate_state_with_init (bld (fst cl)) it draws = Panic p) /\ ~ Forall suits (pipeline (bld (fst cl)))).
Proof.
  intros Re R N. pose proof (proj2 (reach_no_cloning cl Re)) as K. unfold entries_ok in K.
  destruct (calculate_state_with_init (bld (fst cl)) it draws) as [[v ms]|e|p] eqn:E.
  - left. split; [eauto|]. eapply run_suits. exact E.
  - destruct (run_no_error _ _ _ _ R N E).
  - right. split; [eauto|]. intros S. destruct (run_exact (bld (fst cl)) it (loaded it) draws R (loads_loaded it N)) as (v & ms & last & X & _); [|congruence].
    rewrite Forall_forall in *. intros e He. specialize (K e He). specialize (S e He). split; [apply K|]. split; [apply K|exact S].
Qed.
Lemma never_panics cl it draws : history cl -> (forall r v, In (r, v) it -> in_range (bn (bld (fst cl))) r) -> NoDup (concat (map fst it)) ->
  exists x v ms last, loads it x /\ calculate_state_with_init (bld (fst cl)) it draws = Ok (v, ms) /\ length v = 2 ^ bn (bld (fst cl)) /\
    steps (bn (bld (fst cl))) draws (mkSim (ket (bn (bld (fst cl))) x) (fun _ => RtoC 0) []) (pipeline (bld (fst cl))) (mkSim (st_of CN (bn (bld (fst cl))) v) last ms).
Proof.
  intros H R N. exists (loaded it). destruct (run_exact (bld (fst cl)) it (loaded it) draws R (loads_loaded it N) (history_wf cl H)) as (v & ms & last & A & B & C).
  exists v, ms, last. split; [apply loads_loaded; exact N|]. auto.
Qed.
