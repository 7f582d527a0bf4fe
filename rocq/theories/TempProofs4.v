From Coq Require Import Reals Lra ZArith QArith FunctionalExtensionality Permutation.
From Coquelicot Require Import Hierarchy RInt Complex.
From Verif Require Import Base BitsSpec BitsProofs OpsModel OpsSpec ConjSpec Instances BuilderModel MeasureSpec RegProofs MeasureProofs ConserveProofs HistorySpec HistoryProofs HistoryProofs2 TidyProofs NonemptyProofs SimModel DenSpec SimSpec DenProofs LocalProofs LinkProofs
  RunSpec RunProofs ProjSpec WholeSpec WholeProofs WholeProofs2 WholeProofs3 ShapeSpec ShapeProofs3 ShapeProofs4 AwaySpec AwayProofs TempSpec TempProofs TempProofs2 TempProofs3.
Local Open Scope nat_scope.
Local Open Scope mon_scope.

(** *** Programs that use temporaries as they should *)
Lemma honest_history N x cl : honest N x cl -> history cl.
Proof. induction 1 as [|cl c ps cl' H IH HL HC (W & _)]; [constructor|econstructor; eassumption]. Qed.
Lemma register_pool k s : match register k s with Ret _ s' => pipeline (bld s') = pipeline (bld s) /\ pool s' = pool s | Fail _ s' => pipeline (bld s') = pipeline (bld s) /\ pool s' = pool s | Crash _ => True end.
Proof. unfold register, mbind, get, lift, unwrap_opt. cbn. destruct (new_reg _); cbn; auto. Qed.
Lemma return_pool r s : match return_zeroed_temp_register r s with
  | Ret _ s' => pipeline (bld s') = pipeline (bld s) /\ forall q, In q (pool s') -> In q (pool s) \/ In q r
  | Fail _ s' => s' = s | Crash _ => True end.
Proof.
  unfold return_zeroed_temp_register, mbind, get, lift. destruct (split_all r) as [rs|e|p] eqn:E; cbn; [|reflexivity|exact I]. split; [reflexivity|].
  unfold pool. cbn. intros q Hq. rewrite concat_app in Hq. apply in_app_or in Hq. destruct Hq as [Hq|Hq]; [left; exact Hq|right].
  apply (split_all_cnt q) in E. apply cnt_In in Hq. apply cnt_In. lia.
Qed.
Lemma pool_zero_less N x s s' : pipeline (bld s') = pipeline (bld s) -> (forall ms, In ms (outcomes (measured (pipeline (bld s)))) -> clean (pool s') (branch (pipeline (bld s)) ms (ket N x))) -> pool_zero N x s'.
Proof. intros E H. unfold pool_zero. rewrite E. exact H. Qed.

Lemma honest_pool N x cl : honest N x cl -> bn (bld (fst cl)) <= N -> pool_zero N x (fst cl).
Proof.
  induction 1 as [|[s rs] c ps [s' rs'] H IH HL HC (Ca & W1 & W2)]; intros HN; cbn [fst snd] in *.
  - intros ms _ y q [].
  - destruct (history_inv _ (honest_history _ _ _ H)) as (_ & _ & Re). destruct (reach_tidy _ Re) as ((_ & _ & Pl) & _). cbn [fst snd] in Pl.
    destruct (reach_no_cloning _ Re) as (_ & EN). unfold entries_ok in EN. cbn [fst] in EN.
    assert (B : bn (bld s) <= bn (bld s')) by (apply (call_entries _ _ _ _ _ _ (proj1 Ca) HL HC)). specialize (IH ltac:(lia)).
    assert (G : match c with CRegister _ | CQudit _ | CReturnTemp | CSubcircuit _ | CInverter _ | CInvMacro _ => False | _ => True end -> pool_zero N x s').
    { intros Hc. apply (pool_step N x s s'); auto.
      - rewrite Forall_forall in *. intros e He q Hq. apply (EN e He); exact Hq.
      - destruct c; try destruct Hc; exact W2.
      - eapply call_pstep; try eassumption. destruct c; auto. }
    destruct c; try (apply G; exact I); clear G; try exact W1.
    + cbn [do_call run_call] in HC. unfold out1, mbind in HC. pose proof (register_pool k s) as P.
      destruct (register k s); inversion HC; subst; destruct P as (P1 & P2); apply (pool_zero_less N x s); auto; rewrite P2; exact IH.
    + cbn [do_call run_call] in HC. unfold qudit in HC. destruct (k =? 0); [cbn in HC; inversion HC; subst; exact IH|]. unfold mbind in HC. pose proof (register_pool k s) as P.
      destruct (register k s); cbn in HC; inversion HC; subst; destruct P as (P1 & P2); apply (pool_zero_less N x s); auto; rewrite P2; exact IH.
    + cbn [do_call run_call] in HC. unfold zero_now in W1. cbn [fst] in W1. destruct (pick rs ps) as [|r [|? ?]]; try discriminate HC. cbn [one] in HC. unfold mbind in HC. pose proof (return_pool r s) as P.
      destruct (return_zeroed_temp_register r s) as [u s1|e s1|p]; cbn in HC; inversion HC; subst.
      * destruct P as (P1 & P2). apply (pool_zero_less N x s); [exact P1|]. intros ms Hms. apply clean_all. intros q Hq. destruct (P2 q Hq) as [Hi|Hi].
        -- eapply clean_one; [apply IH; exact Hms|exact Hi].
        -- eapply clean_one; [apply W1; exact Hms|]. cbn. rewrite app_nil_r. exact Hi.
      * exact IH.
Qed.

(** *** What is handed out *)
Definition hands {A} (qs : A -> list nat) (m : M A) : Prop := forall s, match m s with
  | Ret a s' => (forall q, In q (qs a) -> idle s q) /\ (forall q, idle s' q -> idle s q)
  | Fail _ s' => forall q, idle s' q -> idle s q
  | Crash _ => True end.
Lemma hands_make : hands (fun r => r) make_zeroed_temp_qubit.
Proof.
  intros s. unfold make_zeroed_temp_qubit, mbind, get, idle, pool. destruct (rev (zeroed (bld s))) as [|r z] eqn:E.
  - cbn. rewrite <- (rev_involutive (zeroed (bld s))), E. cbn. split; [intros q [<-|[]]; left; lia|]. intros q [Hq|[]]. left. lia.
  - cbn. assert (E' : zeroed (bld s) = rev z ++ [r]) by (rewrite <- (rev_involutive (zeroed (bld s))), E; reflexivity). rewrite E', concat_app. cbn. split.
    + intros q Hq. right. apply in_or_app. right. rewrite app_nil_r. exact Hq.
    + intros q [Hq|Hq]; [left; lia|right; apply in_or_app; left; exact Hq].
Qed.
Lemma hands_mmap {B} (l : list B) : hands (@concat nat) (mmap (fun _ => make_zeroed_temp_qubit) l).
Proof.
  induction l as [|b l IH]; intros s; cbn [mmap].
  - cbn. split; [intros q []|auto].
  - unfold mbind. pose proof (hands_make s) as H. destruct (make_zeroed_temp_qubit s) as [r s1|e s1|p]; [|exact H|exact I]. destruct H as (H1 & H2).
    specialize (IH s1). destruct (mmap _ l s1) as [rs s2|e s2|p]; [| |exact I]; cbn.
    + destruct IH as (I1 & I2). split; [|auto]. intros q Hq. apply in_app_or in Hq. destruct Hq as [Hq|Hq]; auto.
    + auto.
Qed.
Lemma hands_makes k : hands (fun r => r) (make_zeroed_temp_register k).
Proof.
  intros s. unfold make_zeroed_temp_register, mbind. pose proof (hands_mmap (seq 0 k) s) as H. destruct (mmap _ (seq 0 k) s) as [rs s1|e s1|p]; [|exact H|exact I].
  destruct H as (H1 & H2). unfold lift. destruct (merge_registers rs) as [o|e|p] eqn:E; [|exact H2|exact I]. apply merge_registers_inv in E. destruct o as [r|]; cbn; [|exact I]. cbn in E. subst. split; [exact H1|exact H2].
Qed.
Lemma out1_idle (m : M reg) s rs c ps s' t : hands (fun r => r) m -> shrinks m -> run_call (length (conds s)) c (pick rs ps) = out1 m -> do_call (s, rs) c ps = Some (s', keep rs ps ++ [t]) ->
  pipeline (bld s') = pipeline (bld s) /\ forall q, In q t -> idle s q.
Proof.
  intros H S E HC. cbn [do_call] in HC. rewrite E in HC. unfold out1, mbind in HC. specialize (H s). specialize (S s). cbv zeta in S. destruct (m s) as [a s1|e s1|p]; cbn in HC; inversion HC; subst.
  - apply app_inj_tail in H2. destruct H2 as (_ & <-). tauto.
  - exfalso. match goal with X : _ = _ ++ [t] |- _ => apply (f_equal (@length _)) in X; rewrite app_length in X; cbn in X; lia end.
Qed.

Lemma zero_given N x cl c cl' t : honest N x cl -> c = CMakeTemp \/ (exists k, c = CMakeTemps k) -> do_call cl c [] = Some cl' -> snd cl' = snd cl ++ [t] ->
  bn (bld (fst cl')) <= N -> (forall i, bn (bld (fst cl)) <= i < bn (bld (fst cl')) -> x i = false) -> zero_now N x cl' t.
Proof.
  destruct cl as [s rs], cl' as [s' rs']. cbn [fst snd]. intros H Hc HC E HN Hx.
  destruct (history_inv _ (honest_history _ _ _ H)) as (_ & _ & Re). destruct (reach_no_cloning _ Re) as (_ & EN). unfold entries_ok in EN. cbn [fst] in EN.
  assert (HL : legal rs []) by (split; [constructor|intros p []]).
  assert (HD : distinct_positions c) by (destruct Hc as [->|(k & ->)]; exact I).
  assert (B : bn (bld s) <= bn (bld s')) by (apply (call_entries _ _ _ _ _ _ HD HL HC)).
  assert (K : keep rs [] = rs).
  { clear. unfold keep. cbn [existsb negb]. rewrite filter_all_true by reflexivity. apply seq_nth_map. }
  assert (X : pipeline (bld s') = pipeline (bld s) /\ forall q, In q t -> idle s q).
  { rewrite E in HC. rewrite <- K in HC at 2. destruct Hc as [->|(k & ->)]; (eapply out1_idle; [| | |exact HC]; [|..|reflexivity]); auto using hands_make, hands_makes, sh_make, sh_makes. }
  destruct X as (Ep & Hi). pose proof (honest_pool _ _ _ H ltac:(cbn [fst]; lia)) as P. cbn [fst] in P.
  unfold zero_now. cbn [fst]. rewrite Ep. intros ms Hms. apply clean_all. intros q Hq. destruct (Hi q Hq) as [Hb|Hb]; [|eapply clean_one; [apply P; exact Hms|exact Hb]].
  apply branch_untouched.
  - intros e He Hf. rewrite Forall_forall in EN. pose proof (proj2 (EN e He) q Hf) as Y. cbn in Y. lia.
  - pose proof (reach_no_cloning _ (reach_step _ _ _ _ _ _ Re HD HL HC)) as (NC & _). destruct (not_reserved _ q NC) as (_ & Y).
    + cbn [snd]. rewrite E, concat_app. apply in_or_app. right. cbn. rewrite app_nil_r. exact Hq.
    + cbn [fst] in Y. apply ket_clean; [lia|]. apply Hx. lia.
Qed.

(** *** In simulations *)
Lemma zero_run cl it x t draws : history cl -> Forall unitary_entry (pipeline (bld (fst cl))) -> Forall gate_or_meas (pipeline (bld (fst cl))) ->
  (forall r v, In (r, v) it -> in_range (bn (bld (fst cl))) r) -> loads it x -> (forall j, (0 < draws j <= 1)%R) -> zero_now (bn (bld (fst cl))) x cl t ->
  exists v out, calculate_state_with_init (bld (fst cl)) it draws = Ok (v, out) /\ clean t (st_of CN (bn (bld (fst cl))) v).
Proof.
  intros H U G R Lo D Z. destruct (run_branch (bld (fst cl)) it x draws R Lo (history_wf _ H) U G D) as (v & out & E & F & W & P & V).
  exists v, (results out). split; [exact E|]. rewrite V. intros y q Hq Hy. unfold scaled.
  assert (O : In (map fst out) (outcomes (measured (pipeline (bld (fst cl)))))) by (apply outcomes_ok; clear -F; induction F as [|qs o l l' (A & _) F IH]; constructor; assumption).
  rewrite (Z _ O y q Hq Hy). apply Cmult_0_r.
Qed.
Lemma zero_measured cl it x t : history cl -> Forall unitary_entry (pipeline (bld (fst cl))) -> Forall gate_or_meas (pipeline (bld (fst cl))) ->
  (forall r v, In (r, v) it -> in_range (bn (bld (fst cl))) r) -> loads it x -> In t (snd cl) -> zero_now (bn (bld (fst cl))) x cl t ->
  exists h s, measure_single t (fst cl) = Ret (t, h) s /\
    forall ms m, Forall2 (fun qs m => m < 2 ^ length qs) (measured (pipeline (bld (fst cl)))) ms -> 0 < m < 2 ^ length t ->
      over_draws (length (ms ++ [m])) (fun d => gives (calculate_state_with_init (bld s) it d) (ms ++ [m])) 0%R.
Proof.
  intros H U G R Lo Ht Z. destruct (history_inv _ H) as (_ & _ & Re). pose proof (reach_no_cloning _ Re) as (NC & _). pose proof (history_wf _ H) as W.
  destruct cl as [s rs]. cbn [fst snd] in *.
  assert (Hin : forall q, In q t -> In q (concat rs)) by (intros q Hq; apply in_concat; exists t; auto).
  assert (Nt : NoDup t).
  { destruct NC as (ND & _). unfold held in ND. cbn [fst snd] in ND. apply NoDup_app_iff in ND. destruct ND as (ND & _). apply cnt_NoDup. intros q. apply in_split in Ht. destruct Ht as (l1 & l2 & ->).
    apply cnt_NoDup with (q := q) in ND. rewrite concat_app in ND. cbn [concat] in ND. rewrite !cnt_app in ND. lia. }
  set (me := (t, mkCO (length t) (OMeas MSingle))).
  exists (meas (bld s)), (mkSt (mkB (pipeline (bld s) ++ [me]) (bn (bld s)) (zeroed (bld s)) (S (meas (bld s)))) (conds s)). split; [reflexivity|].
  intros ms m Hms Hm. cbn [bld].
  assert (Lms : length ms = length (measured (pipeline (bld s)))) by (symmetry; eapply Forall2_length'; exact Hms).
  replace 0%R with (weight (bn (bld s)) (branch (pipeline (bld s) ++ [me]) (ms ++ [m]) (ket (bn (bld s)) x))).
  - apply (joint_born (mkB (pipeline (bld s) ++ [me]) (bn (bld s)) (zeroed (bld s)) (S (meas (bld s)))) it x (ms ++ [m])); cbn [bn pipeline]; auto.
    + apply Forall_app; split; [exact W|]. constructor; [|constructor]. split; [exact Nt|]. split; [|exact I]. intros q Hq. apply (not_reserved (s, rs) q NC (Hin q Hq)).
    + apply Forall_app; split; auto. constructor; [exact I|constructor].
    + apply Forall_app; split; auto. constructor; [exact I|constructor].
    + rewrite measured_app. apply Forall2_app; [exact Hms|]. cbn. constructor; [lia|constructor].
  - rewrite branch_app by exact Lms. cbn [branch me co_obj]. unfold weight, below. apply rsum_zero. intros i _.
    set (phi := branch (pipeline (bld s)) ms (ket (bn (bld s)) x)). assert (C : clean t phi) by (apply Z, outcomes_ok, Hms). unfold proj. destruct (shows t m (dec (bn (bld s)) i)) eqn:E; [|rewrite Cmod_0; cbn; ring].
    destruct (existsb (dec (bn (bld s)) i) t) eqn:Ex.
    + apply existsb_exists in Ex. destruct Ex as (q & Hq & Hy). rewrite (C _ q Hq Hy), Cmod_0. cbn. ring.
    + exfalso. assert (X : m = 0); [|lia]. apply (shows_one t m 0 (dec (bn (bld s)) i)); [lia|lia|exact E|]. unfold shows. apply forallb_forall. intros j Hj. apply in_seq in Hj. rewrite Nat.bits_0.
      apply Bool.not_true_iff_false in Ex. destruct (dec (bn (bld s)) i (nth j t 0)) eqn:Ey; [|reflexivity]. exfalso. apply Ex. apply existsb_exists. exists (nth j t 0). split; [apply nth_In; lia|exact Ey].
Qed.
